(** C123: the lowpass oracle goes through each of its bands in turn. *)
From Coq Require Import ZArith List Bool Arith.
From Verif Require Import Num Res Arr ArrLemmas CuttingPlane Spec Lowpass LowpassSpec RobinLpSpec RobinLp.
Import ListNotations.
Open Scope nat_scope.

(** One call, any number type: the first bad frequency of the pass band after the one cut
    with last is the cut; with none, the stop band is gone through in the same way; with
    none there either, the transition band. *)
Theorem C123_call : forall (N : Num) n (o : Lowpass N) (x : Arr N), lw_ok n o -> is_vec n x ->
  exists o' r, lowpass_feas o x = Ok (o', r) /\ lw_ok n o' /\ lw_same o o' /\ lw_sp o' = lw_sp o /\ band_by_band n o o' x r.
Proof. exact @feas_turn. Qed.
Print Assumptions C123_call.

(** Consecutive calls of assess_optim, as many as the band has frequencies or more: a
    frequency bad at each of them (the bands before it being all good) is the cut of one. *)
Theorem C123_pass_fair : forall (N : Num) n (o : Lowpass N) tr o2 k, lw_ok n o -> lw_asked o tr o2 ->
  (0 <= k < lw_nwpass o)%Z -> (lw_nwpass o <= Z.of_nat (length tr))%Z ->
  (forall (x : Arr N) sp g c, In (x, sp, g, c) tr -> is_vec n x /\ bad_pass n (set_level o sp) x (Z.to_nat k) = true) ->
  exists (x : Arr N) sp g c, In (x, sp, g, c) tr /\ pass_cut n (set_level o sp) x (Z.to_nat k) g c.
Proof. exact @pass_fair. Qed.
Print Assumptions C123_pass_fair.
Theorem C123_stop_fair : forall (N : Num) n (o : Lowpass N) tr o2 k, lw_ok n o -> lw_asked o tr o2 ->
  (lw_nwstop o <= k < Z.of_nat (length (lw_spectrum o)))%Z -> (Z.of_nat (length (lw_spectrum o)) - lw_nwstop o <= Z.of_nat (length tr))%Z ->
  (forall (x : Arr N) sp g c, In (x, sp, g, c) tr -> is_vec n x /\ band_good 0 (lw_nwpass o) (bad_pass n (set_level o sp) x) /\
     bad_stop n (set_level o sp) x (Z.to_nat k) = true) ->
  exists (x : Arr N) sp g c, In (x, sp, g, c) tr /\ stop_cut n (set_level o sp) x (Z.to_nat k) g c.
Proof. exact @stop_fair. Qed.
Print Assumptions C123_stop_fair.
Theorem C123_trans_fair : forall (N : Num) n (o : Lowpass N) tr o2 k, lw_ok n o -> lw_asked o tr o2 ->
  (lw_nwpass o <= k < lw_nwstop o)%Z -> (lw_nwstop o - lw_nwpass o <= Z.of_nat (length tr))%Z ->
  (forall (x : Arr N) sp g c, In (x, sp, g, c) tr -> is_vec n x /\ band_good 0 (lw_nwpass o) (bad_pass n (set_level o sp) x) /\
     band_good (lw_nwstop o) (Z.of_nat (length (lw_spectrum o))) (bad_stop n (set_level o sp) x) /\ bad_trans n (set_level o sp) x (Z.to_nat k) = true) ->
  exists (x : Arr N) sp g c, In (x, sp, g, c) tr /\ trans_cut n (set_level o sp) x (Z.to_nat k) g c.
Proof. exact @trans_fair. Qed.
Print Assumptions C123_trans_fair.

(** In double arithmetic: four frequencies of which the pass band has two, both too high at
    the point 3. Three calls at that point cut with the first, the second and the first. *)
Example C123_case : lw_ok 1 lw_case /\ turns lw_case (mkArr (N := FNum lm0) [nZ 3] 1 0) (nZ 1) = true.
Proof. exact (conj lw_case_ok turns_case). Qed.
