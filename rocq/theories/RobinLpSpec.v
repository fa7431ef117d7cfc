(** Taking the frequencies of a band in turn (C123). *)
From Coq Require Import ZArith List Bool Arith.
From Verif Require Import Num Res Arr ArrLemmas CuttingPlane Spec Lowpass LowpassSpec.
Import ListNotations.
Open Scope nat_scope.

(** [k] places after [idx] in the cycle lo, lo+1, ..., hi-1; [lo - 1] is before the first *)
Definition place (lo hi idx : Z) (k : nat) : Z := (lo + (idx - lo + Z.of_nat k) mod (hi - lo))%Z.
(** [idx'] is the first bad frequency of the band after [idx] *)
Definition first_bad (lo hi : Z) (bad : nat -> bool) (idx idx' : Z) : Prop :=
  exists k, 1 <= k <= Z.to_nat (hi - lo) /\ idx' = place lo hi idx k /\ bad (Z.to_nat idx') = true /\
    forall j, 1 <= j < k -> bad (Z.to_nat (place lo hi idx j)) = false.
Definition band_good (lo hi : Z) (bad : nat -> bool) : Prop := forall k, (lo <= k < hi)%Z -> bad (Z.to_nat k) = false.

Section S.
Context {N : Num}.
(** the tests of the three bands at frequency [k], as the code computes them *)
Definition bad_pass (n : nat) (o : Lowpass N) (x : Arr N) (k : nat) : bool := (v_resp n o x k >?! lw_up o) || (v_resp n o x k <?! lw_lp o).
Definition bad_stop (n : nat) (o : Lowpass N) (x : Arr N) (k : nat) : bool := (v_resp n o x k >?! lw_sp o) || (v_resp n o x k <?! n0).
Definition bad_trans (n : nat) (o : Lowpass N) (x : Arr N) (k : nat) : bool := v_resp n o x k <?! n0.
(** the cuts at frequency [k] *)
Definition pass_cut (n : nat) (o : Lowpass N) (x : Arr N) (k : nat) (g : Arr N) (c : ParallelCut N) : Prop :=
  let v := v_resp n o x k in let row := nth k (lw_spectrum o) (a_new 0) in
  if v >?! lw_up o then g = row /\ c = mkParallel (v -! lw_up o) (Some (v -! lw_lp o))
  else g = neg_row row /\ c = mkParallel (-! v +! lw_lp o) (Some (-! v +! lw_up o)).
Definition stop_cut (n : nat) (o : Lowpass N) (x : Arr N) (k : nat) (g : Arr N) (c : ParallelCut N) : Prop :=
  let v := v_resp n o x k in let row := nth k (lw_spectrum o) (a_new 0) in
  if v >?! lw_sp o then g = row /\ c = mkParallel (v -! lw_sp o) (Some v)
  else g = neg_row row /\ c = mkParallel (-! v) (Some (-! v +! lw_sp o)).
Definition trans_cut (n : nat) (o : Lowpass N) (x : Arr N) (k : nat) (g : Arr N) (c : ParallelCut N) : Prop :=
  g = neg_row (nth k (lw_spectrum o) (a_new 0)) /\ c = mkParallel (-! v_resp n o x k) None.
(** One call of assess_feas: the pass band comes first, then the stop band, then the
    transition band; each is gone through from where it was left. *)
Definition band_by_band (n : nat) (o o' : Lowpass N) (x : Arr N) (r : option (Arr N * ParallelCut N)) : Prop :=
  let m := Z.of_nat (length (lw_spectrum o)) in
  (first_bad 0 (lw_nwpass o) (bad_pass n o x) (lw_idx1 o) (lw_idx1 o') /\ lw_idx2 o' = lw_idx2 o /\ lw_idx3 o' = lw_idx3 o /\
     exists g c, r = Some (g, c) /\ pass_cut n o x (Z.to_nat (lw_idx1 o')) g c) \/
  (band_good 0 (lw_nwpass o) (bad_pass n o x) /\
   first_bad (lw_nwstop o) m (bad_stop n o x) (lw_idx3 o) (lw_idx3 o') /\ lw_idx2 o' = lw_idx2 o /\
     exists g c, r = Some (g, c) /\ stop_cut n o x (Z.to_nat (lw_idx3 o')) g c) \/
  (band_good 0 (lw_nwpass o) (bad_pass n o x) /\ band_good (lw_nwstop o) m (bad_stop n o x) /\
   first_bad (lw_nwpass o) (lw_nwstop o) (bad_trans n o x) (lw_idx2 o) (lw_idx2 o') /\
     exists g c, r = Some (g, c) /\ trans_cut n o x (Z.to_nat (lw_idx2 o')) g c) \/
  (band_good 0 (lw_nwpass o) (bad_pass n o x) /\ band_good (lw_nwstop o) m (bad_stop n o x) /\ band_good (lw_nwpass o) (lw_nwstop o) (bad_trans n o x)).

(** consecutive calls of assess_optim: point, level, gradient, offsets *)
Inductive lw_asked : Lowpass N -> list (Arr N * N * Arr N * ParallelCut N) -> Lowpass N -> Prop :=
| lw_asked_nil o : lw_asked o [] o
| lw_asked_cons o x sp o1 sp1 g c b tr o2 : lowpass_assess o x sp = Ok (o1, sp1, ((g, c), b)) ->
    lw_asked o1 tr o2 -> lw_asked o ((x, sp, g, c) :: tr) o2.
End S.
