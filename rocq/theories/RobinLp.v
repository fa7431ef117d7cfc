(** The lowpass oracle takes the frequencies of its bands in turn (C123). *)
From Coq Require Import ZArith Reals List Bool Arith Lia.
From Verif Require Import Num Res Arr ArrLemmas CuttingPlane Spec LmiSpec ExtSpec Lowpass LowpassSpec LowpassProofs RobinLpSpec ProfitSpec.
Import ListNotations.
Open Scope nat_scope.

Section Round.
Context {S R : Type}.
Variables (lo hi : Z) (step : Z -> S -> res (ctl S R)) (bad : nat -> bool) (Q : Z -> R -> Prop).
Hypothesis Hlo : (lo < hi)%Z.
Hypothesis Hstep : forall k s, (lo <= k < hi)%Z ->
  (bad (Z.to_nat k) = false /\ exists s', step k s = Ok (Next s')) \/ (bad (Z.to_nat k) = true /\ exists r, step k s = Ok (Done r) /\ Q k r).
Lemma place_in idx k : (lo <= place lo hi idx k < hi)%Z.
Proof. unfold place. pose proof (Z.mod_pos_bound (idx - lo + Z.of_nat k) (hi - lo) ltac:(lia)). lia. Qed.
Lemma place_0 idx : (lo - 1 <= idx <= hi - 1)%Z -> next_idx lo hi idx = place lo hi idx 1.
Proof. intros H. rewrite next_mod by lia. unfold place. f_equal. Qed.
Lemma place_S idx k : next_idx lo hi (place lo hi idx k) = place lo hi idx (Datatypes.S k).
Proof.
  rewrite next_mod by (pose proof (place_in idx k); lia). unfold place.
  replace (lo + (idx - lo + Z.of_nat k) mod (hi - lo) - lo + 1)%Z with (1 + (idx - lo + Z.of_nat k) mod (hi - lo))%Z by lia. rewrite Zplus_mod_idemp_r. f_equal. f_equal. lia.
Qed.
Lemma place_reach idx k : (lo - 1 <= idx <= hi - 1)%Z -> (lo <= k < hi)%Z -> exists d, 1 <= d <= Z.to_nat (hi - lo) /\ place lo hi idx d = k.
Proof.
  intros H Hk. exists (Z.to_nat ((k - idx - 1) mod (hi - lo) + 1)). pose proof (Z.mod_pos_bound (k - idx - 1) (hi - lo) ltac:(lia)). split; [lia|].
  unfold place. rewrite Z2Nat.id by lia. replace (idx - lo + ((k - idx - 1) mod (hi - lo) + 1))%Z with (idx - lo + 1 + (k - idx - 1) mod (hi - lo))%Z by lia. rewrite Zplus_mod_idemp_r.
  replace (idx - lo + 1 + (k - idx - 1))%Z with (k - lo)%Z by lia. rewrite Z.mod_small by lia. lia.
Qed.
Lemma place_on idx k d : k <= d -> place lo hi (place lo hi idx k) (d - k) = place lo hi idx d.
Proof.
  intros H. unfold place. replace (lo + (idx - lo + Z.of_nat k) mod (hi - lo) - lo + Z.of_nat (d - k))%Z with (Z.of_nat (d - k) + (idx - lo + Z.of_nat k) mod (hi - lo))%Z by lia. rewrite Zplus_mod_idemp_r. f_equal. f_equal. lia.
Qed.
Lemma round_turn idx s : (lo - 1 <= idx <= hi - 1)%Z ->
  exists c, lowpass_round lo hi step idx s = Ok c /\
    match c with
    | Next (idx', s') => band_good lo hi bad
    | Done (idx', s', r) => first_bad lo hi bad idx idx' /\ Q idx' r
    end.
Proof.
  intros Hi. unfold lowpass_round.
  pose (P := fun (t : nat) (st : Z * S) => fst st = (match t with O => idx | _ => place lo hi idx t end) /\ forall j, 1 <= j <= t -> bad (Z.to_nat (place lo hi idx j)) = false).
  pose (QQ := fun r : Z * S * R => let '(i, s', r) := r in first_bad lo hi bad idx i /\ Q i r).
  match goal with |- exists c, loop_range 0 ?n ?B _ = _ /\ _ =>
    destruct (loop_range_inv P QQ 0 n B (idx, s)) as [(st & E & P1)|(r & E & Q1)] end.
  - lia.
  - split; [reflexivity|intros; lia].
  - intros t [i s1] Ht [P1 P2]. cbn [fst snd] in *.
    assert (Ni : next_idx lo hi i = place lo hi idx (Datatypes.S t)). { rewrite P1. destruct t as [|t]; [apply place_0; exact Hi|apply place_S]. }
    change (if (i + 1 =? hi)%Z then lo else (i + 1)%Z) with (next_idx lo hi i). rewrite Ni.
    destruct (Hstep (place lo hi idx (Datatypes.S t)) s1 (place_in _ _)) as [(B & s' & E)|(B & r & E & Qr)]; rewrite E; cbn [bind].
    + left. eexists. split; [reflexivity|]. split; [reflexivity|]. intros j Hj. destruct (Nat.eq_dec j (Datatypes.S t)) as [->|]; [exact B|]. apply P2. lia.
    + right. eexists. split; [reflexivity|]. split; [|exact Qr]. exists (Datatypes.S t). split; [lia|]. split; [reflexivity|]. split; [exact B|]. intros j Hj. apply P2. lia.
  - rewrite E. eexists. split; [reflexivity|]. destruct st as [i s1]. destruct P1 as [_ P2]. intros k Hk. destruct (place_reach idx k Hi Hk) as (d & Hd & <-). apply P2. lia.
  - rewrite E. eexists. split; [reflexivity|]. destruct r as [[i s1] r]. exact Q1.
Qed.
End Round.
Lemma round_empty {S R : Type} lo (step : Z -> S -> res (ctl S R)) idx s : lowpass_round lo lo step idx s = Ok (Next (idx, s)).
Proof. unfold lowpass_round. rewrite Z.sub_diag. reflexivity. Qed.
Lemma round_any {S R : Type} lo hi (step : Z -> S -> res (ctl S R)) bad Q idx s : (lo <= hi)%Z ->
  (forall k s, (lo <= k < hi)%Z -> (bad (Z.to_nat k) = false /\ exists s', step k s = Ok (Next s')) \/ (bad (Z.to_nat k) = true /\ exists r, step k s = Ok (Done r) /\ Q k r)) ->
  (lo - 1 <= idx <= hi - 1)%Z \/ lo = hi ->
  exists c, lowpass_round lo hi step idx s = Ok c /\
    match c with
    | Next (idx', s') => band_good lo hi bad
    | Done (idx', s', r) => first_bad lo hi bad idx idx' /\ Q idx' r
    end.
Proof.
  intros H Hs Hi. destruct (Z.eq_dec lo hi) as [->|Ne].
  - rewrite round_empty. eexists. split; [reflexivity|]. intros k Hk. lia.
  - apply round_turn; auto; [lia|]. destruct Hi; [assumption|lia].
Qed.

Section Any.
Context {N : Num}.
Notation arr := (Arr N).
Section One.
Variables (n : nat) (o : Lowpass N) (x : arr).
Hypotheses (Ho : lw_ok n o) (Hx : is_vec n x).
Notation m := (length (lw_spectrum o)).
Lemma feas_turn : exists o' r, lowpass_feas o x = Ok (o', r) /\ lw_ok n o' /\ lw_same o o' /\ lw_sp o' = lw_sp o /\ band_by_band n o o' x r.
Proof.
  assert (T : tracks n o x (fun _ _ => True)) by (split; auto). destruct (lowpass_feas_ok n o x Ho Hx _ T) as (o' & r & E & O' & Sm & Sp & _).
  exists o', r. split; [exact E|]. split; [exact O'|]. split; [exact Sm|]. split; [exact Sp|]. clear T O' Sm Sp.
  pose proof Ho as (Hn & Hm & Hr & H1 & H2 & I1 & I2 & I3). unfold lowpass_feas in E. unfold band_by_band. cbv zeta.
  rewrite (rd_nth _ _ (a_new 0)) in E by lia. cbn [bind] in E.
  destruct (round_any 0 (lw_nwpass o) (pass_step o x) (bad_pass n o x) (fun k r => pass_cut n o x (Z.to_nat k) (fst r) (snd r)) (lw_idx1 o) tt) as (c1 & E1 & C1).
  { lia. }
  { intros k s Hk. unfold pass_step, bad_pass, pass_cut. rewrite (col_ok n o x Ho Hx) by lia. cbv zeta.
    destruct (v_resp n o x (Z.to_nat k) >?! lw_up o) eqn:A; [right; split; [reflexivity|]; eexists; split; [reflexivity|split; reflexivity]|].
    destruct (v_resp n o x (Z.to_nat k) <?! lw_lp o) eqn:B; [right; split; [reflexivity|]; eexists; split; [reflexivity|split; reflexivity]|].
    left. split; [reflexivity|]. eexists; reflexivity. }
  { destruct I1 as [I1|I1]; [left; lia|right; lia]. }
  rewrite E1 in E. cbn [bind] in E. destruct c1 as [[idx1 []]|[[idx1 []] [g c]]].
  2: { injection E as <- <-. left. destruct C1 as [C1 C2]. cbn. split; [exact C1|]. split; [reflexivity|]. split; [reflexivity|]. exists g, c. split; [reflexivity|exact C2]. }
  right.
  destruct (round_any (lw_nwstop o) (Z.of_nat m) (stop_step o x) (bad_stop n o x) (fun k r => stop_cut n o x (Z.to_nat k) (fst r) (snd r)) (lw_idx3 o) (nninf, (-1)%Z)) as (c3 & E3 & C3).
  { lia. }
  { intros k s Hk. unfold stop_step, bad_stop, stop_cut. rewrite (col_ok n o x Ho Hx) by lia. cbv zeta.
    destruct (v_resp n o x (Z.to_nat k) >?! lw_sp o) eqn:A; [right; split; [reflexivity|]; eexists; split; [reflexivity|split; reflexivity]|].
    destruct (v_resp n o x (Z.to_nat k) <?! n0) eqn:B; [right; split; [reflexivity|]; eexists; split; [reflexivity|split; reflexivity]|].
    left. split; [reflexivity|]. destruct (v_resp n o x (Z.to_nat k) >?! fst s); eexists; reflexivity. }
  { left. lia. }
  rewrite E3 in E. cbn [bind] in E. destruct c3 as [[idx3 [fmax kmax]]|[[idx3 [fmax kmax]] [g c]]].
  2: { injection E as <- <-. left. split; [exact C1|]. destruct C3 as [C3 C4]. cbn. split; [exact C3|]. split; [reflexivity|]. exists g, c. split; [reflexivity|exact C4]. }
  right.
  destruct (round_any (lw_nwpass o) (lw_nwstop o) (trans_step o x) (bad_trans n o x) (fun k r => trans_cut n o x (Z.to_nat k) (fst r) (snd r)) (lw_idx2 o) tt) as (c2 & E2 & C2).
  { lia. }
  { intros k s Hk. unfold trans_step, bad_trans, trans_cut. rewrite (col_ok n o x Ho Hx) by lia.
    destruct (v_resp n o x (Z.to_nat k) <?! n0) eqn:B; [right; split; [reflexivity|]; eexists; split; [reflexivity|split; reflexivity]|].
    left. split; [reflexivity|]. eexists; reflexivity. }
  { left. lia. }
  rewrite E2 in E. cbn [bind] in E. destruct c2 as [[idx2 []]|[[idx2 []] [g c]]].
  2: { injection E as <- <-. left. split; [exact C1|]. split; [exact C3|]. destruct C2 as [C2 C4]. cbn. split; [exact C2|]. exists g, c. split; [reflexivity|exact C4]. }
  right. auto.
Qed.
End One.

(** ** Fairness *)
Lemma set_ok n (o : Lowpass N) sp : lw_ok n o -> lw_ok n (set_level o sp). Proof. exact (fun H => H). Qed.
Lemma assess_turn n (o : Lowpass N) x sp : lw_ok n o -> is_vec n x -> forall o1 sp1 g c b, lowpass_assess o x sp = Ok (o1, sp1, ((g, c), b)) ->
  exists r, lw_ok n o1 /\ lw_same o o1 /\ band_by_band n (set_level o sp) o1 x r /\ (forall k, r = Some k -> k = (g, c)).
Proof.
  intros Ho Hx o1 sp1 g c b E. destruct (feas_turn n (set_level o sp) x (set_ok n o sp Ho) Hx) as (o' & r & E1 & O1 & S1 & _ & T).
  unfold lowpass_assess in E. change (lowpass_feas _ x) with (lowpass_feas (set_level o sp) x) in E. rewrite E1 in E. cbn [bind] in E.
  destruct r as [k|].
  - injection E as <- _ <- _. exists (Some k). split; [exact O1|]. split; [exact S1|]. split; [exact T|]. intros q Q. now injection Q.
  - destruct (rdz (lw_spectrum o') (lw_kmax o')); [|discriminate]. cbn [bind] in E. injection E as <- _ _ _ _. exists None. split; [exact O1|]. split; [exact S1|]. split; [exact T|]. discriminate.
Qed.

Section Fair.
Variables (inv : Lowpass N -> Prop) (ix : Lowpass N -> Z) (lo hi k : Z) (D : arr -> N -> Prop) (B : arr -> N -> nat -> bool) (C : arr -> N -> nat -> arr -> ParallelCut N -> Prop).
Hypothesis Hk : (0 <= lo <= k)%Z /\ (k < hi)%Z.
Hypothesis Hix : forall o, inv o -> (lo - 1 <= ix o <= hi - 1)%Z.
Hypothesis Hs : forall o x sp o1 sp1 g c b, inv o -> D x sp -> lowpass_assess o x sp = Ok (o1, sp1, ((g, c), b)) ->
  inv o1 /\ first_bad lo hi (B x sp) (ix o) (ix o1) /\ C x sp (Z.to_nat (ix o1)) g c.
Hypothesis Hb : forall x sp, D x sp -> B x sp (Z.to_nat k) = true.
Lemma fair_lw tr : forall o o2 d, lw_asked o tr o2 -> inv o -> 1 <= d <= length tr -> place lo hi (ix o) d = k ->
  (forall x sp g c, In (x, sp, g, c) tr -> D x sp) -> exists x sp g c, In (x, sp, g, c) tr /\ C x sp (Z.to_nat k) g c.
Proof.
  induction tr as [|[[[x sp] g] c] tr IH]; intros o o2 d Hc Io Hd Ht Hv; [cbn in Hd; lia|].
  assert (CC : exists o1 sp1 b, lowpass_assess o x sp = Ok (o1, sp1, ((g, c), b)) /\ lw_asked o1 tr o2) by (inversion Hc; subst; eauto).
  destruct CC as (o1 & sp1 & b & Ea & Ec). pose proof (Hv x sp g c (or_introl eq_refl)) as Dx.
  destruct (Hs o x sp o1 sp1 g c b Io Dx Ea) as (I1 & (j & Hj & Ej & Bj & Sj) & Cu).
  destruct (le_lt_dec d j) as [L|L].
  - destruct (Nat.eq_dec j d) as [->|Ne].
    + exists x, sp, g, c. split; [left; reflexivity|]. rewrite Ej, Ht in Cu. exact Cu.
    + specialize (Sj d ltac:(lia)). rewrite Ht, (Hb x sp Dx) in Sj. discriminate.
  - destruct (IH o1 o2 (d - j) Ec I1) as (x2 & sp2 & g2 & c2 & I2 & C2).
    + cbn [length] in Hd. lia.
    + rewrite Ej, place_on by lia. exact Ht.
    + intros x3 sp3 g3 c3 I3. apply (Hv x3 sp3 g3 c3). right. exact I3.
    + exists x2, sp2, g2, c2. split; [right; exact I2|exact C2].
Qed.
Lemma fair_all tr o o2 : lw_asked o tr o2 -> inv o -> (hi - lo <= Z.of_nat (length tr))%Z -> (forall x sp g c, In (x, sp, g, c) tr -> D x sp) ->
  exists x sp g c, In (x, sp, g, c) tr /\ C x sp (Z.to_nat k) g c.
Proof.
  intros Hc Io Hl Hv. destruct (place_reach lo hi ltac:(lia) (ix o) k (Hix o Io) ltac:(lia)) as (d & Hd & E). apply (fair_lw tr o o2 d Hc Io ltac:(lia) E Hv).
Qed.
End Fair.

Lemma same_trans (a b c : Lowpass N) : lw_same a b -> lw_same b c -> lw_same a c.
Proof. intros (A & B & C & D & E) (A' & B' & C' & D' & E'). repeat split; congruence. Qed.
Lemma bad_same n (a b : Lowpass N) sp x k : lw_same a b ->
  bad_pass n (set_level b sp) x k = bad_pass n (set_level a sp) x k /\ bad_stop n (set_level b sp) x k = bad_stop n (set_level a sp) x k /\ bad_trans n (set_level b sp) x k = bad_trans n (set_level a sp) x k /\
  (forall g c, pass_cut n (set_level b sp) x k g c -> pass_cut n (set_level a sp) x k g c) /\ (forall g c, stop_cut n (set_level b sp) x k g c -> stop_cut n (set_level a sp) x k g c) /\ (forall g c, trans_cut n (set_level b sp) x k g c -> trans_cut n (set_level a sp) x k g c).
Proof.
  intros (A & B & C & D & E). unfold bad_pass, bad_stop, bad_trans, pass_cut, stop_cut, trans_cut, v_resp. cbn [set_level lw_spectrum lw_up lw_lp lw_sp]. rewrite A, D, E. repeat split; tauto.
Qed.
Lemma first_same lo hi (f g : nat -> bool) i j : (forall k, f k = g k) -> first_bad lo hi f i j -> first_bad lo hi g i j.
Proof. intros E (k & A & B & C & D). exists k. repeat split; auto; [apply A|apply A|now rewrite <- E|]. intros q Q. rewrite <- E. auto. Qed.
Lemma first_not_good lo hi f i j : (lo < hi)%Z -> first_bad lo hi f i j -> band_good lo hi f -> False.
Proof. intros H (k & A & B & C & D) G. rewrite G in C; [discriminate|]. rewrite B. apply place_in. exact H. Qed.
Lemma first_lt lo hi f i j : first_bad lo hi f i j -> (lo < hi)%Z. Proof. intros (k & A & _). lia. Qed.

Section Three.
Variables (n : nat) (o : Lowpass N) (tr : list (Arr N * N * Arr N * ParallelCut N)) (o2 : Lowpass N) (k : Z).
Hypotheses (Ho : lw_ok n o) (Hc : lw_asked o tr o2).
Notation L sp := (set_level o sp).
Notation m := (Z.of_nat (length (lw_spectrum o))).
Let inv (q : Lowpass N) : Prop := lw_ok n q /\ lw_same o q.
Lemma inv0 : inv o. Proof. split; [exact Ho|repeat split]. Qed.
Lemma sm q : inv q -> lw_nwpass q = lw_nwpass o /\ lw_nwstop q = lw_nwstop o /\ length (lw_spectrum q) = length (lw_spectrum o).
Proof. intros [_ (A & B & C & _)]. rewrite A. auto. Qed.
Ltac starts Iq E := destruct (assess_turn n _ _ _ (proj1 Iq) E _ _ _ _ _ ltac:(eassumption)) as (r & O1 & S1 & T & R).
Lemma pass_fair : (0 <= k < lw_nwpass o)%Z -> (lw_nwpass o <= Z.of_nat (length tr))%Z ->
  (forall x sp g c, In (x, sp, g, c) tr -> is_vec n x /\ bad_pass n (L sp) x (Z.to_nat k) = true) ->
  exists x sp g c, In (x, sp, g, c) tr /\ pass_cut n (L sp) x (Z.to_nat k) g c.
Proof.
  intros Hk Hl Hv. apply (fair_all inv lw_idx1 0 (lw_nwpass o) k (fun x sp => is_vec n x /\ bad_pass n (L sp) x (Z.to_nat k) = true) (fun x sp => bad_pass n (L sp) x) (fun x sp j g c => pass_cut n (L sp) x j g c)) with (o := o) (o2 := o2); auto; try lia.
  - intros q Iq. destruct (sm q Iq) as (P & _). destruct (proj1 Iq) as (_ & _ & _ & _ & _ & I1 & _). lia.
  - intros q x sp o1 sp1 g c b Iq [Dx Bx] E. destruct (sm q Iq) as (P & Qs & M). destruct (assess_turn n q x sp (proj1 Iq) Dx o1 sp1 g c b E) as (r & O1 & S1 & T & R).
    assert (NG : band_good 0 (lw_nwpass q) (bad_pass n (set_level q sp) x) -> False). { intros G. specialize (G k ltac:(lia)). rewrite (proj1 (bad_same n o q sp x _ (proj2 Iq))) in G. congruence. }
    destruct T as [(F & _ & _ & g1 & c1 & Er & Cu)|[(G & _)|[(G & _)|(G & _)]]]; [|exfalso; apply NG, G..].
    split; [split; [exact O1|eapply same_trans; [apply Iq|exact S1]]|]. pose proof (R _ Er) as Q. injection Q as -> ->. cbn [set_level lw_nwpass lw_idx1] in F. rewrite P in F. split.
    + eapply first_same; [|exact F]. intros j. apply (bad_same n o q sp x j (proj2 Iq)).
    + apply (bad_same n o q sp x _ (proj2 Iq)). exact Cu.
  - intros x sp [_ H]. exact H.
  - apply inv0.
Qed.
Lemma stop_fair : (lw_nwstop o <= k < m)%Z -> (m - lw_nwstop o <= Z.of_nat (length tr))%Z ->
  (forall x sp g c, In (x, sp, g, c) tr -> is_vec n x /\ band_good 0 (lw_nwpass o) (bad_pass n (L sp) x) /\ bad_stop n (L sp) x (Z.to_nat k) = true) ->
  exists x sp g c, In (x, sp, g, c) tr /\ stop_cut n (L sp) x (Z.to_nat k) g c.
Proof.
  intros Hk Hl Hv. pose proof Ho as (_ & _ & _ & H1 & _). apply (fair_all inv lw_idx3 (lw_nwstop o) m k (fun x sp => is_vec n x /\ band_good 0 (lw_nwpass o) (bad_pass n (L sp) x) /\ bad_stop n (L sp) x (Z.to_nat k) = true) (fun x sp => bad_stop n (L sp) x) (fun x sp j g c => stop_cut n (L sp) x j g c)) with (o := o) (o2 := o2); auto; try lia.
  - intros q Iq. destruct (sm q Iq) as (P & Qs & M). destruct (proj1 Iq) as (_ & _ & _ & _ & _ & _ & _ & I3). lia.
  - intros q x sp o1 sp1 g c b Iq (Dx & Gx & Bx) E. destruct (sm q Iq) as (P & Qs & M). destruct (assess_turn n q x sp (proj1 Iq) Dx o1 sp1 g c b E) as (r & O1 & S1 & T & R).
    assert (NG : band_good (lw_nwstop q) (Z.of_nat (length (lw_spectrum q))) (bad_stop n (set_level q sp) x) -> False). { intros G. specialize (G k ltac:(lia)). rewrite (proj1 (proj2 (bad_same n o q sp x _ (proj2 Iq)))) in G. congruence. }
    destruct T as [(F & _)|[(_ & F & _ & g1 & c1 & Er & Cu)|[(_ & G & _)|(_ & G & _)]]]; [|..|exfalso; apply NG, G|exfalso; apply NG, G].
    { exfalso. cbn [set_level lw_nwpass lw_idx1] in F. rewrite P in F. apply (first_not_good _ _ _ _ _ (first_lt _ _ _ _ _ F) (first_same _ _ _ _ _ _ (fun j => proj1 (bad_same n o q sp x j (proj2 Iq))) F) Gx). }
    split; [split; [exact O1|eapply same_trans; [apply Iq|exact S1]]|]. pose proof (R _ Er) as Q. injection Q as -> ->. cbn [set_level lw_nwstop lw_spectrum lw_idx3] in F. rewrite Qs, M in F. split.
    + eapply first_same; [|exact F]. intros j. apply (bad_same n o q sp x j (proj2 Iq)).
    + apply (bad_same n o q sp x _ (proj2 Iq)). exact Cu.
  - intros x sp (_ & _ & H). exact H.
  - apply inv0.
Qed.
Lemma trans_fair : (lw_nwpass o <= k < lw_nwstop o)%Z -> (lw_nwstop o - lw_nwpass o <= Z.of_nat (length tr))%Z ->
  (forall x sp g c, In (x, sp, g, c) tr -> is_vec n x /\ band_good 0 (lw_nwpass o) (bad_pass n (L sp) x) /\ band_good (lw_nwstop o) m (bad_stop n (L sp) x) /\ bad_trans n (L sp) x (Z.to_nat k) = true) ->
  exists x sp g c, In (x, sp, g, c) tr /\ trans_cut n (L sp) x (Z.to_nat k) g c.
Proof.
  intros Hk Hl Hv. pose proof Ho as (_ & _ & _ & H1 & _). apply (fair_all inv lw_idx2 (lw_nwpass o) (lw_nwstop o) k (fun x sp => is_vec n x /\ band_good 0 (lw_nwpass o) (bad_pass n (L sp) x) /\ band_good (lw_nwstop o) m (bad_stop n (L sp) x) /\ bad_trans n (L sp) x (Z.to_nat k) = true) (fun x sp => bad_trans n (L sp) x) (fun x sp j g c => trans_cut n (L sp) x j g c)) with (o := o) (o2 := o2); auto; try lia.
  - intros q Iq. destruct (sm q Iq) as (P & Qs & M). destruct (proj1 Iq) as (_ & _ & _ & _ & _ & _ & I2 & _). lia.
  - intros q x sp o1 sp1 g c b Iq (Dx & Gx & Gs & Bx) E. destruct (sm q Iq) as (P & Qs & M). destruct (assess_turn n q x sp (proj1 Iq) Dx o1 sp1 g c b E) as (r & O1 & S1 & T & R).
    assert (NG : band_good (lw_nwpass q) (lw_nwstop q) (bad_trans n (set_level q sp) x) -> False). { intros G. specialize (G k ltac:(lia)). rewrite (proj1 (proj2 (proj2 (bad_same n o q sp x _ (proj2 Iq))))) in G. congruence. }
    destruct T as [(F & _)|[(_ & F & _)|[(_ & _ & F & g1 & c1 & Er & Cu)|(_ & _ & G)]]]; [| | |exfalso; apply NG, G].
    { exfalso. cbn [set_level lw_nwpass lw_idx1] in F. rewrite P in F. apply (first_not_good _ _ _ _ _ (first_lt _ _ _ _ _ F) (first_same _ _ _ _ _ _ (fun j => proj1 (bad_same n o q sp x j (proj2 Iq))) F) Gx). }
    { exfalso. cbn [set_level lw_nwstop lw_spectrum lw_idx3] in F. rewrite Qs, M in F. apply (first_not_good _ _ _ _ _ (first_lt _ _ _ _ _ F) (first_same _ _ _ _ _ _ (fun j => proj1 (proj2 (bad_same n o q sp x j (proj2 Iq)))) F) Gs). }
    split; [split; [exact O1|eapply same_trans; [apply Iq|exact S1]]|]. pose proof (R _ Er) as Q. injection Q as -> ->. cbn [set_level lw_nwstop lw_nwpass lw_idx2] in F. rewrite Qs, P in F. split.
    + eapply first_same; [|exact F]. intros j. apply (bad_same n o q sp x j (proj2 Iq)).
    + apply (bad_same n o q sp x _ (proj2 Iq)). exact Cu.
  - intros x sp (_ & _ & _ & H). exact H.
  - apply inv0.
Qed.
End Three.
End Any.

(** a run in binary64: two bad pass-band frequencies, cut in turn *)
Definition turns (o : Lowpass (FNum lm0)) (x : Arr (FNum lm0)) (sp : FNum lm0) : bool :=
  match lowpass_assess o x sp with
  | Ok (o1, sp1, ((g1, _), _)) =>
      match lowpass_assess o1 x sp with
      | Ok (o2, _, ((g2, _), _)) =>
          match lowpass_assess o2 x sp with
          | Ok (_, _, ((g3, _), _)) => neqb (at_ g1 0) n1 && neqb (at_ g2 0) (nZ 2) && neqb (at_ g3 0) n1
          | _ => false end
      | _ => false end
  | _ => false end.
Notation lw_case := (mkLowpass (N := FNum lm0) true (-1) [mkArr (N := FNum lm0) [nZ 1] 1 0; mkArr (N := FNum lm0) [nZ 2] 1 0; mkArr (N := FNum lm0) [nZ 3] 1 0; mkArr (N := FNum lm0) [nZ 4] 1 0] 2 3 (nZ 1) (nZ 2) (nZ 1) 1 2 (nZ 0) (-1)).
Lemma turns_case : turns lw_case (mkArr (N := FNum lm0) [nZ 3] 1 0) (nZ 1) = true.
Proof. vm_compute. reflexivity. Qed.
Lemma lw_case_ok : lw_ok 1 lw_case.
Proof. unfold lw_ok. cbn [lw_spectrum lw_nwpass lw_nwstop lw_idx1 lw_idx2 lw_idx3 length]. repeat split; try lia. all: destruct H as [<-|[<-|[<-|[<-|[]]]]]; reflexivity. Qed.
