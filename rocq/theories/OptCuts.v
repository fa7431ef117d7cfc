(** Every successful cut gives the smallest ellipsoid around what it keeps. *)
From Coq Require Import Reals List Arith Lia Lra Psatz Bool ZArith.
From Verif Require Import Num Res Arr CuttingPlane EllCalc Ell EllRun ArrLemmas EllLemmas Spec RealLin CutScalar EllSpec EllReal EllCuts EllMore
  Det DetLemmas VolScalar VolProofs TraceDet OptVol.
Import ListNotations.
Open Scope R_scope.

(** [f] contains the slice of [e] between the levels [b0] and [b1] *)
Definition covers (n : nat) (f e : Ell RNum) (g : Arr RNum) (b0 b1 : R) : Prop := forall x, slab n e g b0 b1 x -> pts n f x.

(** the scalar conditions under which (rho, sigma, delta) is the best choice for levels s0 tau, s1 tau *)
Definition best (n : nat) (s0 s1 r sigma delta : R) : Prop :=
  -1 <= s0 /\ s0 < s1 /\ s1 <= 1 /\ s0 <= r <= s1 /\ sigma < 1 /\ 0 < delta /\
  (r - s0) * (s1 - r) = delta * (1 - sigma) / INR n /\
  1 - r * r - delta * (1 - sigma) / INR n = (INR n - 1) * delta / INR n.

(** [e'] is no larger than [f], and the same set if [f] is no larger either *)
Definition smallest (n : nat) (e' f : Ell RNum) : Prop :=
  vol2 n e' <= vol2 n f /\ (vol2 n f <= vol2 n e' -> forall x, pts n f x <-> pts n e' x).

Lemma best_vol n e g f s0 s1 rho sigma delta : (2 <= n)%nat -> proper n e -> 0 < quad n (shape n e) (coords g) -> proper n f ->
  best n s0 s1 (rho / sqrt (width2 n e g)) sigma delta ->
  covers n f e g (s0 * sqrt (width2 n e g)) (s1 * sqrt (width2 n e g)) ->
  delta ^ n * (1 - sigma) * vol2 n e <= vol2 n f /\
  (vol2 n f <= delta ^ n * (1 - sigma) * vol2 n e -> forall x, pts n f x <->
    in_ell n (rank1 (shape n e) (sigma / quad n (shape n e) (coords g)) (mulmv n (shape n e) (coords g))) (kap e * delta)
      (fun i => centre e i - rho / quad n (shape n e) (coords g) * mulmv n (shape n e) (coords g) i) x).
Proof.
  intros Hn (Ve & Pe & Ke) Ho (Vf & Pf & Kf) (B1 & B2 & B3 & B4 & B5 & B6 & B7 & B8) Hc.
  destruct (inverse_pd n (shape n e) (v_sym _ _ Ve) Pe) as (V & HV & VS & VP).
  destruct (inverse_pd n (shape n f) (v_sym _ _ Vf) Pf) as (W & HW & WS & WP).
  assert (Hin : forall x, in_ell n (shape n e) (kap e) (centre e) x ->
    s0 * sqrt (kap e * quad n (shape n e) (coords g)) <= - along n (coords g) x (centre e) <= s1 * sqrt (kap e * quad n (shape n e) (coords g)) ->
    in_ell n (shape n f) (kap f) (centre f) x).
  { intros x Hx Hs. apply Hc. split; [exact Hx|]. unfold width2. lra. }
  pose proof (opt_det n (shape n e) (kap e) (centre e) (coords g) Hn (v_sym _ _ Ve) Pe Ke Ho (shape n f) (kap f) (centre f) (v_sym _ _ Vf) Pf
    s0 s1 B1 B3 B2 Hin V W HV VS VP HW WS WP _ sigma delta B4 B5 B6 B7 B8) as H.
  pose proof (opt_unique n (shape n e) (kap e) (centre e) (coords g) Hn (v_sym _ _ Ve) Pe Ke Ho (shape n f) (kap f) (centre f) (v_sym _ _ Vf) Pf
    s0 s1 B1 B3 B2 Hin V W HV VS VP HW WS WP _ sigma delta B4 B5 B6 B7 B8 Kf) as HU.
  assert (E : delta ^ n * (1 - sigma) * vol2 n e = (kap e * delta) ^ n * ((1 - sigma) * det n (shape n e))).
  { unfold vol2. rewrite Rpow_mult_distr. ring. }
  rewrite E. split; [exact H|]. intros Hle. destruct (HU Hle) as [HM Hz]. intros x. unfold pts.
  assert (Hkd : 0 < kap e * delta) by (now apply Rmult_lt_0_compat).
  rewrite <- (in_ell_scale n (shape n f) (kap f) (centre f) x Kf). rewrite <- (in_ell_scale n (rank1 _ _ _) (kap e * delta) _ x Hkd).
  assert (Hcc : forall i, newc n (shape n e) (kap e) (centre e) (coords g) (rho / sqrt (width2 n e g)) i =
    centre e i - rho / quad n (shape n e) (coords g) * mulmv n (shape n e) (coords g) i).
  { intros i. unfold newc, f0, width2. f_equal. rewrite <- Rmult_assoc. f_equal.
    pose proof (tau_sq n (shape n e) (kap e) (coords g) Ke Ho) as Et. pose proof (tau_pos n (shape n e) (kap e) (coords g) Ke Ho) as Ht.
    set (t := sqrt _) in *. replace (rho / t * (kap e / t)) with (rho * kap e / (t * t)) by (field; lra). rewrite Et. field. lra. }
  split; apply in_ell_ext.
  - intros i j Hi Hj. symmetry. now apply HM.
  - intros i Hi. rewrite <- Hcc. symmetry. now apply Hz.
  - exact HM.
  - intros i Hi. rewrite <- Hcc. now apply Hz.
Qed.

Lemma deep_best n t b : (2 <= n)%nat -> 0 < t -> 0 <= sqrt t + INR n * b -> b < sqrt t ->
  let '(rho, sigma, delta) := deep3 (INR n) (sqrt t) b in best n (b / sqrt t) 1 (rho / sqrt t) sigma delta.
Proof.
  intros Hn Ht Hlo Hhi. unfold deep3. pose proof (sqrt_lt_R0 _ Ht) as Hs. set (tau := sqrt t) in *. pose proof (INR_two n Hn) as Hm. set (m := INR n) in *.
  pose proof (deep_sum_pos m tau b ltac:(lra) Hs Hlo) as Hsum.
  pose proof (deep_sigma_lt m tau b ltac:(lra) Hs Hlo Hhi) as Hsg.
  pose proof (deep_delta_pos m tau b ltac:(lra) Hs Hlo Hhi) as Hdl.
  set (a := b / tau). assert (Ea : b = a * tau) by (unfold a; field; lra).
  assert (Ha : -1 < a < 1) by (split; apply Rmult_lt_reg_r with tau; lra).
  assert (Hmm : 0 < m * m - 1) by nra.
  assert (Er : (tau + m * b) / (m + 1) / tau = (1 + m * a) / (m + 1)) by (rewrite Ea; field; lra).
  assert (Es : 2 * ((tau + m * b) / (m + 1)) / (tau + b) = 2 * (1 + m * a) / ((m + 1) * (1 + a))).
  { rewrite Ea. field. repeat split; try lra; nra. }
  unfold best. fold m. rewrite Er in *. rewrite Es in *.
  split; [lra|]. split; [lra|]. split; [lra|]. split.
  { split; apply Rmult_le_reg_r with (m + 1); try lra;
    replace ((1 + m * a) / (m + 1) * (m + 1)) with (1 + m * a) by (field; lra); nra. }
  split; [exact Hsg|]. split; [exact Hdl|]. split; field; repeat split; try lra; nra.
Qed.
Lemma par_best n t b0 b1 : (2 <= n)%nat -> 0 < t -> b0 < b1 -> 0 <= t + INR n * (b0 * b1) -> - sqrt t <= b0 -> b1 < sqrt t ->
  let '(rho, sigma, delta) := par3 (INR n) t b0 b1 in best n (b0 / sqrt t) (b1 / sqrt t) (rho / sqrt t) sigma delta.
Proof.
  intros Hn Ht H01 He Hlo Hhi. unfold par3. pose proof (sqrt_lt_R0 _ Ht) as Hs. pose proof (INR_two n Hn) as Hm.
  assert (Hss : sqrt t * sqrt t = t) by (apply sqrt_sqrt; lra).
  pose proof (pv_sigma_lt n t b0 b1 Hn Ht H01 He) as Hsg.
  pose proof (pv_delta_pos n t b0 b1 Hn Ht H01 ltac:(lra) Hhi) as Hdl.
  pose proof (pv_identity n t b0 b1 Hn Ht He) as Hid.
  pose proof (pv_station n t b0 b1 Hn Ht He) as Hst.
  set (xi := sqrt ((t - b0 * b0) * _ + _)) in *.
  set (sigma := 2 * (t + INR n * (b0 * b1)) / _) in *.
  set (delta := INR n * INR n / _ * _ / t) in *.
  clearbody sigma delta. clear xi. set (tau := sqrt t) in *. set (m := INR n) in *. clearbody tau.
  set (rho := sigma * (b0 + b1) / 2) in *.
  assert (E1 : (rho - b0) * (b1 - rho) = delta * (1 - sigma) * t / m).
  { replace (delta * (1 - sigma) * t) with ((1 - sigma) * (delta * t)) by ring. rewrite Hst. unfold rho. field. lra. }
  assert (E2 : t - rho * rho - delta * (1 - sigma) * t / m = (m - 1) * delta * t / m).
  { apply Rmult_eq_reg_l with (1 - sigma); [|apply Rgt_not_eq; lra].
    assert (E1' : (1 - sigma) * (delta * t) = m * ((rho - b0) * (b1 - rho))) by (rewrite E1; field; lra).
    replace ((1 - sigma) * ((m - 1) * delta * t / m)) with ((m - 1) / m * ((1 - sigma) * (delta * t))) by (field; lra).
    replace (delta * (1 - sigma) * t / m) with ((1 - sigma) * (delta * t) / m) by (field; lra).
    assert (Hid' : (1 - sigma) * t = (1 - sigma) * (delta * t) + sigma * (b0 * b1) - rho * rho) by (clear - Hid; unfold rho in *; lra).
    replace ((1 - sigma) * (t - rho * rho - (1 - sigma) * (delta * t) / m)) with
      ((1 - sigma) * t - (1 - sigma) * (rho * rho) - (1 - sigma) * ((1 - sigma) * (delta * t) / m)) by ring.
    rewrite Hid', E1'. unfold rho. field. lra. }
  assert (Hpos : 0 < delta * (1 - sigma) * t / m).
  { apply Rdiv_lt_0_compat; [|lra]. repeat apply Rmult_lt_0_compat; lra. }
  assert (Hr : b0 <= rho <= b1).
  { rewrite <- E1 in Hpos. destruct (Rle_or_lt b0 rho), (Rle_or_lt rho b1); [lra|exfalso; nra|exfalso; nra|exfalso; lra]. }
  assert (Hdiv : forall x y, x <= y -> x / tau <= y / tau).
  { intros x y Hxy. apply Rmult_le_compat_r; [left; now apply Rinv_0_lt_compat|auto]. }
  unfold best. fold m. split; [|split; [|split; [|split; [|split; [exact Hsg|split; [exact Hdl|split]]]]]].
  - replace (-1) with (- tau / tau) by (field; lra). now apply Hdiv.
  - apply Rmult_lt_compat_r; [now apply Rinv_0_lt_compat|auto].
  - replace 1 with (tau / tau) by (field; lra). apply Hdiv. lra.
  - split; apply Hdiv; lra.
  - replace ((rho / tau - b0 / tau) * (b1 / tau - rho / tau)) with ((rho - b0) * (b1 - rho) / (tau * tau)) by (field; lra).
    rewrite E1, Hss. field. lra.
  - apply Rmult_eq_reg_r with t; [|apply Rgt_not_eq; lra].
    replace ((1 - rho / tau * (rho / tau) - delta * (1 - sigma) / m) * t) with (t - rho * rho * (t / (tau * tau)) - delta * (1 - sigma) * t / m) by (field; lra).
    rewrite Hss. replace (rho * rho * (t / t)) with (rho * rho) by (field; lra). rewrite E2. field. lra.
Qed.
(** keeping the ellipsoid is best when the band is as wide as that *)
Lemma none_best n s0 s1 : (2 <= n)%nat -> -1 <= s0 -> s1 <= 1 -> s0 * s1 <= - / INR n -> s0 < 0 ->
  best n s0 (- / (INR n * s0)) 0 0 1 /\ - / (INR n * s0) <= s1.
Proof.
  intros Hn H0 H1 H01 Hs. pose proof (INR_two n Hn) as Hm. set (m := INR n) in *.
  assert (Hi : 0 < / m) by (apply Rinv_0_lt_compat; lra).
  assert (Hq : - / (m * s0) * (- s0) = / m) by (field; lra).
  set (q := - / (m * s0)) in *.
  assert (Hq1 : q <= s1) by (apply Rmult_le_reg_r with (- s0); lra).
  assert (Hq0 : 0 < q) by (apply Rmult_lt_reg_r with (- s0); lra).
  split; auto. unfold best. fold m. repeat split; try lra; field_simplify; try lra.
Qed.

Section Core.
Variables (n : nat) (e : Ell RNum) (g : Arr RNum) (f : Ell RNum).
Hypothesis Hn : (2 <= n)%nat.
Hypothesis HPr : proper n e.
Hypothesis Hg : vecn n g.
Hypothesis Hnz : exists i, (i < n)%nat /\ coords g i <> 0.
Hypothesis Hf : proper n f.
Notation w := (width2 n e g).
Notation tau := (sqrt (width2 n e g)).

Lemma core_w : 0 < w /\ 0 < tau /\ 0 < quad n (shape n e) (coords g).
Proof.
  pose proof (proper_width _ _ _ HPr Hg Hnz) as Hw. pose proof HPr as (V & _ & _). split; auto. split; [now apply sqrt_lt_R0|].
  now apply (valid_width _ _ _ V Hg Hw).
Qed.
Lemma core_opt_success strategy rho sigma delta e' st s0 s1 :
  strategy w = (Success, (rho, sigma, delta)) -> ell_update_core (N := RNum) e g strategy = Ok (e', st) ->
  best n s0 s1 (rho / tau) sigma delta -> covers n f e g (s0 * tau) (s1 * tau) -> smallest n e' f.
Proof.
  intros E Er B Hc. destruct core_w as (Hw & Hs & Ho). pose proof HPr as (V & _ & _).
  destruct (core_run n e g strategy _ _ _ _ V Hg E) as (e2 & Er2 & _ & Hst). rewrite Er in Er2. inversion Er2; subst e2 st. specialize (Hst eq_refl).
  unfold smallest. rewrite (vol_step n e g rho sigma delta e' HPr Ho ltac:(apply B) Hst).
  destruct (best_vol n e g f s0 s1 rho sigma delta Hn HPr Ho Hf B Hc) as [B1 B2]. split; [exact B1|]. intros Hle x. rewrite (B2 Hle x).
  symmetry. apply stepped_pts; auto; [left; apply B|]. destruct HPr as (_ & _ & Hk). apply Rmult_le_pos; [lra|left; apply B].
Qed.
Lemma core_opt_same strategy rho sigma delta e' st0 st s0 s1 :
  strategy w = (st0, (rho, sigma, delta)) -> st0 <> Success -> ell_update_core (N := RNum) e g strategy = Ok (e', st) ->
  best n s0 s1 0 0 1 -> covers n f e g (s0 * tau) (s1 * tau) -> smallest n e' f.
Proof.
  intros E Hst Er B Hc. destruct core_w as (Hw & Hs & Ho).
  destruct (core_same n e g strategy _ _ _ _ HPr Hg E Hst) as (e2 & Er2 & _ & _ & Ev & Ep). rewrite Er in Er2. inversion Er2; subst e2 st.
  unfold smallest. rewrite Ev. replace 0 with (0 / tau) in B at 1 by (field; lra).
  destruct (best_vol n e g f s0 s1 0 0 1 Hn HPr Ho Hf B Hc) as [B1 B2]. rewrite pow1 in B1, B2. split; [lra|]. intros Hle x.
  rewrite (B2 ltac:(lra) x), Ep. unfold pts. rewrite Rmult_1_r. split; apply in_ell_ext.
  - intros i j _ _. unfold rank1. field. lra.
  - intros i _. field. lra.
  - intros i j _ _. unfold rank1. field. lra.
  - intros i _. field. lra.
Qed.
Lemma core_opt_deep strategy b e' st : 0 <= tau + INR n * b -> b < tau ->
  strategy w = (Success, deep3 (INR n) tau b) -> ell_update_core (N := RNum) e g strategy = Ok (e', st) ->
  covers n f e g b tau -> smallest n e' f.
Proof.
  intros H1 H2 E Er Hc. destruct core_w as (Hw & Hs & Ho). pose proof (deep_best n w b Hn Hw H1 H2) as B.
  destruct (deep3 (INR n) tau b) as [[rho sigma] delta].
  eapply core_opt_success; eauto. replace (b / tau * tau) with b by (field; lra). now rewrite Rmult_1_l.
Qed.
Lemma core_opt_par strategy b0 b1 e' st : b0 < b1 -> 0 <= w + INR n * (b0 * b1) -> - tau <= b0 -> b1 < tau ->
  strategy w = (Success, par3 (INR n) w b0 b1) -> ell_update_core (N := RNum) e g strategy = Ok (e', st) ->
  covers n f e g b0 b1 -> smallest n e' f.
Proof.
  intros H1 H2 H3 H4 E Er Hc. destruct core_w as (Hw & Hs & Ho). pose proof (par_best n w b0 b1 Hn Hw H1 H2 H3 H4) as B.
  destruct (par3 (INR n) w b0 b1) as [[rho sigma] delta].
  eapply core_opt_success; eauto. replace (b0 / tau * tau) with b0 by (field; lra). now replace (b1 / tau * tau) with b1 by (field; lra).
Qed.
Lemma core_opt_none strategy rho sigma delta b0 b1 e' st0 st : - tau <= b0 -> b1 <= tau -> w + INR n * (b0 * b1) <= 0 -> b0 < 0 ->
  strategy w = (st0, (rho, sigma, delta)) -> st0 <> Success -> ell_update_core (N := RNum) e g strategy = Ok (e', st) ->
  covers n f e g b0 b1 -> smallest n e' f.
Proof.
  intros H1 H2 H3 H4 E Hst Er Hc. destruct core_w as (Hw & Hs & Ho). pose proof (INR_two n Hn) as Hm.
  assert (Hss : tau * tau = w) by (apply sqrt_sqrt; lra).
  assert (Hdiv : forall x y, x <= y -> x / tau <= y / tau).
  { intros x y Hxy. apply Rmult_le_compat_r; [left; now apply Rinv_0_lt_compat|auto]. }
  destruct (none_best n (b0 / tau) (b1 / tau) Hn) as [B Hq].
  - replace (-1) with (- tau / tau) by (field; lra). auto.
  - replace 1 with (tau / tau) by (field; lra). auto.
  - apply Rmult_le_reg_r with (INR n * w); [nra|].
    replace (b0 / tau * (b1 / tau) * (INR n * w)) with (INR n * (b0 * b1)) by (rewrite <- Hss at 3; field; lra).
    replace (- / INR n * (INR n * w)) with (- w) by (field; lra). lra.
  - apply Rmult_lt_reg_r with tau; auto. replace (b0 / tau * tau) with b0 by (field; lra). lra.
  - eapply core_opt_same; [exact E|exact Hst|exact Er|exact B|].
    intros x [Hx Hal]. apply Hc. split; auto.
    apply Rmult_le_compat_r with (r := tau) in Hq; [|lra].
    replace (b1 / tau * tau) with b1 in Hq by (field; lra). replace (b0 / tau * tau) with b0 in Hal by (field; lra). lra.
Qed.

Lemma single_opt m beta e' st : good_single m n tau beta ->
  apply_cut (N := RNum) single m e (g, SC beta) = Ok (e', st) ->
  (forall x, pts n e x -> along n (coords g) x (centre e) + used m beta <= 0 -> pts n f x) -> smallest n e' f.
Proof.
  intros Hgood Er Hc. destruct core_w as (Hw & Hs & Ho). pose proof HPr as (V & _ & _). pose proof (INR_two n Hn) as Hm.
  assert (Hss : tau * tau = w) by (apply sqrt_sqrt; lra).
  rewrite apply_cut_core in Er.
  assert (Hcov : covers n f e g (used m beta) tau) by (intros x [Hx Hal]; apply Hc; auto; lra).
  destruct m; simpl in Hgood; cbn [used] in *.
  - destruct Hgood as [Hlo Hhi].
    assert (Hlo' : 0 <= tau + INR n * beta).
    { apply (Rmult_le_compat_r (INR n)) in Hlo; [|lra]. replace (- tau / INR n * INR n) with (- tau) in Hlo by (field; lra). lra. }
    eapply (core_opt_deep _ beta); eauto. simpl. rewrite (v_calc _ _ V), calc_bias_eq.
    destruct (Raux.Rlt_bool _ _) eqn:B; auto. apply Rlt_bool_iff in B. exfalso.
    pose proof (deep_sum_pos (INR n) _ _ ltac:(lra) Hs Hlo'). nra.
  - eapply (core_opt_deep _ 0); eauto; try lra. simpl. rewrite (v_calc _ _ V), calc_central_eq, central_deep by (auto; lia). reflexivity.
  - destruct (Raux.Rlt_bool (tau + INR n * beta) 0) eqn:B.
    + assert (Es : cut_core (N := RNum) single Quantised e (SC beta) w = (NoEffect, (0, 0, 1))).
      { simpl. rewrite (v_calc _ _ V), calc_bias_q_eq, B.
        destruct (Raux.Rlt_bool _ beta) eqn:B2; auto. apply Rlt_bool_iff in B2. lra. }
      apply Rlt_bool_iff in B.
      assert (Hi : - tau <= - tau / INR n).
      { apply Rmult_le_reg_r with (INR n); [lra|]. replace (- tau / INR n * INR n) with (- tau) by (field; lra). nra. }
      assert (Hi2 : - tau / INR n < 0).
      { apply Rmult_lt_reg_r with (INR n); [lra|]. replace (- tau / INR n * INR n) with (- tau) by (field; lra). lra. }
      eapply (core_opt_none _ 0 0 1 (- tau / INR n) tau); [lra|lra| |lra|exact Es|discriminate|exact Er|].
      * right. rewrite <- Hss at 1. field. lra.
      * intros x [Hx Hal]. apply Hcov. split; auto. split; [lra|].
        assert (beta <= - tau / INR n); [|lra].
        apply Rmult_le_reg_r with (INR n); [lra|]. replace (- tau / INR n * INR n) with (- tau) by (field; lra). lra.
    + apply Rlt_bool_no in B as B'. eapply (core_opt_deep _ beta); eauto. simpl. rewrite (v_calc _ _ V), calc_bias_q_eq, B.
      destruct (Raux.Rlt_bool _ beta) eqn:B2; auto. apply Rlt_bool_iff in B2. lra.
Qed.

Lemma parallel_opt m b0 b1 e' st : good_parallel m n w b0 b1 -> - tau <= used m b0 ->
  apply_cut (N := RNum) parallel m e (g, PC b0 (Some b1)) = Ok (e', st) ->
  covers n f e g (used m b0) b1 -> smallest n e' f.
Proof.
  intros (H01 & Hlo & Hhi & Hbias) Hlo0 Er Hc. destruct core_w as (Hw & Hs & Ho). pose proof HPr as (V & _ & _). pose proof (INR_two n Hn) as Hm.
  assert (Hss : tau * tau = w) by (apply sqrt_sqrt; lra).
  assert (Hsmall : (Raux.Rlt_bool 0 b1 && Raux.Rle_bool w (b1 * b1)) = false -> b1 < tau).
  { intros B. apply andb_false_iff in B as [B|B]; [apply Rlt_bool_no in B; lra|].
    apply Rle_bool_no in B. destruct (Rle_dec b1 0); [lra|nra]. }
  assert (Hbig : (Raux.Rlt_bool 0 b1 && Raux.Rle_bool w (b1 * b1)) = true -> tau <= b1).
  { intros B. apply andb_true_iff in B as [B B']. apply Rlt_bool_iff in B. apply Rle_bool_iff in B'. nra. }
  assert (Hcb : tau <= b1 -> covers n f e g (used m b0) tau).
  { intros Hb x [Hx Hal]. apply Hc. split; auto. lra. }
  destruct m; cbn [used] in *.
  - rewrite apply_cut_core in Er.
    assert (Estr : cut_core (N := RNum) parallel Bias e (PC b0 (Some b1)) w = calc_parallel_bias_cut (N := RNum) (calc_new n) b0 b1 w)
      by (simpl; rewrite (v_calc _ _ V); reflexivity).
    rewrite calc_par_bias_eq in Estr. specialize (Hbias eq_refl).
    destruct (Raux.Rlt_bool b1 b0) eqn:B1; [apply Rlt_bool_iff in B1; lra|].
    destruct (Raux.Rlt_bool 0 b1 && Raux.Rle_bool w (b1 * b1)) eqn:B2; cbn [orb] in Estr; [|exact (core_opt_par _ b0 b1 e' st H01 Hbias Hlo0 (Hsmall eq_refl) Estr Er Hc)].
    specialize (Hbig eq_refl). rewrite calc_bias_eq in Estr.
    assert (Hl : 0 <= tau + INR n * b0).
    { destruct (Rle_dec 0 b0); [nra|]. assert (0 <= (tau + INR n * b0) * b1); [|nra]. nra. }
    destruct (Raux.Rlt_bool _ (b0 * b0)) eqn:B4; [|exact (core_opt_deep _ b0 e' st Hl Hhi Estr Er (Hcb Hbig))].
    apply Rlt_bool_iff in B4. exfalso. pose proof (deep_sum_pos (INR n) _ _ ltac:(lra) Hs Hl). nra.
  - rewrite apply_cut_core in Er.
    assert (Estr : cut_core (N := RNum) parallel Central e (PC b0 (Some b1)) w = calc_parallel_central_cut (N := RNum) (calc_new n) b1 w)
      by (simpl; rewrite (v_calc _ _ V); reflexivity).
    rewrite calc_par_central_eq in Estr.
    destruct (Raux.Rlt_bool b1 0) eqn:B1; [apply Rlt_bool_iff in B1; lra|].
    destruct (Raux.Rle_bool w (b1 * b1)) eqn:B2; cbn [orb] in Estr.
    + rewrite calc_central_eq, central_deep in Estr by (auto; lia). apply Rle_bool_iff in B2. assert (tau <= b1) by nra.
      apply (core_opt_deep _ 0 e' st ltac:(lra) Hs Estr Er). auto.
    + apply Rle_bool_no in B2. rewrite parc3_par3 in Estr by auto. apply (core_opt_par _ 0 b1 e' st H01 ltac:(lra) ltac:(lra) ltac:(nra) Estr Er Hc).
  - pose proof Er as Er0. rewrite apply_cut_core in Er.
    assert (Estr : cut_core (N := RNum) parallel Quantised e (PC b0 (Some b1)) w = calc_parallel_q (N := RNum) (calc_new n) b0 b1 w)
      by (simpl; rewrite (v_calc _ _ V); reflexivity).
    rewrite calc_par_q_eq in Estr.
    destruct (Raux.Rlt_bool b1 b0) eqn:B1; [apply Rlt_bool_iff in B1; lra|].
    destruct (Raux.Rlt_bool 0 b1 && Raux.Rle_bool w (b1 * b1)) eqn:B2; cbn [orb] in Estr.
    + specialize (Hbig eq_refl). specialize (Hcb Hbig). rewrite calc_bias_q_eq in Estr.
      destruct (Raux.Rlt_bool tau b0) eqn:B3; [apply Rlt_bool_iff in B3; lra|].
      destruct (Raux.Rlt_bool _ 0) eqn:B4.
      * apply Rlt_bool_iff in B4. eapply (core_opt_none _ 0 0 1 b0 tau); [lra|lra| |nra|exact Estr|discriminate|exact Er|exact Hcb].
        rewrite <- Hss at 1. nra.
      * apply Rlt_bool_no in B4. exact (core_opt_deep _ b0 e' st B4 Hhi Estr Er Hcb).
    + specialize (Hsmall eq_refl). destruct (Raux.Rle_bool _ 0) eqn:B3.
      * apply Rle_bool_iff in B3. eapply (core_opt_none _ 0 0 1 b0 b1); [lra|lra|lra| |exact Estr|discriminate|exact Er|exact Hc].
        apply Rnot_le_lt. intros Hb. assert (0 <= INR n * (b0 * b1)) by (apply Rmult_le_pos; [lra|apply Rmult_le_pos; lra]). lra.
      * apply Rle_bool_no in B3. exact (core_opt_par _ b0 b1 e' st H01 ltac:(lra) Hlo0 Hsmall Estr Er Hc).
Qed.
End Core.
