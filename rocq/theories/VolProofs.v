(** The volume of the ellipsoid under the updates. *)
From Coq Require Import Reals List Arith Lia Lra Psatz Bool ZArith.
From Verif Require Import Num Res Arr CuttingPlane EllCalc Ell EllRun ArrLemmas EllLemmas Spec RealLin CutScalar EllSpec EllReal EllCuts EllMore
  Det DetLemmas VolScalar.
Import ListNotations.
Open Scope R_scope.

Lemma vol_pos n e : proper n e -> 0 < vol2 n e.
Proof.
  intros (V & HP & Hk). unfold vol2. apply Rmult_lt_0_compat; [now apply pow_lt|]. apply det_pos; auto. apply V.
Qed.
Lemma vol_step n e g rho sigma delta e' : proper n e -> 0 < quad n (shape n e) (coords g) -> sigma < 1 ->
  stepped n e g rho sigma delta e' -> vol2 n e' = delta ^ n * (1 - sigma) * vol2 n e.
Proof.
  intros (V & HP & Hk) Ho Hs (_ & _ & _ & _ & _ & H). set (om := quad n (shape n e) (coords g)) in *.
  assert (Hc : sigma / om * om = sigma) by (field; lra).
  assert (E : det n (rank1 (shape n e) (sigma / om) (mulmv n (shape n e) (coords g))) = (1 - sigma) * det n (shape n e)).
  { rewrite (det_rank1 n (shape n e) (coords g) (sigma / om) (v_sym _ _ V) HP); fold om; rewrite Hc; auto. }
  unfold vol2. destruct (e_no_defer e); destruct H as [Ek HM]; rewrite Ek, (det_ext n _ _ HM).
  - rewrite det_scale, E, pow1, Rpow_mult_distr. ring.
  - rewrite E, Rpow_mult_distr. ring.
Qed.
Lemma vol_formula {C} (ct : CutType RNum C) m n e g c rho sigma delta e' : proper n e -> vecn n g ->
  0 < width2 n e g -> apply_cut (N := RNum) ct m e (g, c) = Ok (e', Success) ->
  cut_core (N := RNum) ct m e c (width2 n e g) = (Success, (rho, sigma, delta)) -> sigma < 1 ->
  vol2 n e' = delta ^ n * (1 - sigma) * vol2 n e.
Proof.
  intros HP Hg Hw E Es Hs. pose proof HP as (V & _ & _). pose proof (valid_width _ _ _ V Hg Hw) as [_ Ho].
  rewrite apply_cut_core in E. destruct (core_run n e g _ _ _ _ _ V Hg Es) as (e2 & E2 & _ & H).
  rewrite E in E2. inversion E2; subst e2. eapply vol_step; eauto.
Qed.

Definition rate (n : nat) : R := exp (- / (INR n + 1)).
Lemma rate_pos n : 0 < rate n.
Proof. apply exp_pos. Qed.
Lemma rate_lt n : rate n < 1.
Proof. apply Rlt_le_trans with (exp 0); [apply exp_increasing|right; apply exp_0]. assert (0 < / (INR n + 1)) by (apply Rinv_0_lt_compat; pose proof (pos_INR n); lra). lra. Qed.

Lemma core_deep_vol n e g strategy b : (2 <= n)%nat -> proper n e -> vecn n g -> (exists i, (i < n)%nat /\ coords g i <> 0) ->
  0 <= sqrt (width2 n e g) + INR n * b -> b < sqrt (width2 n e g) ->
  strategy (width2 n e g) = (Success, deep3 (INR n) (sqrt (width2 n e g)) b) ->
  exists e', ell_update_core (N := RNum) e g strategy = Ok (e', Success) /\ proper n e' /\ e_tsq e' = width2 n e g /\
    vol2 n e' <= vol2 n e /\ (0 <= b -> vol2 n e' <= rate n * vol2 n e) /\
    (forall x, pts n e x -> along n (coords g) x (centre e) + b <= 0 -> pts n e' x).
Proof.
  intros Hn HPr Hg Hnz Hlo Hhi E. pose proof (proper_width _ _ _ HPr Hg Hnz) as Hw. pose proof HPr as (V & HP & Hk).
  pose proof (INR_two n Hn) as Hm. pose proof (sqrt_lt_R0 _ Hw) as Hs. pose proof (valid_width _ _ _ V Hg Hw) as [_ Ho].
  destruct (core_deep n e g strategy b Hn V Hg Hw Hlo (Rlt_le _ _ Hhi) E) as (e' & Er & _ & K).
  exists e'. unfold deep3 in E. destruct (core_run n e g strategy _ _ _ _ V Hg E) as (e2 & Er2 & _ & Hst).
  rewrite Er in Er2. inversion Er2; subst e2. specialize (Hst eq_refl).
  pose proof (deep_sum_pos (INR n) _ _ ltac:(lra) Hs Hlo) as Hsum.
  assert (Hsg : 2 * ((sqrt (width2 n e g) + INR n * b) / (INR n + 1)) / (sqrt (width2 n e g) + b) < 1)
    by (apply deep_sigma_lt; auto; lra).
  pose proof (vol_pos n e HPr) as Hv. pose proof (vol_step n e g _ _ _ e' HPr Ho Hsg Hst) as Ev.
  split; auto. split; [|split; [|split; [|split; [|exact K]]]].
  - eapply stepped_proper; [exact HPr|exact Hg|exact Ho| | |exact Hst]; auto. apply deep_delta_pos; auto; lra.
  - apply Hst.
  - rewrite Ev. rewrite <- (Rmult_1_l (vol2 n e)) at 2. apply Rmult_le_compat_r; [lra|]. apply deep_vol_le; auto; lra.
  - intros Hb. rewrite Ev. apply Rmult_le_compat_r; [lra|]. apply deep_vol_exp; auto; lra.
Qed.
Lemma core_par_vol n e g strategy b0 b1 : (2 <= n)%nat -> proper n e -> vecn n g -> (exists i, (i < n)%nat /\ coords g i <> 0) ->
  b0 < b1 -> 0 <= width2 n e g + INR n * (b0 * b1) -> - sqrt (width2 n e g) < b1 -> b1 < sqrt (width2 n e g) ->
  strategy (width2 n e g) = (Success, par3 (INR n) (width2 n e g) b0 b1) ->
  exists e', ell_update_core (N := RNum) e g strategy = Ok (e', Success) /\ proper n e' /\ e_tsq e' = width2 n e g /\
    vol2 n e' <= vol2 n e /\ (0 <= b0 -> vol2 n e' <= rate n * vol2 n e) /\
    (forall x, slab n e g b0 b1 x -> pts n e' x).
Proof.
  intros Hn HPr Hg Hnz H01 He Hlo Hhi E. pose proof (proper_width _ _ _ HPr Hg Hnz) as Hw. pose proof HPr as (V & HP & Hk).
  pose proof (INR_two n Hn) as Hm. pose proof (sqrt_lt_R0 _ Hw) as Hs. pose proof (valid_width _ _ _ V Hg Hw) as [_ Ho].
  destruct (core_par n e g strategy b0 b1 Hn V Hg Hw (Rlt_le _ _ H01) He E) as (e' & rho & sigma & delta & Ep & Er & Hst & K).
  exists e'. unfold par3 in Ep. inversion Ep; subst rho sigma delta. clear Ep.
  pose proof (pv_sigma_lt n _ b0 b1 Hn Hw H01 He) as Hsg.
  pose proof (vol_pos n e HPr) as Hv. pose proof (vol_step n e g _ _ _ e' HPr Ho Hsg Hst) as Ev.
  split; auto. split; [|split; [|split; [|split]]].
  - eapply stepped_proper; [exact HPr|exact Hg|exact Ho|exact Hsg| |exact Hst]. apply pv_delta_pos; auto.
  - apply Hst.
  - rewrite Ev. rewrite <- (Rmult_1_l (vol2 n e)) at 2. apply Rmult_le_compat_r; [lra|]. apply par_vol_le; auto; lra.
  - intros Hb. rewrite Ev. apply Rmult_le_compat_r; [lra|]. apply par_vol_exp; auto; lra.
  - intros x [Hx Hc]. apply K; auto; lra.
Qed.
Lemma core_same n e g strategy st rho sigma delta : proper n e -> vecn n g ->
  strategy (width2 n e g) = (st, (rho, sigma, delta)) -> st <> Success ->
  exists e', ell_update_core (N := RNum) e g strategy = Ok (e', st) /\ proper n e' /\ e_tsq e' = width2 n e g /\
    vol2 n e' = vol2 n e /\ (forall x, pts n e' x <-> pts n e x).
Proof.
  intros HPr Hg E Hst. pose proof HPr as (V & HP & Hk). destruct (core_run n e g _ _ _ _ _ V Hg E) as (e' & Er & H & _).
  exists e'. rewrite (H Hst) in *. split; auto. split; [split; [destruct V; constructor; auto|split; auto]|].
  split; [reflexivity|]. split; [reflexivity|]. intros x. apply pts_with_tsq.
Qed.

(** the offset the call uses *)
Definition used (m : mode) (beta : R) : R := match m with Central => 0 | _ => beta end.

Lemma single_all m n e g beta : (2 <= n)%nat -> proper n e -> vecn n g -> (exists i, (i < n)%nat /\ coords g i <> 0) ->
  good_single m n (sqrt (width2 n e g)) beta ->
  exists e' st, apply_cut (N := RNum) single m e (g, SC beta) = Ok (e', st) /\ proper n e' /\ e_tsq e' = width2 n e g /\
    vol2 n e' <= vol2 n e /\
    (0 <= used m beta -> st = Success /\ vol2 n e' <= rate n * vol2 n e) /\
    (forall x, pts n e x -> along n (coords g) x (centre e) + used m beta <= 0 -> pts n e' x).
Proof.
  intros Hn HPr Hg Hnz Hgood. pose proof (proper_width _ _ _ HPr Hg Hnz) as Hw. pose proof HPr as (V & HP & Hk).
  pose proof (INR_two n Hn) as Hm. pose proof (sqrt_lt_R0 _ Hw) as Hs.
  assert (Hss : sqrt (width2 n e g) * sqrt (width2 n e g) = width2 n e g) by (apply sqrt_sqrt; lra).
  rewrite apply_cut_core.
  assert (Hdeep : 0 <= sqrt (width2 n e g) + INR n * used m beta -> used m beta < sqrt (width2 n e g) ->
     cut_core (N := RNum) single m e (SC beta) (width2 n e g) = (Success, deep3 (INR n) (sqrt (width2 n e g)) (used m beta)) ->
     exists e' st, ell_update_core (N := RNum) e g (cut_core (N := RNum) single m e (SC beta)) = Ok (e', st) /\ proper n e' /\
       e_tsq e' = width2 n e g /\ vol2 n e' <= vol2 n e /\
       (0 <= used m beta -> st = Success /\ vol2 n e' <= rate n * vol2 n e) /\
       (forall x, pts n e x -> along n (coords g) x (centre e) + used m beta <= 0 -> pts n e' x)).
  { intros H1 H2 E. destruct (core_deep_vol n e g _ _ Hn HPr Hg Hnz H1 H2 E) as (e' & Er & R1 & R2 & R3 & R4 & R5).
    exists e', Success. repeat (split; auto). }
  destruct m; simpl in Hgood; cbn [used] in *.
  - destruct Hgood as [Hlo Hhi].
    assert (Hlo' : 0 <= sqrt (width2 n e g) + INR n * beta).
    { apply (Rmult_le_compat_r (INR n)) in Hlo; [|lra].
      replace (- sqrt (width2 n e g) / INR n * INR n) with (- sqrt (width2 n e g)) in Hlo by (field; lra). lra. }
    apply (Hdeep Hlo' Hhi). simpl. rewrite (v_calc _ _ V), calc_bias_eq.
    destruct (Raux.Rlt_bool _ _) eqn:B; auto. apply Rlt_bool_iff in B. exfalso.
    pose proof (deep_sum_pos (INR n) _ _ ltac:(lra) Hs Hlo'). nra.
  - apply Hdeep; try lra. simpl. rewrite (v_calc _ _ V), calc_central_eq, central_deep by (auto; lia). reflexivity.
  - destruct (Raux.Rlt_bool (sqrt (width2 n e g) + INR n * beta) 0) eqn:B.
    + destruct (core_same n e g (cut_core (N := RNum) single Quantised e (SC beta)) NoEffect 0 0 1 HPr Hg) as (e' & Er & R1 & R2 & R3 & R4).
      * simpl. rewrite (v_calc _ _ V), calc_bias_q_eq, B.
        destruct (Raux.Rlt_bool _ beta) eqn:B2; auto. apply Rlt_bool_iff in B2. lra.
      * discriminate.
      * exists e', NoEffect. split; auto. split; auto. split; auto. split; [lra|]. split.
        -- intros Hb. apply Rlt_bool_iff in B. nra.
        -- intros x Hx _. now apply R4.
    + apply Rlt_bool_no in B as B'. apply (Hdeep B' Hgood). simpl. rewrite (v_calc _ _ V), calc_bias_q_eq, B.
      destruct (Raux.Rlt_bool _ beta) eqn:B2; auto. apply Rlt_bool_iff in B2. lra.
Qed.

(** parallel cuts: the band meets the interior of the ellipsoid and is not thin *)
Definition good_parallel (m : mode) (n : nat) (t b0 b1 : R) : Prop :=
  used m b0 < b1 /\ - sqrt t < b1 /\ used m b0 < sqrt t /\ (m = Bias -> 0 <= t + INR n * (b0 * b1)).
Lemma parallel_all m n e g b0 b1 : (2 <= n)%nat -> proper n e -> vecn n g -> (exists i, (i < n)%nat /\ coords g i <> 0) ->
  good_parallel m n (width2 n e g) b0 b1 ->
  exists e' st, apply_cut (N := RNum) parallel m e (g, PC b0 (Some b1)) = Ok (e', st) /\ proper n e' /\ e_tsq e' = width2 n e g /\
    vol2 n e' <= vol2 n e /\
    (0 <= used m b0 -> st = Success /\ vol2 n e' <= rate n * vol2 n e) /\
    (forall x, slab n e g (used m b0) b1 x -> pts n e' x).
Proof.
  intros Hn HPr Hg Hnz (H01 & Hlo & Hhi & Hbias). pose proof (proper_width _ _ _ HPr Hg Hnz) as Hw. pose proof HPr as (V & HP & Hk).
  pose proof (INR_two n Hn) as Hm. pose proof (sqrt_lt_R0 _ Hw) as Hs.
  assert (Hss : sqrt (width2 n e g) * sqrt (width2 n e g) = width2 n e g) by (apply sqrt_sqrt; lra).
  rewrite apply_cut_core.
  set (u := used m b0) in *. set (str := cut_core (N := RNum) parallel m e (PC b0 (Some b1))).
  set (goal := exists e' st, ell_update_core (N := RNum) e g str = Ok (e', st) /\ proper n e' /\ e_tsq e' = width2 n e g /\
    vol2 n e' <= vol2 n e /\ (0 <= u -> st = Success /\ vol2 n e' <= rate n * vol2 n e) /\
    (forall x, slab n e g u b1 x -> pts n e' x)).
  assert (Hdeep : 0 <= sqrt (width2 n e g) + INR n * u -> str (width2 n e g) = (Success, deep3 (INR n) (sqrt (width2 n e g)) u) -> goal).
  { intros H1 E. destruct (core_deep_vol n e g str u Hn HPr Hg Hnz H1 Hhi E) as (e' & Er & R1 & R2 & R3 & R4 & R5).
    exists e', Success. do 5 (split; auto). intros x [Hx Hc]. apply R5; auto. lra. }
  assert (Hpar : b1 < sqrt (width2 n e g) -> 0 <= width2 n e g + INR n * (u * b1) -> str (width2 n e g) = (Success, par3 (INR n) (width2 n e g) u b1) -> goal).
  { intros H1 H2 E. destruct (core_par_vol n e g str u b1 Hn HPr Hg Hnz H01 H2 Hlo H1 E) as (e' & Er & R1 & R2 & R3 & R4 & R5).
    exists e', Success. do 5 (split; auto). }
  assert (Hnone : str (width2 n e g) = (NoEffect, (0, 0, 1)) -> u < 0 -> goal).
  { intros E Hu. destruct (core_same n e g str NoEffect 0 0 1 HPr Hg E) as (e' & Er & R1 & R2 & R3 & R4); [discriminate|].
    exists e', NoEffect. split; auto. split; auto. split; auto. split; [lra|]. split; [lra|]. intros x [Hx _]. now apply R4. }
  assert (Hsmall : (Raux.Rlt_bool 0 b1 && Raux.Rle_bool (width2 n e g) (b1 * b1)) = false -> b1 < sqrt (width2 n e g)).
  { intros B. apply andb_false_iff in B as [B|B]; [apply Rlt_bool_no in B; lra|].
    apply Rle_bool_no in B. destruct (Rle_dec b1 0); [lra|nra]. }
  assert (Hbig : (Raux.Rlt_bool 0 b1 && Raux.Rle_bool (width2 n e g) (b1 * b1)) = true -> sqrt (width2 n e g) <= b1).
  { intros B. apply andb_true_iff in B as [B B']. apply Rlt_bool_iff in B. apply Rle_bool_iff in B'. nra. }
  destruct m; cbn [used] in u.
  - assert (Estr : str (width2 n e g) = calc_parallel_bias_cut (N := RNum) (calc_new n) b0 b1 (width2 n e g))
      by (unfold str; simpl; rewrite (v_calc _ _ V); reflexivity).
    rewrite calc_par_bias_eq in Estr. specialize (Hbias eq_refl).
    destruct (Raux.Rlt_bool b1 b0) eqn:B1; [apply Rlt_bool_iff in B1; unfold u in *; lra|].
    destruct (Raux.Rlt_bool 0 b1 && Raux.Rle_bool (width2 n e g) (b1 * b1)) eqn:B2; cbn [orb] in Estr; [|now apply Hpar; auto].
    specialize (Hbig eq_refl). rewrite calc_bias_eq in Estr.
    assert (Hl : 0 <= sqrt (width2 n e g) + INR n * u).
    { unfold u. destruct (Rle_dec 0 b0); [nra|]. assert (0 <= (sqrt (width2 n e g) + INR n * b0) * b1); [|nra]. nra. }
    destruct (Raux.Rlt_bool _ (b0 * b0)) eqn:B4; [|now apply Hdeep].
    apply Rlt_bool_iff in B4. exfalso. pose proof (deep_sum_pos (INR n) _ _ ltac:(lra) Hs Hl). unfold u in *. nra.
  - assert (Estr : str (width2 n e g) = calc_parallel_central_cut (N := RNum) (calc_new n) b1 (width2 n e g))
      by (unfold str; simpl; rewrite (v_calc _ _ V); reflexivity).
    rewrite calc_par_central_eq in Estr.
    destruct (Raux.Rlt_bool b1 0) eqn:B1; [apply Rlt_bool_iff in B1; unfold u in *; lra|].
    destruct (Raux.Rle_bool (width2 n e g) (b1 * b1)) eqn:B2; cbn [orb] in Estr.
    + rewrite calc_central_eq, central_deep in Estr by (auto; lia). apply Hdeep; auto. unfold u. lra.
    + apply Rle_bool_no in B2. rewrite parc3_par3 in Estr by auto. apply Hpar; auto; [unfold u in *; nra|unfold u; lra].
  - assert (Estr : str (width2 n e g) = calc_parallel_q (N := RNum) (calc_new n) b0 b1 (width2 n e g))
      by (unfold str; simpl; rewrite (v_calc _ _ V); reflexivity).
    rewrite calc_par_q_eq in Estr.
    destruct (Raux.Rlt_bool b1 b0) eqn:B1; [apply Rlt_bool_iff in B1; unfold u in *; lra|].
    destruct (Raux.Rlt_bool 0 b1 && Raux.Rle_bool (width2 n e g) (b1 * b1)) eqn:B2; cbn [orb] in Estr.
    + rewrite calc_bias_q_eq in Estr.
      destruct (Raux.Rlt_bool (sqrt (width2 n e g)) b0) eqn:B3; [apply Rlt_bool_iff in B3; unfold u in *; lra|].
      destruct (Raux.Rlt_bool _ 0) eqn:B4.
      * apply Hnone; auto. apply Rlt_bool_iff in B4. unfold u. nra.
      * apply Rlt_bool_no in B4. now apply Hdeep.
    + destruct (Raux.Rle_bool _ 0) eqn:B3.
      * apply Hnone; auto. apply Rle_bool_iff in B3. unfold u in *. apply Rnot_le_lt. intros Hb.
        assert (0 <= INR n * (b0 * b1)) by (apply Rmult_le_pos; [lra|apply Rmult_le_pos; lra]). lra.
      * apply Rle_bool_no in B3. apply Hpar; auto. unfold u. lra.
Qed.
