(** Soundness of the cuts of Ell over the reals. *)
From Coq Require Import Reals List Arith Lia Lra Psatz Bool ZArith.
From Verif Require Import Num Res Arr CuttingPlane EllCalc Ell ArrLemmas EllLemmas Spec RealLin CutScalar EllSpec EllReal.
Import ListNotations.
Open Scope R_scope.

Notation ubias := (ell_update_bias (N := RNum)).
Notation ucentral := (ell_update_central (N := RNum)).
Notation uq := (ell_update_q (N := RNum)).
Notation single := (single_cut (N := RNum)).
Notation parallel := (parallel_cut (N := RNum)).
Notation SC := (mkSingle (N := RNum)).
Notation PC := (mkParallel (N := RNum)).
Notation with_tsq e t := (mkEll (N := RNum) (e_no_defer e) (e_mq e) (e_xc e) (e_kappa e) (e_helper e) t).

Lemma core_run n e g (strategy : R -> cutres RNum) st rho sigma delta : valid n e -> vecn n g ->
  strategy (width2 n e g) = (st, (rho, sigma, delta)) ->
  exists e', ell_update_core (N := RNum) e g strategy = Ok (e', st) /\
    (st <> Success -> e' = with_tsq e (width2 n e g)) /\
    (st = Success -> stepped n e g rho sigma delta e').
Proof.
  intros V Hg E. destruct (ell_core n e g strategy (valid_wf _ _ V) (v_sym _ _ V) Hg)
    as (e' & st' & r' & s' & d' & E1 & E2 & H1 & H2).
  rewrite E in E1. inversion E1; subst. eauto.
Qed.
Lemma pts_with_tsq n e t x : pts n (with_tsq e t) x <-> pts n e x.
Proof. reflexivity. Qed.

Lemma core_deep n e g strategy beta : (2 <= n)%nat -> valid n e -> vecn n g -> 0 < width2 n e g ->
  0 <= sqrt (width2 n e g) + INR n * beta -> beta <= sqrt (width2 n e g) ->
  strategy (width2 n e g) = (Success, deep3 (INR n) (sqrt (width2 n e g)) beta) ->
  exists e', ell_update_core (N := RNum) e g strategy = Ok (e', Success) /\
    valid n e' /\ (forall x, pts n e x -> along n (coords g) x (centre e) + beta <= 0 -> pts n e' x).
Proof.
  intros Hn V Hg Hw Hlo Hhi E. pose proof (INR_two n Hn) as Hm. pose proof (valid_width _ _ _ V Hg Hw) as [Hk Ho].
  destruct (deep3 (INR n) (sqrt (width2 n e g)) beta) as [[rho sigma] delta] eqn:Ed.
  destruct (core_run n e g strategy _ _ _ _ V Hg E) as (e' & Er & _ & Hs). specialize (Hs eq_refl).
  exists e'. split; auto. split.
  - pose proof (sqrt_lt_R0 _ Hw) as Hst.
    assert (Hm1 : 1 < INR n) by lra.
    pose proof (deep_sigma_le (INR n) _ beta Hm1 Hst Hlo Hhi) as Hsl.
    pose proof (deep_delta_tsq (INR n) (sqrt (width2 n e g)) beta Hm1 Hst) as Hdt.
    pose proof (deep_sum_pos (INR n) (sqrt (width2 n e g)) beta Hm1 Hst Hlo) as Hsp.
    unfold deep3 in Ed. inversion Ed; subst rho sigma delta.
    eapply stepped_valid; [exact V|exact Hg|exact Ho|exact Hsl| |exact Hs].
    set (d := INR n * INR n / (INR n * INR n - 1) * (1 - beta / sqrt (width2 n e g) * (beta / sqrt (width2 n e g)))) in *.
    apply Rmult_le_reg_r with (sqrt (width2 n e g) * sqrt (width2 n e g)); [nra|]. rewrite Hdt, Rmult_0_l.
    apply Rmult_le_pos; [|nra]. left. apply Rmult_lt_0_compat; [nra|apply Rinv_0_lt_compat; nra].
  - intros x Hx Hc. apply (stepped_keeps n e g rho sigma delta e' V Hg Ho Hs x Hx).
    pose proof (pts_range n e g x V Hx) as [Hr _].
    pose proof (deep3_keeps (INR n) (width2 n e g) beta _ ltac:(lra) Hw Hlo Hhi Hr Hc) as K. now rewrite Ed in K.
Qed.

Lemma bias_single_keeps n e g beta : (2 <= n)%nat -> valid n e -> vecn n g -> 0 < width2 n e g ->
  - sqrt (width2 n e g) / INR n <= beta <= sqrt (width2 n e g) ->
  exists e', ubias single e (g, SC beta) = Ok (e', Success) /\
    forall x, pts n e x -> along n (coords g) x (centre e) + beta <= 0 -> pts n e' x.
Proof.
  intros Hn V Hg Hw [Hlo Hhi]. pose proof (INR_two n Hn) as Hm. pose proof (sqrt_lt_R0 _ Hw) as Hs.
  assert (Hlo' : 0 <= sqrt (width2 n e g) + INR n * beta).
  { apply (Rmult_le_compat_r (INR n)) in Hlo; [|lra].
    replace (- sqrt (width2 n e g) / INR n * INR n) with (- sqrt (width2 n e g)) in Hlo by (field; lra). lra. }
  destruct (core_deep n e g (fun tsq => call_bias single (e_helper e) (SC beta) tsq) beta Hn V Hg Hw Hlo' Hhi)
    as (e' & E & _ & K).
  - rewrite (v_calc _ _ V). simpl. rewrite calc_bias_eq.
    destruct (Raux.Rlt_bool _ _) eqn:B; auto. apply Rlt_bool_iff in B. exfalso.
    assert (sqrt (width2 n e g) * sqrt (width2 n e g) = width2 n e g) by (apply sqrt_sqrt; lra).
    pose proof (deep_sum_pos (INR n) _ _ ltac:(lra) Hs Hlo'). nra.
  - exists e'. auto.
Qed.

Lemma bias_single_nosoln n e g beta e' : valid n e -> vecn n g -> 0 <= beta ->
  ubias single e (g, SC beta) = Ok (e', NoSoln) ->
  forall x, pts n e x -> 0 < along n (coords g) x (centre e) + beta.
Proof.
  intros V Hg Hb E x Hx. apply ell_update_core_status in E as Es.
  unfold ell_update_bias in E. simpl in E.
  destruct (ell_core n e g (fun tsq => call_bias single (e_helper e) (SC beta) tsq) (valid_wf _ _ V) (v_sym _ _ V) Hg)
    as (e2 & st & r & s & d & E1 & E2 & _).
  simpl in E2. rewrite E in E2. inversion E2; subst e2 st.
  rewrite (v_calc _ _ V) in E1. simpl in E1. rewrite calc_bias_eq in E1.
  destruct (Raux.Rlt_bool _ _) eqn:B; [|discriminate]. apply Rlt_bool_iff in B.
  pose proof (pts_range n e g x V Hx) as [Hr _].
  pose proof (width_bound n _ _ _ (coords g) (v_sym _ _ V) (v_psd _ _ V) x Hx) as Hwb. fold (width2 n e g) in Hwb.
  assert (sqrt (width2 n e g) * sqrt (width2 n e g) = width2 n e g) by (apply sqrt_sqrt; nra).
  pose proof (sqrt_pos (width2 n e g)). nra.
Qed.

(** beta < -tau: every point satisfies the cut, the answer is NoSoln *)
Lemma bias_single_shallow n e g beta : valid n e -> vecn n g -> beta < - sqrt (width2 n e g) ->
  ubias single e (g, SC beta) = Ok (with_tsq e (width2 n e g), NoSoln) /\
  forall x, pts n e x -> along n (coords g) x (centre e) + beta < 0.
Proof.
  intros V Hg Hb. split.
  - destruct (core_run n e g (fun tsq => call_bias single (e_helper e) (SC beta) tsq) NoSoln 0 0 0 V Hg) as (e' & E & H & _).
    + rewrite (v_calc _ _ V). simpl. rewrite calc_bias_eq.
      destruct (Raux.Rlt_bool _ _) eqn:B; auto. apply Rlt_bool_no in B. exfalso.
      assert (0 <= width2 n e g) by nra.
      assert (sqrt (width2 n e g) * sqrt (width2 n e g) = width2 n e g) by now apply sqrt_sqrt.
      pose proof (sqrt_pos (width2 n e g)). nra.
    + etransitivity; [exact E|]. now rewrite H.
  - intros x Hx. pose proof (pts_range n e g x V Hx) as [_ Hr]. lra.
Qed.

(** update_q, every beta *)
Lemma q_single_sound n e g beta : (2 <= n)%nat -> valid n e -> vecn n g -> 0 < width2 n e g ->
  exists e' st, uq single e (g, SC beta) = Ok (e', st) /\ valid n e' /\
    (forall x, pts n e x -> along n (coords g) x (centre e) + beta <= 0 -> pts n e' x) /\
    (st = NoSoln -> forall x, pts n e x -> 0 < along n (coords g) x (centre e) + beta) /\
    (st <> Success -> e' = with_tsq e (width2 n e g)).
Proof.
  intros Hn V Hg Hw. pose proof (INR_two n Hn) as Hm. pose proof (sqrt_lt_R0 _ Hw) as Hs.
  set (str := fun tsq => call_q single (e_helper e) (SC beta) tsq).
  assert (Estr : str (width2 n e g) = calc_bias_cut_q (N := RNum) (calc_new n) beta (width2 n e g))
    by (unfold str; rewrite (v_calc _ _ V); reflexivity).
  rewrite calc_bias_q_eq in Estr.
  assert (Vt : valid n (with_tsq e (width2 n e g))) by (destruct V; constructor; auto).
  destruct (Raux.Rlt_bool (sqrt (width2 n e g)) beta) eqn:B1; [|destruct (Raux.Rlt_bool _ 0) eqn:B2].
  - apply Rlt_bool_iff in B1. destruct (core_run n e g str _ _ _ _ V Hg Estr) as (e' & E & H & _).
    exists e', NoSoln. split; [exact E|]. rewrite H by discriminate.
    split; auto. split; [intros; now apply pts_with_tsq|]. split; auto.
    intros _ x Hx. pose proof (pts_range n e g x V Hx) as [Hr _]. lra.
  - destruct (core_run n e g str _ _ _ _ V Hg Estr) as (e' & E & H & _).
    exists e', NoEffect. split; [exact E|]. rewrite H by discriminate.
    split; auto. split; [intros; now apply pts_with_tsq|]. split; auto. discriminate.
  - apply Rlt_bool_no in B1, B2.
    destruct (core_deep n e g str beta Hn V Hg Hw B2 B1 Estr) as (e' & E & Hv & K).
    exists e', Success. split; [exact E|]. split; auto. split; auto. split; [discriminate|congruence].
Qed.

Lemma central_single n e g beta : (2 <= n)%nat -> valid n e -> vecn n g -> 0 < width2 n e g ->
  exists e', ucentral single e (g, SC beta) = Ok (e', Success) /\ valid n e' /\
    forall x, pts n e x -> along n (coords g) x (centre e) <= 0 -> pts n e' x.
Proof.
  intros Hn V Hg Hw. pose proof (sqrt_lt_R0 _ Hw) as Hs.
  destruct (core_deep n e g (fun tsq => call_central single (e_helper e) (SC beta) tsq) 0 Hn V Hg Hw)
    as (e' & E & Hv & K); try lra.
  - rewrite (v_calc _ _ V). simpl. rewrite calc_central_eq, central_deep by (auto; lia). reflexivity.
  - exists e'. split; [exact E|]. split; auto. intros x Hx Hc. apply K; auto. lra.
Qed.

(** ** Parallel cuts *)
Lemma core_par n e g strategy b0 b1 : (2 <= n)%nat -> valid n e -> vecn n g -> 0 < width2 n e g ->
  b0 <= b1 -> 0 <= width2 n e g + INR n * (b0 * b1) ->
  strategy (width2 n e g) = (Success, par3 (INR n) (width2 n e g) b0 b1) ->
  exists e' rho sigma delta, par3 (INR n) (width2 n e g) b0 b1 = (rho, sigma, delta) /\
    ell_update_core (N := RNum) e g strategy = Ok (e', Success) /\ stepped n e g rho sigma delta e' /\
    (forall x, pts n e x -> along n (coords g) x (centre e) + b0 <= 0 -> 0 <= along n (coords g) x (centre e) + b1 ->
       pts n e' x).
Proof.
  intros Hn V Hg Hw H01 He E. pose proof (INR_two n Hn) as Hm. pose proof (valid_width _ _ _ V Hg Hw) as [Hk Ho].
  destruct (par3 (INR n) (width2 n e g) b0 b1) as [[rho sigma] delta] eqn:Ed.
  destruct (core_run n e g strategy _ _ _ _ V Hg E) as (e' & Er & _ & Hs). specialize (Hs eq_refl).
  exists e', rho, sigma, delta. split; auto. split; auto. split; auto.
  intros x Hx Hc0 Hc1. apply (stepped_keeps n e g rho sigma delta e' V Hg Ho Hs x Hx).
  pose proof (width_bound n _ _ _ (coords g) (v_sym _ _ V) (v_psd _ _ V) x Hx) as Hwb. fold (width2 n e g) in Hwb.
  pose proof (par3_keeps (INR n) (width2 n e g) b0 b1 _ ltac:(lra) Hw H01 He Hwb Hc0 Hc1) as K. now rewrite Ed in K.
Qed.

(** [st = NoSoln] is only answered when the slab misses the ellipsoid; otherwise it is kept. *)
Definition slab (n : nat) (e : Ell RNum) (g : Arr RNum) (b0 b1 : R) (x : vec) : Prop :=
  pts n e x /\ - b1 <= along n (coords g) x (centre e) <= - b0.

Lemma bias_par_keeps n e g b0 b1 : (2 <= n)%nat -> valid n e -> vecn n g -> 0 < width2 n e g ->
  b0 <= b1 -> 0 <= width2 n e g + INR n * (b0 * b1) ->
  exists e' st, ubias parallel e (g, PC b0 (Some b1)) = Ok (e', st) /\
    (st = Success \/ st = NoSoln) /\
    (forall x, slab n e g b0 b1 x -> pts n e' x) /\
    (st = NoSoln -> forall x, ~ slab n e g b0 b1 x).
Proof.
  intros Hn V Hg Hw H01 He. pose proof (INR_two n Hn) as Hm. pose proof (sqrt_lt_R0 _ Hw) as Hs.
  assert (Hss : sqrt (width2 n e g) * sqrt (width2 n e g) = width2 n e g) by (apply sqrt_sqrt; lra).
  set (str := fun tsq => call_bias parallel (e_helper e) (PC b0 (Some b1)) tsq).
  assert (Estr : str (width2 n e g) = calc_parallel_bias_cut (N := RNum) (calc_new n) b0 b1 (width2 n e g))
    by (unfold str; rewrite (v_calc _ _ V); reflexivity).
  rewrite calc_par_bias_eq in Estr.
  destruct (Raux.Rlt_bool b1 b0) eqn:B1; [apply Rlt_bool_iff in B1; lra|].
  destruct (Raux.Rlt_bool 0 b1 && Raux.Rle_bool (width2 n e g) (b1 * b1)) eqn:B2; cbn [orb] in Estr.
  - apply andb_true_iff in B2 as [B2 B3]. apply Rlt_bool_iff in B2. apply Rle_bool_iff in B3.
    rewrite calc_bias_eq in Estr.
    assert (Hb1 : sqrt (width2 n e g) <= b1) by nra.
    assert (Hlo : 0 <= sqrt (width2 n e g) + INR n * b0).
    { destruct (Rle_dec 0 b0); [nra|].
      assert (0 <= (sqrt (width2 n e g) + INR n * b0) * b1); [|nra]. nra. }
    destruct (Raux.Rlt_bool _ (b0 * b0)) eqn:B4.
    + apply Rlt_bool_iff in B4. destruct (core_run n e g str _ _ _ _ V Hg Estr) as (e' & E & H & _).
      exists e', NoSoln. split; [exact E|]. split; auto. rewrite H by discriminate.
      split; [intros x [Hx _]; exact Hx|]. intros _ x [Hx Hc].
      pose proof (pts_range n e g x V Hx) as [Hr _].
      assert (sqrt (width2 n e g) < b0).
      { destruct (Rle_dec b0 0); [|nra]. pose proof (deep_sum_pos (INR n) _ _ ltac:(lra) Hs Hlo). nra. }
      lra.
    + apply Rlt_bool_no in B4. assert (b0 <= sqrt (width2 n e g)) by nra.
      destruct (core_deep n e g str b0 Hn V Hg Hw Hlo H Estr) as (e' & E & Hv & K).
      exists e', Success. split; [exact E|]. split; auto. split; [|discriminate].
      intros x [Hx Hc]. apply K; auto. lra.
  - destruct (core_par n e g str b0 b1 Hn V Hg Hw H01 He Estr) as (e' & rho & sigma & delta & _ & E & _ & K).
    exists e', Success. split; [exact E|]. split; auto. split; [|discriminate].
    intros x [Hx Hc]. apply K; auto; lra.
Qed.

Lemma q_par_sound n e g b0 b1 : (2 <= n)%nat -> valid n e -> vecn n g -> 0 < width2 n e g ->
  exists e' st, uq parallel e (g, PC b0 (Some b1)) = Ok (e', st) /\
    (forall x, slab n e g b0 b1 x -> pts n e' x) /\
    (st = NoSoln -> forall x, ~ slab n e g b0 b1 x) /\
    (st <> Success -> e' = with_tsq e (width2 n e g)).
Proof.
  intros Hn V Hg Hw. pose proof (INR_two n Hn) as Hm. pose proof (sqrt_lt_R0 _ Hw) as Hs.
  set (str := fun tsq => call_q parallel (e_helper e) (PC b0 (Some b1)) tsq).
  assert (Estr : str (width2 n e g) = calc_parallel_q (N := RNum) (calc_new n) b0 b1 (width2 n e g))
    by (unfold str; rewrite (v_calc _ _ V); reflexivity).
  rewrite calc_par_q_eq in Estr.
  destruct (Raux.Rlt_bool b1 b0) eqn:B1.
  { apply Rlt_bool_iff in B1. destruct (core_run n e g str _ _ _ _ V Hg Estr) as (e' & E & H & _).
    exists e', NoSoln. split; [exact E|]. rewrite H by discriminate. split; [intros x [Hx _]; exact Hx|].
    split; auto. intros _ x [Hx Hc]. lra. }
  apply Rlt_bool_no in B1.
  destruct (Raux.Rlt_bool 0 b1 && Raux.Rle_bool (width2 n e g) (b1 * b1)) eqn:B2; cbn [orb] in Estr.
  - destruct (q_single_sound n e g b0 Hn V Hg Hw) as (e' & st & E & _ & K1 & K2 & K3).
    exists e', st. split.
    { unfold ell_update_q in *. simpl fst in *. simpl snd in *. rewrite <- E.
      unfold ell_update_core. rewrite (v_calc _ _ V). simpl.
      destruct (a_dot_mv (N := RNum) (e_mq e) g) as [gt|] eqn:E1; simpl; auto.
      destruct (a_dot (N := RNum) g gt) as [om|] eqn:E2; simpl; auto.
      assert (Ew : e_kappa e * om = width2 n e g).
      { destruct (ell_core n e g str (valid_wf _ _ V) (v_sym _ _ V) Hg) as (e2 & s2 & r2 & sg2 & d2 & F1 & F2 & _ & _).
        pose proof (a_dot_mv_ok (N := RNum) n n (e_mq e) g (v_dim _ _ V)) as G1.
        rewrite E1 in G1. unfold is_mat, is_vec in G1. destruct V.
        specialize (G1 ltac:(auto) Hg). inversion G1; subst gt. clear G1.
        rewrite (a_dot_ok (N := RNum) n) in E2.
        - inversion E2. unfold width2. rewrite <- omega_eq. unfold omega, kap. f_equal. apply accum_ext.
          intros i Hi. f_equal. unfold vget. cbn [adata]. rewrite nth_map_seq by auto. reflexivity.
        - exact Hg.
        - split; [simpl; now rewrite map_length, seq_length|reflexivity]. }
      rewrite Ew. unfold str in Estr. rewrite (v_calc _ _ V) in Estr. simpl in Estr. rewrite Estr. reflexivity. }
    split; [intros x [Hx Hc]; apply K1; auto; lra|]. split; auto.
    intros Hst x [Hx Hc]. specialize (K2 Hst x Hx). lra.
  - destruct (Raux.Rle_bool _ 0) eqn:B3.
    + destruct (core_run n e g str _ _ _ _ V Hg Estr) as (e' & E & H & _).
      exists e', NoEffect. split; [exact E|]. rewrite H by discriminate.
      split; [intros x [Hx _]; exact Hx|]. split; [discriminate|auto].
    + apply Rle_bool_no in B3.
      destruct (core_par n e g str b0 b1 Hn V Hg Hw B1 (Rlt_le _ _ B3) Estr) as (e' & rho & sigma & delta & _ & E & _ & K).
      exists e', Success. split; [exact E|]. split; [|split; [discriminate|congruence]].
      intros x [Hx Hc]. apply K; auto; lra.
Qed.

Lemma central_par_keeps n e g b0 b1 : (2 <= n)%nat -> valid n e -> vecn n g -> 0 < width2 n e g ->
  exists e' st, ucentral parallel e (g, PC b0 (Some b1)) = Ok (e', st) /\
    (0 <= b1 -> st = Success) /\ (b1 < 0 -> st = NoSoln) /\
    (forall x, slab n e g 0 b1 x -> pts n e' x) /\
    (st = NoSoln -> forall x, ~ slab n e g 0 b1 x).
Proof.
  intros Hn V Hg Hw. pose proof (INR_two n Hn) as Hm. pose proof (sqrt_lt_R0 _ Hw) as Hs.
  set (str := fun tsq => call_central parallel (e_helper e) (PC b0 (Some b1)) tsq).
  assert (Estr : str (width2 n e g) = calc_parallel_central_cut (N := RNum) (calc_new n) b1 (width2 n e g))
    by (unfold str; rewrite (v_calc _ _ V); reflexivity).
  rewrite calc_par_central_eq in Estr.
  destruct (Raux.Rlt_bool b1 0) eqn:B1.
  { apply Rlt_bool_iff in B1. destruct (core_run n e g str _ _ _ _ V Hg Estr) as (e' & E & H & _).
    exists e', NoSoln. split; [exact E|]. rewrite H by discriminate. split; [lra|]. split; auto.
    split; [intros x [Hx _]; exact Hx|]. intros _ x [Hx Hc]. lra. }
  apply Rlt_bool_no in B1.
  destruct (Raux.Rle_bool (width2 n e g) (b1 * b1)) eqn:B2; cbn [orb] in Estr.
  - rewrite calc_central_eq, central_deep in Estr by (auto; lia).
    destruct (core_deep n e g str 0 Hn V Hg Hw ltac:(lra) ltac:(lra) Estr) as (e' & E & Hv & K).
    exists e', Success. split; [exact E|]. split; auto. split; [lra|]. split; [|discriminate].
    intros x [Hx Hc]. apply K; auto. lra.
  - apply Rle_bool_no in B2. rewrite parc3_par3 in Estr by auto.
    destruct (core_par n e g str 0 b1 Hn V Hg Hw B1 ltac:(lra) Estr) as (e' & rho & sigma & delta & _ & E & _ & K).
    exists e', Success. split; [exact E|]. split; auto. split; [lra|]. split; [|discriminate].
    intros x [Hx Hc]. apply K; auto; lra.
Qed.
