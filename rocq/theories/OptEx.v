(** Consequences and cases for the smallest-ellipsoid theorems. *)
From Coq Require Import Reals List Arith Lia Lra Psatz Bool ZArith.
From Verif Require Import Num Res Arr CuttingPlane EllCalc Ell EllRun ArrLemmas EllLemmas Spec RealLin CutScalar EllSpec EllReal EllCuts EllMore EllWitness
  Det DetLemmas VolScalar VolProofs OptCuts.
Import ListNotations.
Open Scope R_scope.

(** a pair of cuts is never worse than its first cut alone *)
Lemma pair_not_worse m n e g b0 b1 e1 s1 e2 s2 : (2 <= n)%nat -> proper n e -> vecn n g -> (exists i, (i < n)%nat /\ coords g i <> 0) ->
  good_single m n (sqrt (width2 n e g)) b0 -> good_parallel m n (width2 n e g) b0 b1 -> - sqrt (width2 n e g) <= used m b0 ->
  apply_cut (N := RNum) single m e (g, SC b0) = Ok (e1, s1) ->
  apply_cut (N := RNum) parallel m e (g, PC b0 (Some b1)) = Ok (e2, s2) -> vol2 n e2 <= vol2 n e1.
Proof.
  intros Hn HP Hg Hnz Hs Hp Hlo E1 E2.
  destruct (single_all m n e g b0 Hn HP Hg Hnz Hs) as (e' & st & E & P1 & _ & _ & _ & K). rewrite E1 in E. inversion E; subst e' st.
  apply (parallel_opt n e g e1 Hn HP Hg Hnz P1 m b0 b1 e2 s2 Hp Hlo E2).
  intros x [Hx Hal]. apply K; auto. lra.
Qed.

Definition gmx : Arr RNum := vR [-1; 0].
(** With the first offset below -tau the pair is not cut in the best way: half of
    the disc, as a band from -5 to 0. *)
Lemma below_not_best : exists e' f, ubias parallel disc (gx, PC (-5) (Some 0)) = Ok (e', Success) /\ proper 2 e' /\ proper 2 f /\
  covers 2 f disc gx (-5) 0 /\ vol2 2 f < vol2 2 e'.
Proof.
  pose proof disc_proper as HPr. pose proof HPr as (V & HP & Hk). pose proof disc_width as Ew.
  assert (Es : sqrt (width2 2 disc gx) = 1) by (rewrite Ew; apply sqrt_1).
  assert (Gv : vecn 2 gmx) by (split; reflexivity).
  assert (Gnz : exists i, (i < 2)%nat /\ coords gmx i <> 0) by (exists 0%nat; split; [lia|unfold coords; simpl; lra]).
  destruct (single_all Central 2 disc gmx 0 ltac:(lia) HPr Gv Gnz I) as (f & st & E & Pf & _ & _ & Kv & K).
  destruct (Kv (Rle_refl _)) as [_ Hf].
  assert (Hgood : good_parallel Bias 2 (width2 2 disc gx) (-5) 0).
  { unfold good_parallel. rewrite Es, Ew. cbn [used]. repeat split; try lra. }
  destruct (parallel_all Bias 2 disc gx (-5) 0 ltac:(lia) HPr gx_vec gx_nz Hgood) as (e' & st' & E' & Pe & _ & _ & _ & _).
  set (str := cut_core (N := RNum) parallel Bias disc (PC (-5) (Some 0))).
  assert (Estr : str 1 = (Success, par3 (INR 2) 1 (-5) 0)).
  { transitivity (calc_parallel_bias_cut (N := RNum) (calc_new 2) (-5) 0 1); [reflexivity|]. rewrite calc_par_bias_eq.
    replace (Raux.Rlt_bool 0 (-5)) with false by (symmetry; apply Rlt_bool_no; lra).
    replace (Raux.Rlt_bool 0 0) with false by (symmetry; apply Rlt_bool_no; lra). reflexivity. }
  assert (Est : st' = Success).
  { rewrite apply_cut_core in E'. fold str in E'.
    destruct (core_par 2 disc gx str (-5) 0 ltac:(lia) V gx_vec ltac:(lra) ltac:(lra)) as (e2 & ? & ? & ? & _ & E2 & _).
    - rewrite Ew. simpl. lra.
    - rewrite Ew. exact Estr.
    - rewrite E2 in E'. now inversion E'. }
  subst st'. exists e', f. split; [exact E'|]. split; [exact Pe|]. split; [exact Pf|]. split.
  - intros x [Hx Hal]. apply K; auto. cbn [used]. rewrite along2 in *. unfold gmx, gx, coords in *. simpl in *. lra.
  - destruct (par3 (INR 2) 1 (-5) 0) as [[rho sigma] delta] eqn:Ep.
    assert (Ev : vol2 2 e' = delta ^ 2 * (1 - sigma) * vol2 2 disc).
    { eapply (vol_formula parallel Bias 2 disc gx _ rho sigma delta e' HPr gx_vec); [lra|exact E'|rewrite Ew; exact Estr|].
      unfold par3 in Ep. inversion Ep. subst. apply (pv_sigma_lt 2 1 (-5) 0); try lra; try lia. }
    assert (Hd : 0 < vol2 2 disc) by (now apply vol_pos).
    unfold par3 in Ep. change (INR 2) with 2 in Ep.
    set (xi := sqrt _) in Ep.
    assert (Hx : 24 + 1/2 < xi).
    { unfold xi. rewrite <- (sqrt_square (24 + 1/2)) by lra. apply sqrt_lt_1; lra. }
    inversion Ep as [[H1 H2 H3]]. clear Ep. rewrite Ev.
    assert (D1 : 1 < delta) by (rewrite <- H3; lra).
    assert (S1 : sigma < 1 / 10).
    { rewrite <- H2. apply Rmult_lt_reg_r with (1 + -5 * 0 + 2 / 2 * ((-5 + 0) * (-5 + 0)) + xi); [lra|].
      unfold Rdiv at 1. rewrite Rmult_assoc, Rinv_l by lra. lra. }
    assert (Hr : rate 2 <= 3 / 4).
    { unfold rate. change (INR 2) with 2. rewrite exp_Ropp. pose proof (exp_up (/ (2 + 1))) as H.
      apply Rle_trans with (/ (4/3)); [|lra]. apply Rinv_le_contravar; lra. }
    apply Rle_lt_trans with (rate 2 * vol2 2 disc); auto. apply Rmult_lt_compat_r; auto. nra.
Qed.
