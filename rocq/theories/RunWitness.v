(** Concrete oracles that meet the hypotheses of the whole-run theorems: the
    example oracles of the crate for single cuts, a slab for parallel cuts. *)
From Coq Require Import ZArith Reals List Bool Arith Lia Lra Psatz.
From Verif Require Import Num Res Arr CuttingPlane EllCalc Ell EllRun Spec EllSpec EllReal EllCuts EllMore EllWitness Det RunSpec RunProofs VolProofs Examples ExSpec ExConv.
Import ListNotations.
Open Scope R_scope.

Lemma egg_vol : vol2 2 egg = 44.
Proof. unfold vol2, kap, shape. cbn. unfold minor. cbn. lra. Qed.

(** the slab 2 <= y0 <= 4 in the plane *)
Definition slab24 (y : vec) : Prop := 2 <= y 0%nat <= 4.
Definition ex_dir : Arr RNum := vR [1; 0].
Definition ex_opp : Arr RNum := vR [-1; 0].
Definition slab_feas (o : unit) (x : Arr RNum) : res (unit * option (Arr RNum * ParallelCut RNum)) :=
  let a := coords x 0%nat in
  if Rlt_dec 4 a then Ok (tt, Some (ex_dir, PC (a - 4) (Some (a - 2))))
  else if Rlt_dec a 2 then Ok (tt, Some (ex_opp, PC (2 - a) (Some (4 - a))))
  else Ok (tt, None).
Definition slab_oracle : OracleFeas RNum (Arr RNum) (ParallelCut RNum) unit := mkOracleFeas RNum (Arr RNum) (ParallelCut RNum) unit slab_feas (fun o _ => o).
(** maximise y0 over the slab *)
Definition slab_optim (o : unit) (x : Arr RNum) (gamma : num RNum) : res (unit * num RNum * (Arr RNum * ParallelCut RNum * bool)) :=
  let a := coords x 0%nat in
  if Rlt_dec 4 a then Ok (tt, gamma, (ex_dir, PC (a - 4) (Some (a - 2)), false))
  else if Rlt_dec a (Rmax 2 gamma) then Ok (tt, gamma, (ex_opp, PC (Rmax 2 gamma - a) (Some (4 - a)), false))
  else Ok (tt, a, (ex_opp, PC 0 (Some (4 - a)), true)).
Definition slab_beats (y : vec) (gamma : R) : Prop := slab24 y /\ gamma <= y 0%nat.

Lemma dir_along y x : along 2 (coords ex_dir) y x = y 0%nat - x 0%nat.
Proof. rewrite along2. unfold coords. cbn. ring. Qed.
Lemma opp_along y x : along 2 (coords ex_opp) y x = x 0%nat - y 0%nat.
Proof. rewrite along2. unfold coords. cbn. ring. Qed.
Lemma dir_dot (g : Arr RNum) : coords g 0%nat * coords g 0%nat = 1 -> coords g 1%nat = 0 -> 1 * 1 <= dot 2 (coords g) (coords g).
Proof. intros H H1. unfold dot. cbn [Rsum]. rewrite H1. lra. Qed.
Lemma slab_feas_cuts : feas_cuts parallel_sat parallel_deep 2 (fun _ => True) slab24 slab_oracle.
Proof.
  intros o x o' ans _ Hl E. split; auto. cbn in E. unfold slab_feas in E.
  destruct (Rlt_dec 4 _) as [H|H]; [|destruct (Rlt_dec _ 2) as [H1|H1]]; inversion E; subst; auto;
  (split; [split; reflexivity|]); (split; [unfold parallel_deep; cbn; lra|]); intros y Hy; unfold slab24 in Hy;
  rewrite ?dir_along, ?opp_along; unfold parallel_sat; cbn [pc_beta0 pc_beta1 offset]; split; lra.
Qed.
Lemma slab_feas_total : feas_total 2 (fun _ : unit => True) 1 slab_oracle.
Proof.
  intros o x _ Hl. cbn. unfold slab_feas.
  destruct (Rlt_dec 4 _) as [H|H]; [|destruct (Rlt_dec _ 2) as [H1|H1]]; do 2 eexists; (split; [reflexivity|]); cbv beta iota; auto;
  apply dir_dot; try reflexivity; unfold coords; cbn; lra.
Qed.
Lemma slab_optim_cuts : optim_cuts parallel_sat parallel_deep 2 (fun _ _ => True) slab_beats slab_optim.
Proof.
  intros o x gamma o' gamma' g c sh _ Hl E. split; auto. unfold slab_optim in E.
  pose proof (Rmax_l 2 gamma) as M1. pose proof (Rmax_r 2 gamma) as M2.
  destruct (Rlt_dec 4 _) as [H|H]; [|destruct (Rlt_dec _ (Rmax _ _)) as [H1|H1]]; inversion E; subst; clear E;
  (split; [split; reflexivity|]); (split; [unfold parallel_deep; cbn; lra|]); (split; [auto; discriminate|]).
  - split; auto. intros y [Hy Hg]. unfold slab24 in Hy. rewrite ?dir_along, ?opp_along. unfold parallel_sat; cbn [pc_beta0 pc_beta1 offset]; split; lra.
  - split; auto. intros y [Hy Hg]. unfold slab24 in Hy. rewrite ?dir_along, ?opp_along. assert (Rmax 2 gamma' <= y 0%nat) by (apply Rmax_lub; lra).
    unfold parallel_sat; cbn [pc_beta0 pc_beta1 offset]; split; lra.
  - split; [intros y [Hy Hg]; split; auto; lra|]. intros y [Hy Hg]. unfold slab24 in Hy. rewrite ?dir_along, ?opp_along. 
    unfold parallel_sat; cbn [pc_beta0 pc_beta1 offset]; split; lra.
Qed.
Lemma slab_optim_total : optim_total 2 (fun _ _ => True) 1 slab_optim.
Proof.
  intros o x gamma _ Hl. unfold slab_optim.
  destruct (Rlt_dec 4 _) as [H|H]; [|destruct (Rlt_dec _ (Rmax _ _)) as [H1|H1]]; do 5 eexists; (split; [reflexivity|]);
  apply dir_dot; try reflexivity; unfold coords; cbn; lra.
Qed.
Definition z33 : vec := point2 3 0.
(** the disc of radius 10, the ball of radius 1/2 around (3, 0) *)
Lemma slab_geometry : exists e, ell_new_with_scalar (N := RNum) 100 origin2 = Ok e /\ proper 2 e /\ vecn 2 (e_xc e) /\ vol2 2 e = 10000 /\
  forall y, ball 2 z33 (1 / 2) y -> slab_beats y 2 /\ pts 2 e y.
Proof.
  destruct (disc_real 100 ltac:(lra)) as (e & E & HP & Hv & Hin). exists e. split; auto. split; auto. split; [rewrite (new_scalar_xc _ _ _ E); split; reflexivity|]. split; [rewrite Hv; ring|].
  intros y Hy. apply ball2 in Hy as (a & b & H & Ea & Eb).
  destruct (in_unit a b (1 / 2) ltac:(lra) H) as [Ha Hb]. unfold slab_beats, slab24. rewrite Ea. split; [split; [split|]; lra|].
  apply Hin. rewrite Ea, Eb. pose proof (sq_bound (3 + a) 4 ltac:(lra)). pose proof (sq_bound (0 + b) 4 ltac:(lra)). lra.
Qed.
Lemma slab_bound : (INR 2 + 1) * ln (10000 / (1 / 2 * (1 / 2)) ^ 2) < INR 100.
Proof.
  replace (INR 100) with 100 by (rewrite INR_IZR_INZ; reflexivity). change (INR 2) with 2.
  replace (10000 / (1 / 2 * (1 / 2)) ^ 2) with 160000 by lra.
  assert (H : 160000 <= exp 20).
  { apply Rle_trans with (2 ^ 20); [lra|]. replace (exp 20) with (exp (INR 20 * 1)) by (f_equal; rewrite INR_IZR_INZ; cbn; lra).
    rewrite <- VolScalar.exp_pow. apply pow_incr. pose proof (exp_ineq1_le 1). lra. }
  assert (ln 160000 <= 20); [|lra]. rewrite <- (ln_exp 20). destruct H as [H|H]; [left; apply ln_increasing; lra|right; now rewrite H].
Qed.
