(** C97: whole runs on the quasi-convex example: maximise s / e^l over s^2 <= l,
    whose best value is sqrt(1/2) / e^(1/2) (about 0.4289), at s = sqrt(1/2), l = 1/2. *)
From Coq Require Import ZArith Reals List Arith Lia Lra.
From Flocq Require Import Core IEEE754.BinarySingleNaN.
From Verif Require Import Num Res Arr CuttingPlane EllCalc Ell EllRun Spec RealLin EllSpec EllCuts EllMore Det RunSpec LmiSpec Examples ExSpec Profit ProfitWitness ExConv QcvxRun Replay.
Import ListNotations.
Open Scope R_scope.

(** what is reported is feasible and gamma is its value: any number type, search space and options *)
Theorem C97_reported : forall (N : Num) (S : Type) (sp : SearchSpace N (Arr N) (SingleCut N) S) opt idx s gamma o' s' gamma' x k, (-1 <= idx < 2)%Z ->
  cutting_plane_optim qcvx_assess sp opt idx s gamma = Ok (o', s', gamma', (Some x, k)) ->
  let a := nth 0 (adata x) n0 in let b := nth 1 (adata x) n0 in
  (2 <= length (adata x))%nat /\ gamma' = a /! nexp b /\ none_positive [a *! a -! b].
Proof. exact @qcvx_best. Qed.
Print Assumptions C97_reported.
(** a whole run comes within 4 r of every feasible point u that the start ellipsoid surrounds *)
Theorem C97_near_best : forall (opt : Options RNum) idx (e : Ell RNum) (gamma : R) u r, (-1 <= idx < 2)%Z -> 0 <= gamma -> proper 2 e -> vecn 2 (e_xc e) ->
  0 < r <= 1 -> probq (u 0%nat) (u 1%nat) -> gamma + 4 * r <= objq (u 0%nat) (u 1%nat) ->
  (forall y, ball 2 u ((2 * u 0%nat + 3) * r) y -> pts 2 e y) ->
  tolerance opt <= r * r -> (INR 2 + 1) * ln (vol2 2 e / (r * r) ^ 2) < INR (max_iters opt) ->
  exists i' e' gamma' x k, cutting_plane_optim (qcvx_assess (N := RNum)) (ell_space (N := RNum) single) opt idx e gamma = Ok (i', e', gamma', (Some x, k)) /\
    probq (coords x 0%nat) (coords x 1%nat) /\ gamma' = objq (coords x 0%nat) (coords x 1%nat) /\ objq (u 0%nat) (u 1%nat) - 4 * r < gamma'.
Proof. exact qcvx_near_best. Qed.
Print Assumptions C97_near_best.
(** stopping on a rejected cut proves that nothing in the start ellipsoid is as good *)
Theorem C97_certificate : forall (opt : Options RNum) idx (e : Ell RNum) (gamma : R) i' e' (gamma' : R) ans k, (-1 <= idx < 2)%Z -> 0 <= gamma ->
  valid 2 e -> vecn 2 (e_xc e) -> 0 < tolerance opt ->
  cutting_plane_optim (qcvx_assess (N := RNum)) (ell_space (N := RNum) single) opt idx e gamma = Ok (i', e', gamma', (ans, k)) ->
  (k < max_iters opt)%nat -> tolerance opt <= e_tsq e' ->
  forall u, pts 2 e u -> probq (u 0%nat) (u 1%nat) -> objq (u 0%nat) (u 1%nat) < gamma'.
Proof. exact qcvx_certificate. Qed.
Print Assumptions C97_certificate.
(** a level above the best value is never met, whatever search space is used (the test with gamma = 100) *)
Theorem C97_too_high : forall (S : Type) (sp : SearchSpace RNum (Arr RNum) (SingleCut RNum) S) (opt : Options RNum) idx s (gamma : R) o' s' gamma' ans k,
  (-1 <= idx < 2)%Z -> sqrt (1 / 2) / exp (1 / 2) < gamma ->
  cutting_plane_optim (qcvx_assess (N := RNum)) sp opt idx s gamma = Ok (o', s', gamma', (ans, k)) -> ans = None /\ gamma' = gamma.
Proof. exact @qcvx_too_high. Qed.
Print Assumptions C97_too_high.
(** the problem of the crate's tests: Ell::new([val, val], [0, 0]), any tolerance down to 1e-20 *)
Theorem C97_test_problem : forall (opt : Options RNum) (val gamma r : R), 1 <= val <= 10 ^ 20 -> 0 <= gamma <= 42 / 100 -> / 10 ^ 10 <= r <= 1 / 10000 ->
  tolerance opt <= r * r -> (2000 <= max_iters opt)%nat ->
  exists e, ell_new (N := RNum) (rv val val) (rv 0 0) = Ok e /\
  exists i' e' gamma' x k, cutting_plane_optim (qcvx_assess (N := RNum)) (ell_space (N := RNum) single) opt (-1)%Z e gamma = Ok (i', e', gamma', (Some x, k)) /\
    probq (coords x 0%nat) (coords x 1%nat) /\ gamma' = objq (coords x 0%nat) (coords x 1%nat) /\
    sqrt (1 / 2) / exp (1 / 2) - 4 * r < gamma' <= sqrt (1 / 2) / exp (1 / 2) /\
    (coords x 0%nat - sqrt (1 / 2)) * (coords x 0%nat - sqrt (1 / 2)) <= 32 * r.
Proof. exact qcvx_solves. Qed.
Print Assumptions C97_test_problem.
(** with default options the assertions of that test hold *)
Theorem C97_default : forall val gamma : R, 1 <= val <= 10 ^ 20 -> 0 <= gamma <= 42 / 100 ->
  exists e, ell_new (N := RNum) (rv val val) (rv 0 0) = Ok e /\
  exists i' e' gamma' x k, cutting_plane_optim (qcvx_assess (N := RNum)) (ell_space (N := RNum) single) options_default (-1)%Z e gamma = Ok (i', e', gamma', (Some x, k)) /\
    probq (coords x 0%nat) (coords x 1%nat) /\ gamma' = objq (coords x 0%nat) (coords x 1%nat) /\
    sqrt (1 / 2) / exp (1 / 2) - 4 / 10 ^ 10 < gamma' <= sqrt (1 / 2) / exp (1 / 2) /\
    49 / 100 <= coords x 0%nat * coords x 0%nat <= 51 / 100 /\ 16 / 10 <= exp (coords x 1%nat) <= 17 / 10.
Proof. exact qcvx_default. Qed.
Print Assumptions C97_default.
Example C97_case : (1 <= 10 <= 10 ^ 20 /\ 0 <= 0 <= 42 / 100) /\ / 10 ^ 10 <= 1 / 10000 <= 1 / 10000 /\ 1 / 10 ^ 8 <= 1 / 10000 * (1 / 10000) /\
  sqrt (1 / 2) / exp (1 / 2) < 100 /\ probq (best 0%nat) (best 1%nat).
Proof. pose proof peak_b. unfold peak in *. pose proof best_feasible as [? _]. repeat split; auto; lra. Qed.
