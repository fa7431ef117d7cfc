(** C105: the oracle of tests/quasicvx2_tests.rs: maximise sqrt(x) / y over exp(x) <= y, x >= 0,
    whose best value is sqrt(1/2) / e^(1/2) (about 0.4289), at x = 1/2, y = e^(1/2). *)
From Coq Require Import ZArith Reals List Arith Lia Lra.
From Flocq Require Import Core IEEE754.BinarySingleNaN.
From Verif Require Import Num Res Arr CuttingPlane EllCalc Ell EllRun Spec RealLin EllSpec EllCuts EllMore Det RunSpec LmiSpec Examples ExSpec Profit ProfitWitness ExConv QcvxRun
  StepRunSpec Qcvx2 Qcvx2Spec Qcvx2Run Qcvx2Ex.
Import ListNotations.
Open Scope R_scope.

(** what is reported satisfies the constraints as computed, and gamma is its value: any number type, search space and options *)
Theorem C105_reported : forall (N : Num) (S : Type) (sp : SearchSpace N (Arr N) (SingleCut N) S) opt idx s gamma o' s' gamma' x k, (-1 <= idx < 3)%Z ->
  cutting_plane_optim qc2_assess sp opt idx s gamma = Ok (o', s', gamma', (Some x, k)) ->
  let a := nth 0 (adata x) n0 in let b := nth 1 (adata x) n0 in
  (2 <= length (adata x))%nat /\ gamma' = nsqrt a /! b /\ none_positive [nexp a -! b; -! b; -! a].
Proof. exact @qc2_best. Qed.
Print Assumptions C105_reported.
(** away from x = 0 every answer is right, for any gamma (also a negative one) *)
Theorem C105_answer : forall idx (xc : Arr RNum) (gamma : R), (-1 <= idx < 3)%Z -> (2 <= length (adata xc))%nat -> coords xc 0%nat <> 0 ->
  exists idx' gamma' g beta b, qc2_assess (N := RNum) idx xc gamma = Ok (idx', gamma', ((g, mkSingle (N := RNum) beta), b)) /\ (-1 <= idx' < 3)%Z /\
    good_answer prob2 obj2 (coords xc) gamma gamma' g beta b.
Proof. exact qc2_good. Qed.
Print Assumptions C105_answer.
(** at x = 0 the code divides by zero; in binary64 a run started at the feasible point (0, 2)
    goes on for 2000 iterations and reports NaN coordinates with value NaN *)
Theorem C105_zero_refuted : exists (lm : Libm) (xc : Arr (FNum lm)), map (fun v : f64 => is_finite v) (adata xc) = [true; true] /\
  prob2 (B2R (nth 0 (adata xc) (fofZ 0) : f64)) (B2R (nth 1 (adata xc) (fofZ 0) : f64)) /\
  match qc2_assess (N := FNum lm) (-1)%Z xc (fofZ 0) with
  | Ok (_, ga, ((g, _), sh)) => neqb (n := FNum lm) ga (fofZ 0) = true /\ map (fun v : f64 => is_finite v) (adata g) = [false; true] /\ sh = true
  | Panic => False end /\
  match e <- ell_new_with_scalar (N := FNum lm) (fofZ 10) xc ;; cutting_plane_optim (N := FNum lm) qc2_assess (ell_space (N := FNum lm) single_cut) options_default (-1)%Z e (fofZ 0) with
  | Ok (_, _, ga, (Some x, k)) => is_nan (ga : f64) = true /\ map (fun v : f64 => is_nan v) (adata x) = [true; true] /\ k = 2000%nat
  | _ => False end.
Proof. exact zero_bad. Qed.
Print Assumptions C105_zero_refuted.
(** a whole run meets x = 0, or comes within 2 r of the best value *)
Theorem C105_near_best : forall (opt : Options RNum) idx (e : Ell RNum) (gamma : R) r, (-1 <= idx < 3)%Z -> proper 2 e -> vecn 2 (e_xc e) ->
  0 < r <= 1 / 100 -> gamma + 2 * r <= top -> (forall y, ball 2 best2 (7 * r) y -> pts 2 e y) ->
  tolerance opt <= r / 2 * (r / 2) -> (INR 2 + 1) * ln (vol2 2 e / (r * r) ^ 2) < INR (max_iters opt) ->
  meets_zero (qc2_assess (N := RNum)) opt idx e gamma \/
  exists i' e' gamma' x k, cutting_plane_optim (qc2_assess (N := RNum)) (ell_space (N := RNum) single) opt idx e gamma = Ok (i', e', gamma', (Some x, k)) /\
    prob2 (coords x 0%nat) (coords x 1%nat) /\ gamma' = obj2 (coords x 0%nat) (coords x 1%nat) /\ top - 2 * r < gamma' <= top.
Proof. exact qc2_near_best. Qed.
Print Assumptions C105_near_best.
(** stopping on a rejected cut proves that nothing in the start ellipsoid is as good *)
Theorem C105_certificate : forall (opt : Options RNum) idx (e : Ell RNum) (gamma : R) i' e' (gamma' : R) ans k, (-1 <= idx < 3)%Z ->
  valid 2 e -> vecn 2 (e_xc e) -> 0 < tolerance opt ->
  cutting_plane_optim (qc2_assess (N := RNum)) (ell_space (N := RNum) single) opt idx e gamma = Ok (i', e', gamma', (ans, k)) ->
  (k < max_iters opt)%nat -> tolerance opt <= e_tsq e' ->
  meets_zero (qc2_assess (N := RNum)) opt idx e gamma \/ forall u, pts 2 e u -> prob2 (u 0%nat) (u 1%nat) -> obj2 (u 0%nat) (u 1%nat) < gamma'.
Proof. exact qc2_certificate. Qed.
Print Assumptions C105_certificate.
(** a level above the best value is never met, whatever search space is used (the test with gamma = 100) *)
Theorem C105_too_high : forall (S : Type) (sp : SearchSpace RNum (Arr RNum) (SingleCut RNum) S) (opt : Options RNum) idx s (gamma : R) o' s' gamma' ans k,
  (-1 <= idx < 3)%Z -> top < gamma ->
  cutting_plane_optim (qc2_assess (N := RNum)) sp opt idx s gamma = Ok (o', s', gamma', (ans, k)) -> ans = None /\ gamma' = gamma.
Proof. exact @qc2_too_high. Qed.
Print Assumptions C105_too_high.
(** the start of the crate's first test, Ell::new_with_scalar(val, [1, 1]), default options *)
Theorem C105_default : forall val gamma : R, 1 <= val <= 10 ^ 20 -> gamma <= 42 / 100 ->
  exists e, ell_new_with_scalar (N := RNum) val (rv 1 1) = Ok e /\
  (meets_zero (qc2_assess (N := RNum)) options_default (-1)%Z e gamma \/
  exists i' e' gamma' x k, cutting_plane_optim (qc2_assess (N := RNum)) (ell_space (N := RNum) single) options_default (-1)%Z e gamma = Ok (i', e', gamma', (Some x, k)) /\
    prob2 (coords x 0%nat) (coords x 1%nat) /\ gamma' = obj2 (coords x 0%nat) (coords x 1%nat) /\ top - 4 / 10 ^ 10 < gamma' <= top /\
    499 / 1000 <= coords x 0%nat <= 501 / 1000 /\ 163 / 100 <= coords x 1%nat <= 167 / 100).
Proof. exact qc2_default. Qed.
Print Assumptions C105_default.
Example C105_case : coords (rv 1 1) 0%nat <> 0 /\ (1 <= 10 <= 10 ^ 20 /\ 0 <= 42 / 100) /\ top < 100 /\ 0 + 2 * (1 / 100) <= top /\
  prob2 (best2 0%nat) (best2 1%nat) /\ obj2 (best2 0%nat) (best2 1%nat) = top.
Proof. pose proof peak_b as P. change peak with top in P. destruct best2_value as [A B]. unfold coords. cbn [rv vec2 a_from adata nth]. repeat split; auto; try apply A; lra. Qed.
