(** The problem of /repo/tests/quasicvx2_tests.rs: maximise sqrt(x) / y subject to
    exp(x) <= y and x >= 0 (then y > 0). *)
From Coq Require Import ZArith Reals List Arith.
From Verif Require Import Num Res Arr CuttingPlane EllCalc Ell EllRun Spec RealLin EllSpec StepRunSpec.
Import ListNotations.
Open Scope R_scope.
Definition prob2 (x y : R) : Prop := exp x <= y /\ 0 <= x.
Definition obj2 (x y : R) : R := sqrt x / y.
(** the largest value, taken at x = 1/2, y = sqrt e *)
Definition top : R := sqrt (1 / 2) / exp (1 / 2).
(** a run of the optimiser reaches an ellipsoid whose centre has first coordinate exactly 0 *)
Definition meets_zero {O} (ora : OracleOptim RNum (Arr RNum) (SingleCut RNum) O) (opt : Options RNum) (o : O) (e : Ell RNum) (gamma : R) : Prop :=
  exists l o1 (e1 : Ell RNum) (g1 : R) xb, (length l < max_iters opt)%nat /\ asked_opt (N := RNum) (single_cut (N := RNum)) (tolerance opt) ora o e gamma None l o1 e1 g1 xb /\ coords (e_xc e1) 0%nat = 0.
