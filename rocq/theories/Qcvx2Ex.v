(** The oracle of tests/quasicvx2_tests.rs in binary64, asked at a point with x = 0. *)
From Coq Require Import ZArith Reals List Bool Lia Lra.
From Flocq Require Import Core IEEE754.BinarySingleNaN.
From Verif Require Import Num Res Arr CuttingPlane EllCalc Ell Examples FloatLemmas Qcvx2 Qcvx2Spec.
Import ListNotations.
(** exp as needed in this run: e^0 = 1, and NaN for NaN *)
Definition lm1 : Libm := mkLibm (fun x => if is_nan x then x else fofZ 1) (fun x => x) (fun x => x) false.
Notation G := (FNum lm1).
Definition zero_start : Arr G := a_from (N := G) [fofZ 0; fofZ 2].
(** the answer at (0, 2): accepted with value 0, and an infinite gradient *)
Lemma zero_answer : match qc2_assess (N := G) (-1)%Z zero_start (fofZ 0) with
  | Ok (_, ga, ((g, _), sh)) => neqb (n := G) ga (fofZ 0) = true /\ map (fun v : f64 => is_finite v) (adata g) = [false; true] /\ sh = true
  | Panic => False end.
Proof. vm_compute. auto. Qed.
(** the run goes on for all 2000 iterations and reports NaN *)
Lemma zero_reports : match e <- ell_new_with_scalar (N := G) (fofZ 10) zero_start ;; cutting_plane_optim (N := G) qc2_assess (ell_space (N := G) single_cut) options_default (-1)%Z e (fofZ 0) with
  | Ok (_, _, ga, (Some x, k)) => is_nan (ga : f64) = true /\ map (fun v : f64 => is_nan v) (adata x) = [true; true] /\ k = 2000%nat
  | _ => False end.
Proof. vm_compute. auto. Qed.
Lemma zero_bad : exists (lm : Libm) (xc : Arr (FNum lm)), map (fun v : f64 => is_finite v) (adata xc) = [true; true] /\
  prob2 (B2R (nth 0 (adata xc) (fofZ 0) : f64)) (B2R (nth 1 (adata xc) (fofZ 0) : f64)) /\
  match qc2_assess (N := FNum lm) (-1)%Z xc (fofZ 0) with
  | Ok (_, ga, ((g, _), sh)) => neqb (n := FNum lm) ga (fofZ 0) = true /\ map (fun v : f64 => is_finite v) (adata g) = [false; true] /\ sh = true
  | Panic => False end /\
  match e <- ell_new_with_scalar (N := FNum lm) (fofZ 10) xc ;; cutting_plane_optim (N := FNum lm) qc2_assess (ell_space (N := FNum lm) single_cut) options_default (-1)%Z e (fofZ 0) with
  | Ok (_, _, ga, (Some x, k)) => is_nan (ga : f64) = true /\ map (fun v : f64 => is_nan v) (adata x) = [true; true] /\ k = 2000%nat
  | _ => False end.
Proof.
  exists lm1, zero_start. split; [vm_compute; reflexivity|]. split; [|split; [exact zero_answer|exact zero_reports]].
  change (prob2 (B2R (fofZ 0)) (B2R (fofZ 2))). change (prob2 (val (fofZ 0)) (val (fofZ 2))). rewrite (proj1 (fofZ_small 0 ltac:(lia))), (proj1 (fofZ_small 2 ltac:(lia))). split; [|cbn; lra].
  rewrite exp_0. cbn. lra.
Qed.
