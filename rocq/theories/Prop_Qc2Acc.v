(** C128: the oracle of quasicvx2_tests.rs (maximise sqrt(x) / y over exp(x) <= y, x >= 0) in binary64. *)
From Coq Require Import ZArith Reals List.
From Flocq Require Import Core IEEE754.BinarySingleNaN.
From Verif Require Import Num Res Arr ArrLemmas CuttingPlane EllCalc Ell EllRun Spec RunSpec AccSpec StepAccSpec StepRunSpec Examples ProfitSpec ProfAccSpec QcAccSpec QcAccEx Qcvx2 Qc2AccSpec Qc2Acc Qc2AccRun Replay StepEx StepRunEx Qc2AccEx.
Import ListNotations.
Local Open Scope R_scope.

(** One call, at a point whose x is not between 0 and r^2 (at 0 the code divides by zero,
    C105): it answers; a rejected point comes with a positive offset and the old level; an
    accepted one satisfies the constraints and the new level is its value, up to the accuracy;
    a level falls by at most [qc_drop] and no new level is above 44/100; and the cut leaves
    every point of the square which reaches the new level with the margin to spare. *)
Theorem C128_assess (lm : Libm) dl X C r idx (u : Arr (FNum lm)) (ga : f64) : qc_platform lm dl X C -> / 1000000 <= r <= 1 -> (-1 <= idx < 3)%Z -> in_square X u -> off_axis r u -> qc_level C ga ->
  exists idx' (ga' : f64) g (b : f64) sh, qc2_assess idx u (ga : FNum lm) = Ok (idx', (ga' : FNum lm), ((g, mkSingle (N := FNum lm) b), sh)) /\ (-1 <= idx' < 3)%Z /\ qc_level C ga' /\ two g /\ all_finite g /\ is_finite b = true /\
    B2R ga <= B2R ga' + qc_drop C /\ (sh = false -> ga' = ga /\ 0 < B2R b) /\
    (sh = true -> qc2_good dl (B2R ga') (fcoords u) /\ B2R ga' <= 44 / 100 /\ B2R b = 0) /\
    (forall z, (forall i, (i < 2)%nat -> Rabs (z i) <= X) -> reaches2 (qc2_margin dl X C r) (B2R ga') z -> along 2 (fcoords g) z (fcoords u) + B2R b <= 0).
Proof. exact (fun A B => qc2_call lm dl X C r A B idx u ga). Qed.
Print Assumptions C128_assess.

(** A whole run with an ellipsoid: the answer satisfies the constraints and the level returned
    is its value, up to the accuracy; and a point of the square which reaches that level with
    margin and drops to spare has not been cut off. *)
Theorem C128_run (lm : Libm) dl X C r s G opt o (e : Ell (FNum lm)) (ga : FNum lm) o' e' (ga' : FNum lm) ans k : qc_platform lm dl X C -> / 1000000 <= r <= 1 -> s <= 1 / 10 -> (-1 <= o < 3)%Z -> qc_level C (ga : f64) ->
  (forall l o1 e1 (ga1 : FNum lm) xb1, asked_opt single_cut (tolerance opt) qc2_assess o e ga None l o1 e1 ga1 xb1 -> (length l <= max_iters opt)%nat ->
    tame_run 2 s G e l /\ ((length l < max_iters opt)%nat -> in_square X (e_xc e1) /\ off_axis r (e_xc e1))) ->
  cutting_plane_optim qc2_assess (ell_space single_cut) opt o e ga = Ok (o', e', ga', (ans, k)) ->
  (forall x, ans = Some x -> qc2_good dl (B2R (ga' : f64)) (fcoords x) /\ B2R (ga' : f64) <= 44 / 100) /\
  (k = max_iters opt -> forall z, (forall i, (i < 2)%nat -> Rabs (z i) <= X) /\ reaches2 (qc2_margin dl X C r) (B2R (ga' : f64) + INR (S k) * qc_drop C) z -> fpts 2 e 1 z -> fpts 2 e' (1 + excess s G k) z) /\
  (forall z rad, 0 < rad -> (forall x, ball 2 z rad x -> ((forall i, (i < 2)%nat -> Rabs (x i) <= X) /\ reaches2 (qc2_margin dl X C r) (B2R (ga' : f64) + INR (S k) * qc_drop C) x) /\ fpts 2 e 1 x) ->
    (rad * rad) ^ 2 <= ((1 + excess s G k) ^ 2 * ((1 + s) ^ 2 * exp (- / (INR 2 + 1))) ^ k) * fvol2 2 e).
Proof. exact (fun A B => qc2_run lm dl X C r A B s G opt o e ga o' e' ga' ans k). Qed.
Print Assumptions C128_run.

(** A run that starts from a level above the best value returns nothing and leaves the level
    alone. *)
Theorem C128_too_high (lm : Libm) dl X C r opt o (e : Ell (FNum lm)) (ga : FNum lm) o' e' (ga' : FNum lm) ans k : qc_platform lm dl X C -> / 1000000 <= r <= 1 -> (-1 <= o < 3)%Z -> qc_level C (ga : f64) -> 44 / 100 + qc_drop C < B2R (ga : f64) ->
  (forall l o1 e1 (ga1 : FNum lm) xb1, asked_opt single_cut (tolerance opt) qc2_assess o e ga None l o1 e1 ga1 xb1 -> (length l < max_iters opt)%nat -> in_square X (e_xc e1) /\ off_axis r (e_xc e1)) ->
  cutting_plane_optim qc2_assess (ell_space single_cut) opt o e ga = Ok (o', e', ga', (ans, k)) -> ans = None /\ ga' = ga.
Proof. exact (fun A B => qc2_too_high_f lm dl X C r A B opt o e ga o' e' ga' ans k). Qed.
Print Assumptions C128_too_high.

(** A platform and a run of two rounds, a cut for x >= 0 and an improvement; a point that the
    run keeps; a point rejected at one level and accepted at another; a run from the level 1. *)
Example C128_case : (qc_platform lm0 (/ 1000000) 5 1 /\ qc2_margin (/ 1000000) 5 1 (1 / 2) <= 6 / 1000 /\ qc_drop 1 <= / 1000000000000) /\ qc_level 1 (fofZ 0) /\ reaches2 (6 / 1000) (1 / 4) (fun i => match i with O => 1 / 2 | _ => 2 end) /\
  (forall l o1 e1 (ga1 : F) xb1, asked_opt single_cut (tolerance (qopt 2)) qc2_assess (-1)%Z qe3 (fofZ 0 : F) None l o1 e1 ga1 xb1 -> (length l <= max_iters (qopt 2))%nat ->
    tame_run 2 (/ 1000000) 4 qe3 l /\ ((length l < max_iters (qopt 2))%nat -> in_square 5 (e_xc e1) /\ off_axis (1 / 2) (e_xc e1))) /\
  exists o' e' ga x, cutting_plane_optim qc2_assess (ell_space single_cut) (qopt 2) (-1)%Z qe3 (fofZ 0 : F) = Ok (o', e', ga, (Some x, 2%nat)) /\ 1 / 16 < B2R (ga : f64) <= 1.
Proof. exact (conj qc2_pf1 (conj (qc_level_small 1 0 ltac:(split; discriminate) Rle_0_1) (conj qc2_reach qc2_run_case))). Qed.
Example C128_calls : (in_square 5 (ints [1; 3]%Z : Arr F) /\ off_axis (1 / 2) (ints [1; 3]%Z : Arr F)) /\ match qc2_assess (-1)%Z (ints [1; 3]%Z) (fofZ 1 : F) with Ok (_, _, (_, false)) => true | _ => false end = true /\ match qc2_assess (-1)%Z (ints [1; 3]%Z) (fofZ 0 : F) with Ok (_, ga, (_, true)) => between 0 1 ga | _ => false end = true.
Proof. exact (conj qc2_pt qc2_calls). Qed.
Example C128_high : qc_level 1 (fofZ 1) /\
  (forall l o1 e1 (ga1 : F) xb1, asked_opt single_cut (tolerance (qopt 2)) qc2_assess (-1)%Z qe3 (fofZ 1 : F) None l o1 e1 ga1 xb1 -> (length l < max_iters (qopt 2))%nat -> in_square 5 (e_xc e1) /\ off_axis (1 / 2) (e_xc e1)) /\
  44 / 100 + qc_drop 1 < B2R (fofZ 1) /\
  match cutting_plane_optim qc2_assess (ell_space single_cut) (qopt 2) (-1)%Z qe3 (fofZ 1 : F) with Ok (_, _, _, (None, _)) => true | _ => false end = true.
Proof. exact (conj (qc_level_small 1 1 ltac:(split; discriminate) (Rle_refl 1)) qc2_high_case). Qed.
