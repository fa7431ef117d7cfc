(** C117: the quasi-convex example (maximise s / e^l over s^2 <= l) in binary64. *)
From Coq Require Import ZArith Reals List.
From Flocq Require Import Core IEEE754.BinarySingleNaN.
From Verif Require Import Num Res Arr ArrLemmas CuttingPlane EllCalc Ell EllRun Spec RunSpec AccSpec StepAccSpec StepRunSpec Examples ProfitSpec ProfAccSpec QcAccSpec QcAcc QcAccRun Replay StepEx StepRunEx QcAccEx.
Import ListNotations.
Local Open Scope R_scope.

(** One call: it answers; a rejected point comes with a positive offset and the old level;
    an accepted one satisfies the constraint and the new level is its value, up to the
    accuracy; a level falls by at most [qc_drop] and no new level is above 44/100; and the
    cut leaves every point of the square which reaches the new level with the margin to
    spare. *)
Theorem C117_assess (lm : Libm) dl X C idx (y : Arr (FNum lm)) (ga : f64) : qc_platform lm dl X C -> (-1 <= idx < 2)%Z -> in_square X y -> qc_level C ga ->
  exists idx' (ga' : f64) g (b : f64) sh, qcvx_assess idx y (ga : FNum lm) = Ok (idx', (ga' : FNum lm), ((g, mkSingle (N := FNum lm) b), sh)) /\ (-1 <= idx' < 2)%Z /\ qc_level C ga' /\ two g /\ all_finite g /\ is_finite b = true /\
    B2R ga <= B2R ga' + qc_drop C /\ (sh = false -> ga' = ga /\ 0 < B2R b) /\
    (sh = true -> qc_good dl (B2R ga') (fcoords y) /\ B2R ga' <= 44 / 100 /\ B2R b = 0) /\
    (forall z, (forall i, (i < 2)%nat -> Rabs (z i) <= X) -> reaches (qc_margin dl X C) (B2R ga') z -> along 2 (fcoords g) z (fcoords y) + B2R b <= 0).
Proof. exact (fun A => qc_call lm dl X C A idx y ga). Qed.
Print Assumptions C117_assess.

(** A whole run with an ellipsoid: the answer satisfies the constraint and the level returned
    is its value, up to the accuracy; and a point of the square which reaches that level with
    margin and drops to spare has not been cut off. *)
Theorem C117_run (lm : Libm) dl X C s G opt o (e : Ell (FNum lm)) (ga : FNum lm) o' e' (ga' : FNum lm) ans k : qc_platform lm dl X C -> s <= 1 / 10 -> (-1 <= o < 2)%Z -> qc_level C (ga : f64) ->
  (forall l o1 e1 (ga1 : FNum lm) xb1, asked_opt single_cut (tolerance opt) qcvx_assess o e ga None l o1 e1 ga1 xb1 -> (length l <= max_iters opt)%nat ->
    tame_run 2 s G e l /\ ((length l < max_iters opt)%nat -> in_square X (e_xc e1))) ->
  cutting_plane_optim qcvx_assess (ell_space single_cut) opt o e ga = Ok (o', e', ga', (ans, k)) ->
  (forall x, ans = Some x -> qc_good dl (B2R (ga' : f64)) (fcoords x) /\ B2R (ga' : f64) <= 44 / 100) /\
  (k = max_iters opt -> forall z, (forall i, (i < 2)%nat -> Rabs (z i) <= X) /\ reaches (qc_margin dl X C) (B2R (ga' : f64) + INR (S k) * qc_drop C) z -> fpts 2 e 1 z -> fpts 2 e' (1 + excess s G k) z) /\
  (forall z r, 0 < r -> (forall x, ball 2 z r x -> ((forall i, (i < 2)%nat -> Rabs (x i) <= X) /\ reaches (qc_margin dl X C) (B2R (ga' : f64) + INR (S k) * qc_drop C) x) /\ fpts 2 e 1 x) ->
    (r * r) ^ 2 <= ((1 + excess s G k) ^ 2 * ((1 + s) ^ 2 * exp (- / (INR 2 + 1))) ^ k) * fvol2 2 e).
Proof. exact (fun A => qc_run lm dl X C A s G opt o e ga o' e' ga' ans k). Qed.
Print Assumptions C117_run.

(** A run that starts from a level above the best value returns nothing and leaves the level
    alone, as long as its centres stay in the square (the test with gamma = 100). *)
Theorem C117_too_high (lm : Libm) dl X C opt o (e : Ell (FNum lm)) (ga : FNum lm) o' e' (ga' : FNum lm) ans k : qc_platform lm dl X C -> (-1 <= o < 2)%Z -> qc_level C (ga : f64) -> 44 / 100 + qc_drop C < B2R (ga : f64) ->
  (forall l o1 e1 (ga1 : FNum lm) xb1, asked_opt single_cut (tolerance opt) qcvx_assess o e ga None l o1 e1 ga1 xb1 -> (length l < max_iters opt)%nat -> in_square X (e_xc e1)) ->
  cutting_plane_optim qcvx_assess (ell_space single_cut) opt o e ga = Ok (o', e', ga', (ans, k)) -> ans = None /\ ga' = ga.
Proof. exact (fun A => qc_too_high lm dl X C A opt o e ga o' e' ga' ans k). Qed.
Print Assumptions C117_too_high.

(** A platform and a run of two rounds, a cut for the constraint and an improvement, with a
    point that keeps; a point rejected at one level and accepted at another; a run from the
    level 100. *)
Example C117_case : (qc_platform lm0 (/ 1000000) 5 1 /\ qc_margin (/ 1000000) 5 1 <= 6 / 1000 /\ qc_drop 1 <= / 1000000000000) /\ qc_level 1 (fofZ 0) /\ reaches (6 / 1000) (1 / 4) (fun _ => 1 / 2) /\
  (forall l o1 e1 (ga1 : F) xb1, asked_opt single_cut (tolerance (qopt 2)) qcvx_assess (-1)%Z qe2 (fofZ 0 : F) None l o1 e1 ga1 xb1 -> (length l <= max_iters (qopt 2))%nat ->
    tame_run 2 (/ 1000000) 4 qe2 l /\ ((length l < max_iters (qopt 2))%nat -> in_square 5 (e_xc e1))) /\
  exists o' e' ga x, cutting_plane_optim qcvx_assess (ell_space single_cut) (qopt 2) (-1)%Z qe2 (fofZ 0 : F) = Ok (o', e', ga, (Some x, 2%nat)) /\ 1 / 16 < B2R (ga : f64) <= 1.
Proof. exact (conj qc_pf1 (conj (qc_level_small 1 0 ltac:(split; discriminate) Rle_0_1) (conj qc_reach qc_run_case))). Qed.
Example C117_calls : in_square 5 (ints [1; 1]%Z : Arr F) /\ match qcvx_assess (-1)%Z (ints [1; 1]%Z) (fofZ 1 : F) with Ok (_, _, (_, false)) => true | _ => false end = true /\ match qcvx_assess (-1)%Z (ints [1; 1]%Z) (fofZ 0 : F) with Ok (_, ga, (_, true)) => between 0 1 ga | _ => false end = true.
Proof. exact (conj qc_pt qc_calls). Qed.
Example C117_high : qc_platform lm0 (/ 1000000) 5 100 /\ qc_level 100 (fofZ 100) /\
  (forall l o1 e1 (ga1 : F) xb1, asked_opt single_cut (tolerance (qopt 2)) qcvx_assess (-1)%Z qe2 (fofZ 100 : F) None l o1 e1 ga1 xb1 -> (length l < max_iters (qopt 2))%nat -> in_square 5 (e_xc e1)) /\
  44 / 100 + qc_drop 100 < B2R (fofZ 100) /\
  match cutting_plane_optim qcvx_assess (ell_space single_cut) (qopt 2) (-1)%Z qe2 (fofZ 100 : F) with Ok (_, _, _, (None, _)) => true | _ => false end = true.
Proof. exact (conj qc_pf (conj (qc_level_small 100 100 ltac:(split; discriminate) (Rle_refl 100)) qc_high_case)). Qed.
