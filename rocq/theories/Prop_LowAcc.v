(** C111: the lowpass oracle in binary64. *)
From Coq Require Import ZArith Reals List.
From Flocq Require Import Core IEEE754.BinarySingleNaN.
From Verif Require Import Num Res Arr ArrLemmas CuttingPlane EllCalc Ell EllRun Spec RunSpec AccSpec StepAccSpec StepRunSpec ParAccSpec ParRunSpec Lowpass LowpassSpec LowAccSpec LowAcc LowAccRun Replay StepRunEx LowAccEx.
Import ListNotations.
Local Open Scope R_scope.

(** assess_feas: no cut means that the point meets the specification up to the margin; a
    cut comes with a positive first offset and leaves every point that meets the
    specification with that margin to spare. *)
Theorem C111_feas (lm : Libm) n (o : Lowpass (FNum lm)) (x : Arr (FNum lm)) W X S :
  lw_ok n o -> lw_fits n o W S -> in_box n X x -> level_ok S (lw_sp o) ->
  exists o' r, lowpass_feas o x = Ok (o', r) /\ lw_ok n o' /\ lw_same o o' /\ lw_sp o' = lw_sp o /\
    (r = None -> meets_by (lw_filter n o) (- low_eps n W X S) (B2R (lw_sp o : f64)) (fcoords x)) /\
    forall g c, r = Some (g, c) -> is_vec n g /\ all_finite g /\ is_finite (pc_beta0 c : f64) = true /\ 0 < B2R (pc_beta0 c : f64) /\
      (forall b1 : f64, pc_beta1 c = Some b1 -> is_finite b1 = true) /\
      forall y, meets_by (lw_filter n o) (low_eps n W X S) (B2R (lw_sp o : f64)) y -> in_slab n Bias g c y (fcoords x).
Proof. exact (low_feas lm n o x W X S). Qed.
Print Assumptions C111_feas.

(** assess_optim: an improved level is the largest stop-band response of the point up to
    the margin and not above the old level, and the cut leaves every point that meets the
    specification at the new level with the margin to spare. *)
Theorem C111_assess (lm : Libm) n (o : Lowpass (FNum lm)) (x : Arr (FNum lm)) (sp : f64) W X S :
  lw_ok n o -> lw_fits n o W S -> in_box n X x -> level_ok S sp -> (lw_nwstop o < Z.of_nat (length (lw_spectrum o)))%Z ->
  exists o' (ga' : FNum lm) g c sh, lowpass_assess o x (sp : FNum lm) = Ok (o', ga', ((g, c), sh)) /\ lw_ok n o' /\ lw_same o o' /\ level_ok S ga' /\ B2R (ga' : f64) <= B2R sp /\
    (sh = false -> ga' = sp /\ 0 < B2R (pc_beta0 c : f64)) /\
    (sh = true -> meets_by (lw_filter n o) (- low_eps n W X S) (B2R (ga' : f64)) (fcoords x) /\ stop_level_by (lw_filter n o) (low_eps n W X S) (fcoords x) (B2R (ga' : f64))) /\
    forall y, meets_by (lw_filter n o) (low_eps n W X S) (B2R (ga' : f64)) y -> in_slab n (cut_mode sh) g c y (fcoords x).
Proof. exact (low_assess lm n o x sp W X S). Qed.
Print Assumptions C111_assess.

(** A whole run of cutting_plane_optim with the oracle and an ellipsoid: the answer meets
    the specification at the level returned up to the margin, and a point that meets it
    with the margin to spare has not been cut off. *)
Theorem C111_run (lm : Libm) n (o : Lowpass (FNum lm)) W X S s G opt (e : Ell (FNum lm)) (ga : FNum lm) o' e' ga' ans k :
  lw_fits n o W S -> (lw_nwstop o < Z.of_nat (length (lw_spectrum o)))%Z -> s <= 1 / 10 -> lw_ok n o -> level_ok S ga ->
  (forall l o1 e1 ga1 xb1, asked_opt parallel_cut (tolerance opt) lowpass_assess o e ga None l o1 e1 ga1 xb1 -> (length l <= max_iters opt)%nat ->
    pair_run n s G e l /\ ((length l < max_iters opt)%nat -> in_box n X (e_xc e1))) ->
  cutting_plane_optim lowpass_assess (ell_space parallel_cut) opt o e ga = Ok (o', e', ga', (ans, k)) ->
  (forall z, ans = Some z -> meets_by (lw_filter n o) (- low_eps n W X S) (B2R (ga' : f64)) (fcoords z) /\ stop_level_by (lw_filter n o) (low_eps n W X S) (fcoords z) (B2R (ga' : f64))) /\
  (k = max_iters opt -> forall z, meets_by (lw_filter n o) (low_eps n W X S) (B2R (ga' : f64)) z -> fpts n e 1 z -> fpts n e' (1 + excess s G k) z) /\
  (forall z r, 0 < r -> (forall x, ball n z r x -> meets_by (lw_filter n o) (low_eps n W X S) (B2R (ga' : f64)) x /\ fpts n e 1 x) ->
    (r * r) ^ n <= ((1 + excess s G k) ^ n * ((1 + s) ^ n * exp (- / (INR n + 1))) ^ k) * fvol2 n e).
Proof. exact (fun A B => low_run lm n o W X S A B s G opt e ga o' e' ga' ans k). Qed.
Print Assumptions C111_run.

(** A problem with two taps and three frequencies; a point that is cut off, one that is
    accepted, and a run of two rounds which ends with an improved level. *)
Example C111_case : lw_ok 2 oL /\ lw_fits 2 oL 2 9 /\ (lw_nwstop oL < Z.of_nat (length (lw_spectrum oL)))%Z /\ level_ok 9 (fofZ 7) /\ low_eps 2 2 5 9 <= / 1000000 /\ in_box 2 5 (e_xc qe) /\
  (forall l o1 e1 ga1 xb1, asked_opt parallel_cut (tolerance (qopt 2)) lowpass_assess oL qe (fofZ 7 : F) None l o1 e1 ga1 xb1 -> (length l <= max_iters (qopt 2))%nat ->
    pair_run 2 (1 / 1000) 4 qe l /\ ((length l < max_iters (qopt 2))%nat -> in_box 2 5 (e_xc e1))) /\
  exists o' e' ga x, cutting_plane_optim lowpass_assess (ell_space parallel_cut) (qopt 2) oL qe (fofZ 7 : F) = Ok (o', e', ga, (Some x, 2%nat)) /\ 2 <= B2R (ga : f64) <= 3.
Proof. exact low_run_case. Qed.
Example C111_calls : match lowpass_feas oL (e_xc qe) with Ok (_, Some _) => true | _ => false end = true /\ match lowpass_feas oL (ints [3; 1]%Z) with Ok (_, None) => true | _ => false end = true.
Proof. exact low_calls_case. Qed.
Example C111_box : in_box 2 5 (ints [3; 1]%Z : Arr F).
Proof. exact box31. Qed.
