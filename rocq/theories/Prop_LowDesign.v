(** C112: LowpassOracle::new in binary64, and a whole design. *)
From Coq Require Import ZArith Reals List.
From Flocq Require Import Core IEEE754.BinarySingleNaN.
From Verif Require Import Num Res Arr ArrLemmas CuttingPlane EllCalc Ell EllRun Spec RunSpec AccSpec StepAccSpec StepRunSpec ParAccSpec ParRunSpec Lowpass LowpassSpec LowAccSpec LowNewSpec LowDesign Replay StepRunEx LowDesignEx.
Import ListNotations.
Local Open Scope R_scope.

(** The constructor makes an oracle that meets the conditions of C111, with a non-empty
    stop band, bands that are those asked for up to 2^-52, and coefficients near those of
    the problem with exact cosines. *)
Theorem C112_new (lm : Libm) n dl (wp ws lp up sp : f64) S : (0 < n)%nat -> (Z.of_nat n <= 2 ^ 20)%Z -> dl <= / 2 -> cos_near lm (4 * INR (n - 1)) dl ->
  is_finite wp = true -> is_finite ws = true -> 0 <= B2R wp -> B2R wp <= B2R ws -> B2R ws < 1 -> level_ok S lp -> level_ok S up -> S <= bpow radix2 200 ->
  exists o p q, lowpass_new (N := FNum lm) n wp ws lp up sp = Ok o /\ lw_sp o = sp /\ lw_ok n o /\ lw_fits n o 4 S /\ (lw_nwstop o < Z.of_nat (length (lw_spectrum o)))%Z /\
    (0 < p <= q)%nat /\ (q < 15 * n)%nat /\ band_by (bpow radix2 (-52)) (15 * n) (B2R wp) p /\ band_by (bpow radix2 (-52)) (15 * n) (B2R ws) q /\
    filter_near (coef_eps n dl) (lw_filter n o) (lowpass_problem n p q (B2R lp) (B2R up)).
Proof. exact (new_f64 lm n dl wp ws lp up sp S). Qed.
Print Assumptions C112_new.

(** new, then cutting_plane_optim: the answer meets the specification with exact cosines
    up to the margin, and no filter that meets it with the margin to spare is lost. *)
Theorem C112_design (lm : Libm) n dl (wp ws lp up sp : f64) X S s G opt (e : Ell (FNum lm)) : (0 < n)%nat -> (Z.of_nat n <= 2 ^ 20)%Z -> dl <= / 2 -> cos_near lm (4 * INR (n - 1)) dl ->
  is_finite wp = true -> is_finite ws = true -> 0 <= B2R wp -> B2R wp <= B2R ws -> B2R ws < 1 -> level_ok S lp -> level_ok S up -> level_ok S sp -> S <= bpow radix2 200 -> 0 <= X -> s <= 1 / 10 ->
  exists o p q, lowpass_new (N := FNum lm) n wp ws lp up sp = Ok o /\ band_by (bpow radix2 (-52)) (15 * n) (B2R wp) p /\ band_by (bpow radix2 (-52)) (15 * n) (B2R ws) q /\ (0 < p <= q)%nat /\ (q < 15 * n)%nat /\
    forall o' e' ga' ans k, let f := lowpass_problem n p q (B2R lp) (B2R up) in let d := design_eps n dl X S in
      (forall l o1 e1 ga1 xb1, asked_opt parallel_cut (tolerance opt) lowpass_assess o e (sp : FNum lm) None l o1 e1 ga1 xb1 -> (length l <= max_iters opt)%nat ->
        pair_run n s G e l /\ ((length l < max_iters opt)%nat -> in_box n X (e_xc e1))) ->
      cutting_plane_optim lowpass_assess (ell_space parallel_cut) opt o e (sp : FNum lm) = Ok (o', e', ga', (ans, k)) ->
      (forall z, ans = Some z -> meets_by f (- d) (B2R (ga' : f64)) (fcoords z) /\ stop_level_by f d (fcoords z) (B2R (ga' : f64))) /\
      (k = max_iters opt -> forall z, (forall j, (j < n)%nat -> Rabs (z j) <= X) -> meets_by f d (B2R (ga' : f64)) z -> fpts n e 1 z -> fpts n e' (1 + excess s G k) z) /\
      (forall z r, 0 < r -> (forall x, ball n z r x -> (forall j, (j < n)%nat -> Rabs (x j) <= X) /\ meets_by f d (B2R (ga' : f64)) x /\ fpts n e 1 x) ->
        (r * r) ^ n <= ((1 + excess s G k) ^ n * ((1 + s) ^ n * exp (- / (INR n + 1))) ^ k) * fvol2 n e).
Proof. exact (design_run lm n dl wp ws lp up sp X S s G opt e). Qed.
Print Assumptions C112_design.

(** Two taps, pass band up to 1/4 and stop band from 0.95, with a cosine good to 1/1000:
    all conditions hold, and two rounds end with an answer. *)
Example C112_case : cos_near lm0 (4 * INR (2 - 1)) (/ 1000) /\
  (is_finite (fdiv (fofZ 1) (fofZ 4)) = true /\ is_finite (flit 95 (-2)) = true /\ 0 <= B2R (fdiv (fofZ 1) (fofZ 4)) /\ B2R (fdiv (fofZ 1) (fofZ 4)) <= B2R (flit 95 (-2)) /\ B2R (flit 95 (-2)) < 1) /\
  (level_ok 9 (fofZ 0) /\ level_ok 9 (fofZ 9) /\ level_ok 9 (fofZ 7)) /\ design_eps 2 (/ 1000) 5 9 <= 21 / 1000 /\
  exists o, lowpass_new (N := F) 2 (fdiv (fofZ 1) (fofZ 4)) (flit 95 (-2)) (fofZ 0) (fofZ 9) (fofZ 7) = Ok o /\
  (forall l o1 e1 ga1 xb1, asked_opt parallel_cut (tolerance (qopt 2)) lowpass_assess o qe (fofZ 7 : F) None l o1 e1 ga1 xb1 -> (length l <= max_iters (qopt 2))%nat ->
    pair_run 2 (1 / 1000) 4 qe l /\ ((length l < max_iters (qopt 2))%nat -> in_box 2 5 (e_xc e1))) /\
  exists o' e' ga x, cutting_plane_optim lowpass_assess (ell_space parallel_cut) (qopt 2) o qe (fofZ 7 : F) = Ok (o', e', ga, (Some x, 2%nat)) /\ 2 <= B2R (ga : f64) <= 3.
Proof. exact design_case. Qed.
