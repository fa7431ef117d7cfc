(** C114: the profit oracle in binary64. *)
From Coq Require Import ZArith Reals List.
From Flocq Require Import Core IEEE754.BinarySingleNaN.
From Verif Require Import Num Res Arr ArrLemmas CuttingPlane EllCalc Ell EllRun Spec RunSpec AccSpec StepAccSpec StepRunSpec Profit ProfitSpec ProfAccSpec ProfAcc ProfAccRun Replay StepEx StepRunEx ProfAccEx.
Import ListNotations.
Local Open Scope R_scope.

(** Construction: what earns a level in the market asked for, with the accuracy to spare,
    earns it in the market the oracle works with, and conversely. *)
Theorem C114_new (lm : Libm) T dl (up sc lim : f64) (el po : Arr (FNum lm)) : 0 <= dl <= / 1000000 -> T <= 500 -> ln_near lm T dl ->
  is_finite up = true -> is_finite sc = true -> is_finite lim = true -> exp (1 - T) <= B2R up * B2R sc <= exp (T - 1) -> exp (- T) <= B2R lim <= exp T ->
  let p := profit_new (N := FNum lm) up sc lim el po in let M := mkMarket (B2R up * B2R sc) (B2R lim) (fcoords el) (fcoords po) in
  is_finite (p_log_p_scale p : f64) = true /\ is_finite (p_log_k p : f64) = true /\
  Rabs (B2R (p_log_p_scale p : f64) - ln (B2R up * B2R sc)) <= prof_eps dl /\ Rabs (B2R (p_log_k p : f64) - ln (B2R lim)) <= prof_eps dl /\
  forall nu t z, (earns (worse (nu + prof_eps dl) M) t z -> earns (worse nu (prof_market p)) t z) /\ (earns (worse (nu + prof_eps dl) (prof_market p)) t z -> earns (worse nu M) t z).
Proof. exact (new_market lm T dl up sc lim el po). Qed.
Print Assumptions C114_new.

(** One call: it answers; a rejected point comes with a positive offset and the old level;
    an accepted one earns the old level and the new level is its profit, up to the
    accuracy, so that a level falls by at most [prof_drop]; and the cut leaves every point
    of the box which earns the new level with the margin to spare. *)
Theorem C114_assess (lm : Libm) dl X L T (p : Profit (FNum lm)) (y : Arr (FNum lm)) (ga : f64) :
  0 <= dl <= / 1000000 -> exp_near lm L dl -> ln_near lm T dl -> profit_ok p -> prof_fits p X L T -> in_square X y -> level_fits L ga -> 0 <= B2R ga ->
  exists p' ga' g (b : f64) sh, profit_assess p y (ga : FNum lm) = Ok (p', ga', ((g, mkSingle (N := FNum lm) b), sh)) /\
    profit_ok p' /\ same_params p p' /\ level_fits L ga' /\ two g /\ all_finite g /\ is_finite b = true /\ B2R ga <= B2R (ga' : f64) + prof_drop dl L /\
    (sh = false -> ga' = ga /\ 0 < B2R b) /\
    (sh = true -> earns (worse (- (3 * prof_eps dl)) (prof_market p)) (B2R ga) (fcoords y) /\
       Rabs (B2R (ga' : f64) - mprofit (prof_market p) (fcoords y 0%nat) (fcoords y 1%nat)) <= prof_eps dl * turnover (prof_market p) (fcoords y) /\ B2R b = 0) /\
    (0 <= B2R (ga' : f64) -> forall z, (forall i, (i < 2)%nat -> Rabs (z i) <= X) -> earns (worse (prof_margin dl X) (prof_market p)) (B2R (ga' : f64)) z ->
       along 2 (fcoords g) z (fcoords y) + B2R b <= 0).
Proof. exact (fun A B C D E H => prof_call lm dl X L T p y A B C D E H ga). Qed.
Print Assumptions C114_assess.

(** A whole run of cutting_plane_optim with the oracle and an ellipsoid: the answer is
    admissible and the level returned is its profit, up to the accuracy; and a point of the
    box which earns that level with margin and drops to spare has not been cut off. *)
Theorem C114_run (lm : Libm) dl X L T (p : Profit (FNum lm)) s G opt (e : Ell (FNum lm)) (ga : FNum lm) o' e' (ga' : FNum lm) ans k :
  0 <= dl <= / 1000000 -> exp_near lm L dl -> ln_near lm T dl -> prof_fits p X L T -> s <= 1 / 10 -> profit_ok p -> level_fits L (ga : f64) ->
  (forall l o1 e1 (ga1 : FNum lm) xb1, asked_opt single_cut (tolerance opt) profit_assess p e ga None l o1 e1 ga1 xb1 -> (length l <= max_iters opt)%nat ->
    tame_run 2 s G e l /\ 0 <= B2R (ga1 : f64) /\ ((length l < max_iters opt)%nat -> in_square X (e_xc e1))) ->
  cutting_plane_optim profit_assess (ell_space single_cut) opt p e ga = Ok (o', e', ga', (ans, k)) ->
  (forall x, ans = Some x -> good_answer dl (prof_market p) (B2R (ga' : f64)) (fcoords x)) /\
  (k = max_iters opt -> forall z, (forall i, (i < 2)%nat -> Rabs (z i) <= X) -> earns (worse (prof_margin dl X) (prof_market p)) (B2R (ga' : f64) + INR (S k) * prof_drop dl L) z -> fpts 2 e 1 z -> fpts 2 e' (1 + excess s G k) z) /\
  (forall z r, 0 < r -> (forall x, ball 2 z r x -> (forall i, (i < 2)%nat -> Rabs (x i) <= X) /\ earns (worse (prof_margin dl X) (prof_market p)) (B2R (ga' : f64) + INR (S k) * prof_drop dl L) x /\ fpts 2 e 1 x) ->
    (r * r) ^ 2 <= ((1 + excess s G k) ^ 2 * ((1 + s) ^ 2 * exp (- / (INR 2 + 1))) ^ k) * fvol2 2 e).
Proof. exact (fun A B C D => prof_run lm dl X L T p A B C D s G opt e ga o' e' ga' ans k). Qed.
Print Assumptions C114_run.

(** A platform, a market and a run of two rounds, the first cut for the limit and the second
    an improvement; a point that is rejected at one level and accepted at another; and the
    data of a construction. *)
Example C114_case : exp_near lm0 5 (/ 1000000) /\ ln_near lm0 8 (/ 1000000) /\ profit_ok pP /\ prof_fits pP 5 5 8 /\ level_fits 5 (fofZ 0) /\ (prof_margin (/ 1000000) 5 <= 11 / 100000 /\ prof_drop (/ 1000000) 5 <= 13 / 10000) /\ in_square 5 (e_xc qe) /\
  (forall l o1 e1 (ga1 : F) xb1, asked_opt single_cut (tolerance (qopt 2)) profit_assess pP qe (fofZ 0 : F) None l o1 e1 ga1 xb1 -> (length l <= max_iters (qopt 2))%nat ->
    tame_run 2 (/ 1000000) 4 qe l /\ 0 <= B2R (ga1 : f64) /\ ((length l < max_iters (qopt 2))%nat -> in_square 5 (e_xc e1))) /\
  exists o' e' ga x, cutting_plane_optim profit_assess (ell_space single_cut) (qopt 2) pP qe (fofZ 0 : F) = Ok (o', e', ga, (Some x, 2%nat)) /\ 1 <= B2R (ga : f64) <= 3.
Proof. exact prof_run_case. Qed.
Example C114_calls : in_square 5 (ints [-1; 1]%Z : Arr F) /\ level_fits 5 (fofZ 3) /\ level_fits 5 (fofZ 1) /\
  match profit_assess pP (ints [-1; 1]%Z) (fofZ 3 : F) with Ok (_, _, (_, false)) => true | _ => false end = true /\ match profit_assess pP (ints [-1; 1]%Z) (fofZ 1 : F) with Ok (_, ga, (_, true)) => between 1 2 ga | _ => false end = true.
Proof. exact (conj pt_square (conj (level_small 3 ltac:(split; discriminate)) (conj (level_small 1 ltac:(split; discriminate)) prof_calls))). Qed.
Example C114_construction : is_finite (fofZ 2) = true /\ is_finite (fofZ 1) = true /\ exp (1 - 8) <= B2R (fofZ 2) * B2R (fofZ 1) <= exp (8 - 1) /\ exp (- 8) <= B2R (fofZ 1) <= exp 8.
Proof. exact prof_new_case. Qed.
