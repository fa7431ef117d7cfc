(** C115: the robust profit oracle in binary64. *)
From Coq Require Import ZArith Reals List.
From Flocq Require Import Core IEEE754.BinarySingleNaN.
From Verif Require Import Num Res Arr ArrLemmas CuttingPlane EllCalc Ell EllRun Spec RunSpec AccSpec StepAccSpec StepRunSpec Profit ProfitSpec ProfAccSpec RbAccSpec RbAcc RbAccRun Replay StepEx StepRunEx ProfAccEx RbAccEx.
Import ListNotations.
Local Open Scope R_scope.

(** Construction: a point robust for the box of data asked for, with the accuracy to spare,
    is robust for the box the oracle works with, and conversely. *)
Theorem C115_new (lm : Libm) T dl (up sc lim e1 e2 e3 e4 e5 : f64) (el po : Arr (FNum lm)) : 0 <= dl <= / 1000000 -> T <= 500 -> ln_near lm T dl -> two el -> two po -> all_finite po ->
  is_finite up = true -> is_finite sc = true -> is_finite lim = true -> is_finite e3 = true -> is_finite e4 = true -> is_finite e5 = true -> 0 <= B2R e1 -> 0 <= B2R e2 ->
  exp (1 - T) <= (B2R up - B2R e3) * B2R sc <= exp (T - 1) -> exp (1 - T) <= B2R up - B2R e3 <= exp (T - 1) -> exp (1 - T) <= B2R lim - B2R e4 <= exp (T - 1) -> (forall i, (i < 2)%nat -> exp (1 - T) <= fcoords po i + B2R e5 <= exp (T - 1)) ->
  exists r, profit_rb_new (N := FNum lm) up sc lim el po e1 e2 e3 e4 e5 = Ok r /\ rb_ok r /\ rb_uie r = (e1, e2) /\ rb_elast r = el /\
    is_finite (p_log_p_scale (rb_omega r) : f64) = true /\ is_finite (p_log_k (rb_omega r) : f64) = true /\ all_finite (p_price_out (rb_omega r)) /\
    let M := mkBox ((B2R up - B2R e3) * B2R sc) (B2R lim - B2R e4) (fun i => fcoords po i + B2R e5) (fcoords el) (fun i => if Nat.eqb i 0 then B2R e1 else B2R e2) in
    forall nu t z, 0 <= t -> (robust (worse_box (nu + 2 * prof_eps dl) M) t (z 0%nat) (z 1%nat) -> robust (worse_box nu (rb_box r)) t (z 0%nat) (z 1%nat)) /\
      (robust (worse_box (nu + 2 * prof_eps dl) (rb_box r)) t (z 0%nat) (z 1%nat) -> robust (worse_box nu M) t (z 0%nat) (z 1%nat)).
Proof. exact (rb_new_market lm T dl up sc lim e1 e2 e3 e4 e5 el po). Qed.
Print Assumptions C115_new.

(** One call: it answers; an accepted point earns the old level in every market of the box,
    and the new level is what it earns in the worst, up to the accuracy; the cut leaves
    every point of the square that earns the new level in every market, with the margin to
    spare. *)
Theorem C115_assess (lm : Libm) dl X L T (r : ProfitRb (FNum lm)) (y : Arr (FNum lm)) (ga : f64) :
  0 <= dl <= / 1000000 -> exp_near lm L dl -> ln_near lm T dl -> rb_ok r -> rb_fits r X L T -> in_square X y -> level_fits L ga -> 0 <= B2R ga ->
  exists r' ga' g (b : f64) sh, profit_rb_assess r y (ga : FNum lm) = Ok (r', ga', ((g, mkSingle (N := FNum lm) b), sh)) /\
    rb_ok r' /\ rb_same r r' /\ level_fits L ga' /\ two g /\ all_finite g /\ is_finite b = true /\ B2R ga <= B2R (ga' : f64) + prof_drop dl L /\
    (sh = false -> ga' = ga /\ 0 < B2R b) /\
    (sh = true -> robust (worse_box (- (4 * prof_eps dl)) (rb_box r)) (B2R ga) (fcoords y 0%nat) (fcoords y 1%nat) /\ good_rb dl (rb_box r) (B2R (ga' : f64)) (fcoords y) /\ B2R b = 0) /\
    (0 <= B2R (ga' : f64) -> forall z : vec, (forall i, (i < 2)%nat -> Rabs (z i) <= X) -> robust (worse_box (rb_margin dl X) (rb_box r)) (B2R (ga' : f64)) (z 0%nat) (z 1%nat) -> along 2 (fcoords g) z (fcoords y) + B2R b <= 0).
Proof. exact (fun A B C => rb_call lm dl X L T A B C r y ga). Qed.
Print Assumptions C115_assess.

(** A whole run of cutting_plane_optim with the oracle and an ellipsoid. *)
Theorem C115_run (lm : Libm) dl X L T (r0 : ProfitRb (FNum lm)) s G opt (e : Ell (FNum lm)) (ga : FNum lm) o' e' (ga' : FNum lm) ans k :
  0 <= dl <= / 1000000 -> exp_near lm L dl -> ln_near lm T dl -> rb_fits r0 X L T -> s <= 1 / 10 -> rb_ok r0 -> level_fits L (ga : f64) ->
  (forall l o1 e1 (ga1 : FNum lm) xb1, asked_opt single_cut (tolerance opt) profit_rb_assess r0 e ga None l o1 e1 ga1 xb1 -> (length l <= max_iters opt)%nat ->
    tame_run 2 s G e l /\ 0 <= B2R (ga1 : f64) /\ ((length l < max_iters opt)%nat -> in_square X (e_xc e1))) ->
  cutting_plane_optim profit_rb_assess (ell_space single_cut) opt r0 e ga = Ok (o', e', ga', (ans, k)) ->
  (forall x, ans = Some x -> good_rb dl (rb_box r0) (B2R (ga' : f64)) (fcoords x)) /\
  (k = max_iters opt -> forall z : vec, (forall i, (i < 2)%nat -> Rabs (z i) <= X) /\ robust (worse_box (rb_margin dl X) (rb_box r0)) (B2R (ga' : f64) + INR (S k) * prof_drop dl L) (z 0%nat) (z 1%nat) -> fpts 2 e 1 z -> fpts 2 e' (1 + excess s G k) z) /\
  (forall z r, 0 < r -> (forall x : vec, ball 2 z r x -> ((forall i, (i < 2)%nat -> Rabs (x i) <= X) /\ robust (worse_box (rb_margin dl X) (rb_box r0)) (B2R (ga' : f64) + INR (S k) * prof_drop dl L) (x 0%nat) (x 1%nat)) /\ fpts 2 e 1 x) ->
    (r * r) ^ 2 <= ((1 + excess s G k) ^ 2 * ((1 + s) ^ 2 * exp (- / (INR 2 + 1))) ^ k) * fvol2 2 e).
Proof. exact (fun A B C D => rb_run lm dl X L T r0 A B C D s G opt e ga o' e' ga' ans k). Qed.
Print Assumptions C115_run.

(** The market of C114 with uncertain elasticities, a run of two rounds, and the data of a
    construction. *)
Example C115_case : exp_near lm0 5 (/ 1000000) /\ ln_near lm0 8 (/ 1000000) /\ rb_ok rP /\ rb_fits rP 2 5 8 /\ level_fits 5 (fofZ 0) /\ (rb_margin (/ 1000000) 2 <= 5 / 100000 /\ prof_drop (/ 1000000) 5 <= 13 / 10000) /\ in_square 2 (e_xc qe) /\
  (forall l o1 e1 (ga1 : F) xb1, asked_opt single_cut (tolerance (qopt 2)) profit_rb_assess rP qe (fofZ 0 : F) None l o1 e1 ga1 xb1 -> (length l <= max_iters (qopt 2))%nat ->
    tame_run 2 (/ 1000000) 4 qe l /\ 0 <= B2R (ga1 : f64) /\ ((length l < max_iters (qopt 2))%nat -> in_square 2 (e_xc e1))) /\
  exists o' e' ga x, cutting_plane_optim profit_rb_assess (ell_space single_cut) (qopt 2) rP qe (fofZ 0 : F) = Ok (o', e', ga, (Some x, 2%nat)) /\ 1 <= B2R (ga : f64) <= 3.
Proof. exact rb_run_case. Qed.
Example C115_construction : two qq /\ two (ints [1; 1]%Z : Arr F) /\ all_finite (ints [1; 1]%Z : Arr F) /\ is_finite (fofZ 3) = true /\ is_finite (fofZ 2) = true /\ is_finite (fofZ 1) = true /\ 0 <= B2R sixteenth /\
  exp (1 - 8) <= (B2R (fofZ 3) - B2R (fofZ 1)) * B2R (fofZ 1) <= exp (8 - 1) /\ exp (1 - 8) <= B2R (fofZ 3) - B2R (fofZ 1) <= exp (8 - 1) /\ exp (1 - 8) <= B2R (fofZ 2) - B2R (fofZ 1) <= exp (8 - 1) /\
  (forall i, (i < 2)%nat -> exp (1 - 8) <= fcoords (ints [1; 1]%Z : Arr F) i + B2R (fofZ 1) <= exp (8 - 1)).
Proof. exact rb_new_case. Qed.
