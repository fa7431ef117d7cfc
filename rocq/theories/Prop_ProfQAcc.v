(** C126: the discrete profit oracle in binary64. *)
From Coq Require Import ZArith Reals List.
From Flocq Require Import Core IEEE754.BinarySingleNaN.
From Verif Require Import Num Res Arr Examples ArrLemmas CuttingPlane Spec StepAccSpec StepEx StepRunEx Profit ProfitSpec ProfAccSpec Replay ProfQAccSpec ProfQAcc ProfAccEx ProfQAccEx.
Import ListNotations.
Local Open Scope R_scope.

(** One call.  Either the query point is rejected, as C114 has it, and is handed back with
    its own cut; or the point handed back is made of logarithms of whole amounts (the nearest
    ones on a first try, on which the query point itself has passed, the old ones on a
    retry), level and improvement belong to that point, and the offset is that of a cut
    there plus [g.(x - y)], up to the rounding [q_shift].  (The shift which would keep the half
    space is [g.(y - x)], see C56.) *)
Theorem C126_call (lm : Libm) dl X L T (o : ProfitQ (FNum lm)) (y : Arr (FNum lm)) (ga : f64) retry :
  0 <= dl <= / 1000000 -> exp_near lm L dl -> ln_near lm T dl -> profit_ok (pq_omega o) -> prof_fits (pq_omega o) (X + 1) L T -> log_whole dl (X + 1) (pq_yd o) -> in_square X y -> level_fits L ga -> 0 <= B2R ga ->
  let m := prof_market (pq_omega o) in
  exists o' (ga' : f64) g (b : f64) sh x more, profit_q_assess o y (ga : FNum lm) retry = Ok (o', (ga' : FNum lm), ((g, mkSingle (N := FNum lm) b), sh, x, more)) /\
    profit_ok (pq_omega o') /\ same_params (pq_omega o) (pq_omega o') /\ log_whole dl (X + 1) (pq_yd o') /\ level_fits L ga' /\ two g /\ all_finite g /\ is_finite b = true /\
    B2R ga <= B2R ga' + prof_drop dl L /\ more = negb retry /\
    ((retry = false /\ sh = false /\ x = y /\ ga' = ga /\ pq_yd o' = pq_yd o /\ 0 < B2R b /\
      (0 <= B2R ga' -> forall z, (forall i, (i < 2)%nat -> Rabs (z i) <= X + 1) -> earns (worse (prof_margin dl (X + 1)) m) (B2R ga') z -> along 2 (fcoords g) z (fcoords y) + B2R b <= 0)) \/
     (x = pq_yd o' /\ (retry = true -> x = pq_yd o) /\
      (retry = false -> earns (worse (- (3 * prof_eps dl)) m) (B2R ga) (fcoords y) /\
         forall i, (i < 2)%nat -> exists z, whole_near dl (exp (fcoords y i)) z /\ Rabs (fcoords x i - ln (IZR z)) <= dl) /\
      (sh = false -> ga' = ga) /\
      (sh = true -> earns (worse (- (3 * prof_eps dl)) m) (B2R ga) (fcoords x) /\ Rabs (B2R ga' - mprofit m (fcoords x 0%nat) (fcoords x 1%nat)) <= prof_eps dl * turnover m (fcoords x)) /\
      exists bd, Rabs (B2R b - (bd + dot 2 (fcoords g) (fun i => fcoords x i - fcoords y i))) <= q_shift /\
        (0 <= B2R ga' -> forall z, (forall i, (i < 2)%nat -> Rabs (z i) <= X + 1) -> earns (worse (prof_margin dl (X + 1)) m) (B2R ga') z -> along 2 (fcoords g) z (fcoords x) + bd <= 0))).
Proof. exact (q_call_f lm dl X L T o y ga retry). Qed.
Print Assumptions C126_call.

(** A first try that improves, the retry after it, and a query point that is rejected. *)
Example C126_case : exp_near lm0 5 (/ 1000000) /\ ln_near lm0 8 (/ 1000000) /\ profit_ok (pq_omega oQ) /\ prof_fits (pq_omega oQ) (4 + 1) 5 8 /\ log_whole (/ 1000000) (4 + 1) (pq_yd oQ) /\ in_square 4 yQ /\ level_fits 5 (fofZ 1) /\ level_fits 5 (fofZ 3) /\
  q_two oQ yQ (fofZ 1 : F) = true /\ q_is (profit_q_assess oQ yQ (fofZ 3 : F) false) false true 3 3 (-1) (-1) 1 1 = true.
Proof. exact q_case. Qed.
