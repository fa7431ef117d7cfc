(** C109: one step with a pair of parallel cuts in binary64. *)
From Coq Require Import ZArith Reals List.
From Flocq Require Import Core IEEE754.BinarySingleNaN.
From Verif Require Import Num Res Arr CuttingPlane EllCalc Ell Spec FloatLemmas AccSpec StepAccSpec ParAccSpec Replay StepEx ParCuts ParEx.
Import ListNotations.
Local Open Scope R_scope.

(** The calculators: for two cuts of depths 0 <= b0 < b1, the first at most half way to
    the boundary and the second inside the ellipsoid, both routines accept, and all three
    numbers are within the relative error 28 n 2^-53 of those of the smallest ellipsoid
    around the slab. *)
Theorem C109_calc (lm : Libm) n (t b0 b1 : f64) :
  (2 <= n)%nat -> (Z.of_nat n <= 2 ^ 26)%Z -> moderate t -> moderate_or_zero b0 -> moderate b1 -> B2R b0 < B2R b1 ->
  2 * B2R b0 <= sqrt (B2R t) -> Bleb t (fmul b1 b1) = false ->
  forall routine, In routine [calc_parallel_bias_cut (N := FNum lm); calc_parallel_q (N := FNum lm)] ->
  exists rho sigma delta : f64, routine (calc_new n) b0 b1 t = (Success, (rho, sigma, delta)) /\
  let e := 28 * (INR n * bpow radix2 (-53)) in
  within e rho (slab_rho (INR n) (B2R t) (B2R b0) (B2R b1)) /\ within e sigma (slab_sigma (INR n) (B2R t) (B2R b0) (B2R b1)) /\
  within e delta (slab_delta (INR n) (B2R t) (B2R b0) (B2R b1)).
Proof. exact (fun A B C D E G H K s P => calc_both lm n t b0 b1 s (match P with or_introl Q => or_introl (eq_sym Q) | or_intror (or_introl Q) => or_intror (eq_sym Q) | or_intror (or_intror Q) => match Q with end end) A B C D E G H K). Qed.
Print Assumptions C109_calc.

(** A whole step: the new ellipsoid holds the slab and shrinks, up to the slack. *)
Theorem C109_bias (lm : Libm) n (e : Ell (FNum lm)) (g : Arr (FNum lm)) (b0 b1 : f64) lam Lam X r (e' : Ell (FNum lm)) st :
  tame n e lam Lam X -> grad_ok n g -> pair_slack n lam Lam X (fkap e) r <= 1 / 10 -> moderate_or_zero b0 -> moderate b1 ->
  ell_update_bias parallel_cut e (g, mkParallel (N := FNum lm) b0 (Some b1)) = Ok (e', st) ->
  moderate (e_tsq e') -> B2R b0 < B2R b1 -> 2 * B2R b0 <= sqrt (B2R (e_tsq e' : f64)) ->
  thick (B2R (e_tsq e' : f64)) (B2R b0) (B2R b1) r -> Bleb (e_tsq e') (fmul b1 b1) = false ->
  st = Success /\ (pair_sound n e g (B2R b0) (B2R b1) lam Lam X r e' /\ pair_shrinks n e lam Lam X r e').
Proof. exact (par_bias lm n e g b0 b1 lam Lam X r e' st). Qed.
Print Assumptions C109_bias.
Theorem C109_q (lm : Libm) n (e : Ell (FNum lm)) (g : Arr (FNum lm)) (b0 b1 : f64) lam Lam X r (e' : Ell (FNum lm)) st :
  tame n e lam Lam X -> grad_ok n g -> pair_slack n lam Lam X (fkap e) r <= 1 / 10 -> moderate_or_zero b0 -> moderate b1 ->
  ell_update_q parallel_cut e (g, mkParallel (N := FNum lm) b0 (Some b1)) = Ok (e', st) ->
  moderate (e_tsq e') -> B2R b0 < B2R b1 -> 2 * B2R b0 <= sqrt (B2R (e_tsq e' : f64)) ->
  thick (B2R (e_tsq e' : f64)) (B2R b0) (B2R b1) r -> Bleb (e_tsq e') (fmul b1 b1) = false ->
  st = Success /\ (pair_sound n e g (B2R b0) (B2R b1) lam Lam X r e' /\ pair_shrinks n e lam Lam X r e').
Proof. exact (par_q lm n e g b0 b1 lam Lam X r e' st). Qed.
Print Assumptions C109_q.
(** The central update uses the second depth only: the first cut goes through the
    centre. *)
Theorem C109_central (lm : Libm) n (e : Ell (FNum lm)) (g : Arr (FNum lm)) (b0 b1 : f64) lam Lam X r (e' : Ell (FNum lm)) st :
  tame n e lam Lam X -> grad_ok n g -> pair_slack n lam Lam X (fkap e) r <= 1 / 10 -> moderate b1 ->
  ell_update_central parallel_cut e (g, mkParallel (N := FNum lm) b0 (Some b1)) = Ok (e', st) ->
  moderate (e_tsq e') -> thick (B2R (e_tsq e' : f64)) 0 (B2R b1) r -> Bleb (e_tsq e') (fmul b1 b1) = false ->
  st = Success /\ (pair_sound n e g 0 (B2R b1) lam Lam X r e' /\ pair_shrinks n e lam Lam X r e').
Proof. exact (par_central lm n e g b0 b1 lam Lam X r e' st). Qed.
Print Assumptions C109_central.

(** A second cut that the routines see outside the ellipsoid, or a missing one: the step
    is that of the first cut alone, with the guarantees of a single cut. *)
Theorem C109_far_bias (lm : Libm) n (e : Ell (FNum lm)) (g : Arr (FNum lm)) (b0 : f64) (second : option f64) lam Lam X (e' : Ell (FNum lm)) st :
  tame n e lam Lam X -> grad_ok n g -> slack n lam Lam X (fkap e) <= 1 / 10 -> moderate_or_zero b0 ->
  ell_update_bias parallel_cut e (g, mkParallel (N := FNum lm) b0 second) = Ok (e', st) ->
  moderate (e_tsq e') -> 2 * B2R b0 <= sqrt (B2R (e_tsq e' : f64)) ->
  (forall b1, second = Some b1 -> moderate b1 /\ B2R b0 <= B2R b1 /\ Bleb (e_tsq e') (fmul b1 b1) = true) ->
  st = Success /\ (step_sound n e g (B2R b0) lam Lam X e' /\ step_shrinks n e lam Lam X e').
Proof. exact (single_bias lm n e g b0 second lam Lam X e' st). Qed.
Print Assumptions C109_far_bias.
Theorem C109_far_q (lm : Libm) n (e : Ell (FNum lm)) (g : Arr (FNum lm)) (b0 : f64) (second : option f64) lam Lam X (e' : Ell (FNum lm)) :
  tame n e lam Lam X -> grad_ok n g -> slack n lam Lam X (fkap e) <= 1 / 10 -> moderate_or_zero b0 ->
  ell_update_q parallel_cut e (g, mkParallel (N := FNum lm) b0 second) = Ok (e', Success) ->
  moderate (e_tsq e') -> 2 * B2R b0 <= sqrt (B2R (e_tsq e' : f64)) ->
  (forall b1, second = Some b1 -> moderate b1 /\ B2R b0 <= B2R b1 /\ Bleb (e_tsq e') (fmul b1 b1) = true) ->
  step_sound n e g (B2R b0) lam Lam X e' /\ step_shrinks n e lam Lam X e'.
Proof. exact (single_q lm n e g b0 second lam Lam X e'). Qed.
Print Assumptions C109_far_q.
Theorem C109_far_central (lm : Libm) n (e : Ell (FNum lm)) (g : Arr (FNum lm)) (b0 : f64) (second : option f64) lam Lam X (e' : Ell (FNum lm)) st :
  tame n e lam Lam X -> grad_ok n g -> slack n lam Lam X (fkap e) <= 1 / 10 ->
  ell_update_central parallel_cut e (g, mkParallel (N := FNum lm) b0 second) = Ok (e', st) -> moderate (e_tsq e') ->
  (forall b1, second = Some b1 -> moderate b1 /\ Bleb (e_tsq e') (fmul b1 b1) = true) ->
  st = Success /\ (step_sound n e g 0 lam Lam X e' /\ step_shrinks n e lam Lam X e').
Proof. exact (single_central lm n e g b0 second lam Lam X e' st). Qed.
Print Assumptions C109_far_central.

(** All hypotheses hold for concrete steps: depths 1 and 3 in an ellipsoid of half width
    sqrt 14 (inside), depths 1 and 4 (outside), and depth 1 alone. *)
Example C109_case : tame 2 se 1 4 3 /\ grad_ok 2 sg /\ pair_slack 2 1 4 3 (fkap se) 4 <= 1 / 10 /\ slack 2 1 4 3 (fkap se) <= 1 / 10 /\
  moderate_or_zero (fofZ 1) /\ moderate (fofZ 3) /\ moderate (fofZ 4) /\ B2R (fofZ 1) < B2R (fofZ 3) /\
  (forall u, In u [ell_update_bias parallel_cut se (sg, p_in); ell_update_q parallel_cut se (sg, p_in); ell_update_central parallel_cut se (sg, p_in)] ->
   exists e', u = Ok (e', Success) /\ moderate (e_tsq e') /\ 2 * B2R (fofZ 1) <= sqrt (B2R (e_tsq e' : f64)) /\ thick (B2R (e_tsq e' : f64)) (B2R (fofZ 1)) (B2R (fofZ 3)) 4 /\ thick (B2R (e_tsq e' : f64)) 0 (B2R (fofZ 3)) 4 /\ Bleb (e_tsq e') (fmul (fofZ 3) (fofZ 3)) = false) /\
  (forall u, In u [ell_update_bias parallel_cut se (sg, p_far); ell_update_q parallel_cut se (sg, p_far); ell_update_central parallel_cut se (sg, p_far)] ->
   exists e', u = Ok (e', Success) /\ moderate (e_tsq e') /\ 2 * B2R (fofZ 1) <= sqrt (B2R (e_tsq e' : f64)) /\ thick (B2R (e_tsq e' : f64)) (B2R (fofZ 1)) (B2R (fofZ 3)) 4 /\ thick (B2R (e_tsq e' : f64)) 0 (B2R (fofZ 3)) 4 /\ Bleb (e_tsq e') (fmul (fofZ 4) (fofZ 4)) = true) /\
  (forall u, In u [ell_update_bias parallel_cut se (sg, p_one); ell_update_q parallel_cut se (sg, p_one); ell_update_central parallel_cut se (sg, p_one)] ->
   exists e', u = Ok (e', Success) /\ moderate (e_tsq e') /\ 2 * B2R (fofZ 1) <= sqrt (B2R (e_tsq e' : f64)) /\ thick (B2R (e_tsq e' : f64)) (B2R (fofZ 1)) (B2R (fofZ 3)) 4 /\ thick (B2R (e_tsq e' : f64)) 0 (B2R (fofZ 3)) 4 /\ Bleb (e_tsq e') (fmul (fofZ 4) (fofZ 4)) = true).
Proof. exact par_case. Qed.
