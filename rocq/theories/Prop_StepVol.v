(** C102: one ellipsoid step in binary64 shrinks the volume by the factor of the exact step, up to the slack. *)
From Coq Require Import ZArith Reals.
From Flocq Require Import Core IEEE754.BinarySingleNaN.
From Verif Require Import Num Res Arr CuttingPlane EllCalc Ell Spec AccSpec StepAccSpec StepCuts StepEx Replay.
Local Open Scope R_scope.

Theorem C102_central (lm : Libm) n (e : Ell (FNum lm)) g (b : SingleCut (FNum lm)) lam Lam X e' st :
  tame n e lam Lam X -> grad_ok n g -> slack n lam Lam X (fkap e) <= 1 / 10 ->
  ell_update_central single_cut e (g, b) = Ok (e', st) -> moderate (e_tsq e') -> step_shrinks n e lam Lam X e'.
Proof. exact (central_shrinks lm n e g b lam Lam X e' st). Qed.
Print Assumptions C102_central.

Theorem C102_bias (lm : Libm) n (e : Ell (FNum lm)) g (b : f64) lam Lam X e' st :
  tame n e lam Lam X -> grad_ok n g -> slack n lam Lam X (fkap e) <= 1 / 10 -> moderate_or_zero b ->
  ell_update_bias single_cut e (g, mkSingle (N := FNum lm) b) = Ok (e', st) -> moderate (e_tsq e') -> 2 * B2R b <= sqrt (B2R (e_tsq e' : f64)) ->
  step_shrinks n e lam Lam X e'.
Proof. exact (bias_shrinks lm n e g b lam Lam X e' st). Qed.
Print Assumptions C102_bias.

Theorem C102_q (lm : Libm) n (e : Ell (FNum lm)) g (b : f64) lam Lam X e' :
  tame n e lam Lam X -> grad_ok n g -> slack n lam Lam X (fkap e) <= 1 / 10 -> moderate_or_zero b ->
  ell_update_q single_cut e (g, mkSingle (N := FNum lm) b) = Ok (e', Success) -> moderate (e_tsq e') -> 2 * B2R b <= sqrt (B2R (e_tsq e' : f64)) ->
  step_shrinks n e lam Lam X e'.
Proof. exact (q_shrinks lm n e g b lam Lam X e'). Qed.
Print Assumptions C102_q.

(** An ellipsoid and a cut to which all three apply. *)
Example C102_case : tame 2 se 1 4 3 /\ grad_ok 2 sg /\ slack 2 1 4 3 (fkap se) <= 1 / 10 /\ moderate_or_zero (fofZ 1) /\
  (exists e', ell_update_central single_cut se (sg, sb_cut) = Ok (e', Success) /\ moderate (e_tsq e') /\ 2 * B2R (fofZ 1) <= sqrt (B2R (e_tsq e' : f64))) /\
  (exists e', ell_update_bias single_cut se (sg, sb_cut) = Ok (e', Success) /\ moderate (e_tsq e') /\ 2 * B2R (fofZ 1) <= sqrt (B2R (e_tsq e' : f64))) /\
  (exists e', ell_update_q single_cut se (sg, sb_cut) = Ok (e', Success) /\ moderate (e_tsq e') /\ 2 * B2R (fofZ 1) <= sqrt (B2R (e_tsq e' : f64))).
Proof. exact step_case. Qed.
