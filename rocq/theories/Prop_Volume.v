(** Property C17: the volume of the ellipsoid.  [vol2 n e] = det (kappa M) is the
    square of the volume of [e] in units of the unit ball (Det.v); [offset m b]
    is the beta that an update of kind [m] uses (RunSpec.v: 0 for a central cut). *)
From Coq Require Import Reals List Arith Lia Lra.
From Verif Require Import Num Res Arr CuttingPlane EllCalc Ell EllRun Spec RealLin EllSpec EllCuts EllMore EllWitness Det RunSpec VolProofs RunWitness.
Open Scope R_scope.

(** the exact factor, from the coefficients the calculator returned *)
Theorem C17_factor : forall C (ct : CutType RNum C) m n e g c rho sigma delta e', proper n e -> vecn n g -> 0 < width2 n e g ->
  apply_cut (N := RNum) ct m e (g, c) = Ok (e', Success) ->
  cut_core (N := RNum) ct m e c (width2 n e g) = (Success, (rho, sigma, delta)) -> sigma < 1 ->
  vol2 n e' = delta ^ n * (1 - sigma) * vol2 n e.
Proof. exact @vol_formula. Qed.
Print Assumptions C17_factor.

Theorem C17_single : forall m n e g beta, (2 <= n)%nat -> proper n e -> vecn n g -> (exists i, (i < n)%nat /\ coords g i <> 0) ->
  match m with
  | Bias => - sqrt (width2 n e g) / INR n <= beta < sqrt (width2 n e g)
  | Central => True
  | Quantised => beta < sqrt (width2 n e g)
  end ->
  exists e' st, apply_cut (N := RNum) single m e (g, SC beta) = Ok (e', st) /\ proper n e' /\ e_tsq e' = width2 n e g /\
    vol2 n e' <= vol2 n e /\
    (0 <= offset m beta -> st = Success /\ vol2 n e' <= exp (- / (INR n + 1)) * vol2 n e) /\
    (forall x, pts n e x -> along n (coords g) x (centre e) + offset m beta <= 0 -> pts n e' x).
Proof. exact single_all. Qed.
Print Assumptions C17_single.

Theorem C17_parallel : forall m n e g b0 b1, (2 <= n)%nat -> proper n e -> vecn n g -> (exists i, (i < n)%nat /\ coords g i <> 0) ->
  offset m b0 < b1 /\ - sqrt (width2 n e g) < b1 /\ offset m b0 < sqrt (width2 n e g) /\
    (m = Bias -> 0 <= width2 n e g + INR n * (b0 * b1)) ->
  exists e' st, apply_cut (N := RNum) parallel m e (g, PC b0 (Some b1)) = Ok (e', st) /\ proper n e' /\ e_tsq e' = width2 n e g /\
    vol2 n e' <= vol2 n e /\
    (0 <= offset m b0 -> st = Success /\ vol2 n e' <= exp (- / (INR n + 1)) * vol2 n e) /\
    (forall x, slab n e g (offset m b0) b1 x -> pts n e' x).
Proof. exact parallel_all. Qed.
Print Assumptions C17_parallel.

Lemma six_lt : 6 < sqrt 40 < 7.
Proof.
  split; [apply Rle_lt_trans with (sqrt (6 * 6)); [right; symmetry; apply sqrt_square; lra|apply sqrt_lt_1; lra]|].
  apply Rlt_le_trans with (sqrt (7 * 7)); [apply sqrt_lt_1; lra|right; apply sqrt_square; lra].
Qed.
Example C17_case : proper 2 egg /\ vol2 2 egg = 44 /\ vecn 2 g12 /\ (exists i, (i < 2)%nat /\ coords g12 i <> 0) /\ width2 2 egg g12 = 40 /\
  (- sqrt 40 / INR 2 <= 1 < sqrt 40) /\
  (offset Bias 1 < 3 /\ - sqrt 40 < 3 /\ offset Bias 1 < sqrt 40 /\ (Bias = Bias -> 0 <= 40 + INR 2 * (1 * 3))) /\ 0 <= offset Bias 1.
Proof.
  split; [exact egg_proper|]. split; [exact egg_vol|]. split; [exact g12_vec|]. split; [exact g12_nz|]. split; [exact egg_width|].
  pose proof six_lt. cbn [offset]. change (INR 2) with 2. repeat split; try lra; intros; lra.
Qed.
