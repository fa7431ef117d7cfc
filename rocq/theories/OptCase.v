(** A competitor for [egg]: the original ellipsoid itself contains what a cut keeps,
    and so does the ball of radius 10 around its centre. *)
From Coq Require Import Reals List Arith Lia Lra.
From Verif Require Import Num Res Arr CuttingPlane EllCalc Ell EllRun Spec RealLin EllSpec EllCuts EllMore EllWitness Det RunSpec VolProofs RunWitness OptCuts OptEx.
Import ListNotations.
Open Scope R_scope.

Lemma egg_covers b0 b1 : covers 2 egg egg g12 b0 b1.
Proof. intros x [Hx _]. exact Hx. Qed.
Lemma six_seven : 6 < sqrt 40 < 7.
Proof.
  split; [apply Rle_lt_trans with (sqrt (6 * 6)); [right; symmetry; apply sqrt_square; lra|apply sqrt_lt_1; lra]|].
  apply Rlt_le_trans with (sqrt (7 * 7)); [apply sqrt_lt_1; lra|right; apply sqrt_square; lra].
Qed.
Lemma single_smallest m n e g beta e' st f : (2 <= n)%nat -> proper n e -> vecn n g -> (exists i, (i < n)%nat /\ coords g i <> 0) -> proper n f ->
  match m with
  | Bias => - sqrt (width2 n e g) / INR n <= beta < sqrt (width2 n e g)
  | Central => True
  | Quantised => beta < sqrt (width2 n e g)
  end ->
  apply_cut (N := RNum) single m e (g, SC beta) = Ok (e', st) ->
  (forall x, pts n e x -> along n (coords g) x (centre e) + offset m beta <= 0 -> pts n f x) ->
  vol2 n e' <= vol2 n f /\ (vol2 n f <= vol2 n e' -> forall x, pts n f x <-> pts n e' x).
Proof. intros Hn HP Hg Hnz Hf Hgood E Hc. exact (single_opt n e g f Hn HP Hg Hnz Hf m beta e' st Hgood E Hc). Qed.
Lemma parallel_smallest m n e g b0 b1 e' st f : (2 <= n)%nat -> proper n e -> vecn n g -> (exists i, (i < n)%nat /\ coords g i <> 0) -> proper n f ->
  offset m b0 < b1 /\ - sqrt (width2 n e g) < b1 /\ - sqrt (width2 n e g) <= offset m b0 < sqrt (width2 n e g) /\
    (m = Bias -> 0 <= width2 n e g + INR n * (b0 * b1)) ->
  apply_cut (N := RNum) parallel m e (g, PC b0 (Some b1)) = Ok (e', st) ->
  (forall x, slab n e g (offset m b0) b1 x -> pts n f x) ->
  vol2 n e' <= vol2 n f /\ (vol2 n f <= vol2 n e' -> forall x, pts n f x <-> pts n e' x).
Proof.
  intros Hn HP Hg Hnz Hf (H1 & H2 & [H3 H3'] & H4) E Hc.
  apply (parallel_opt n e g f Hn HP Hg Hnz Hf m b0 b1 e' st); auto.
  unfold good_parallel. auto.
Qed.
Lemma pair_smaller m n e g b0 b1 e1 s1 e2 s2 : (2 <= n)%nat -> proper n e -> vecn n g -> (exists i, (i < n)%nat /\ coords g i <> 0) ->
  match m with
  | Bias => - sqrt (width2 n e g) / INR n <= b0 < sqrt (width2 n e g)
  | Central => True
  | Quantised => b0 < sqrt (width2 n e g)
  end ->
  offset m b0 < b1 /\ - sqrt (width2 n e g) < b1 /\ - sqrt (width2 n e g) <= offset m b0 < sqrt (width2 n e g) /\
    (m = Bias -> 0 <= width2 n e g + INR n * (b0 * b1)) ->
  apply_cut (N := RNum) single m e (g, SC b0) = Ok (e1, s1) ->
  apply_cut (N := RNum) parallel m e (g, PC b0 (Some b1)) = Ok (e2, s2) -> vol2 n e2 <= vol2 n e1.
Proof.
  intros Hn HP Hg Hnz Hs (H1 & H2 & [H3 H3'] & H4) E1 E2.
  apply (pair_not_worse m n e g b0 b1 e1 s1 e2 s2); auto. unfold good_parallel. auto.
Qed.
