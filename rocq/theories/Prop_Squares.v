(** Property C88: the least-squares oracles of /repo/tests and whole runs with
    them.  Vocabulary: SquaresSpec.v. *)
From Coq Require Import ZArith Reals List Arith Lia Lra.
From Verif Require Import Num Res Arr CuttingPlane EllCalc Ell EllRun Spec EllSpec EllCuts EllMore Det RunSpec RunProofs Squares SquaresSpec SquaresProofs.
Open Scope R_scope.

(** ** C88: minimising a weighted sum of squares *)
Theorem C88_oracles :
  (sq_oracle 2 ones zeros (sq2_assess (N := RNum)) /\ sq_value 2 ones zeros (sq2_assess (N := RNum))) /\
  (forall n t, vecn n t -> sq_oracle n ones (coords t) (sqt_assess (N := RNum) t) /\ sq_value n ones (coords t) (sqt_assess (N := RNum) t)) /\
  (forall n, sq_oracle n ones zeros (sqn_assess (N := RNum) n) /\ sq_value n ones zeros (sqn_assess (N := RNum) n)) /\
  (forall c : R, c <> 0 -> sq_oracle 2 (pair2 (1 + / c) c) zeros (sqc_assess (N := RNum) c) /\ sq_value 2 (pair2 (1 + / c) c) zeros (sqc_assess (N := RNum) c)) /\
  (forall s : R, sq_oracle 2 (pair2 s 1) zeros (sqs_assess (N := RNum) s) /\ sq_value 2 (pair2 s 1) zeros (sqs_assess (N := RNum) s)).
Proof. exact (conj sq2_squares (conj sqt_squares (conj sqn_squares (conj sqc_squares sqs_squares)))). Qed.
Print Assumptions C88_oracles.
Theorem C88_converges : forall n d t (ora : OracleOptim RNum (Arr RNum) (SingleCut RNum) unit),
  (forall i, (i < n)%nat -> 0 <= d i) -> sq_oracle n d t ora ->
  forall M r j (opt : Options RNum) (e : Ell RNum) (gamma : R), (2 <= n)%nat -> (j < n)%nat -> d j = M -> (forall i, (i < n)%nat -> d i <= M) ->
  0 < M -> 0 < r -> proper n e -> vecn n (e_xc e) -> (forall y, ball n t r y -> pts n e y) -> 4 * M * (r * r) <= gamma ->
  sq_value n d t ora -> tolerance opt <= (8 * M * (r * r)) * (8 * M * (r * r)) -> (INR n + 1) * ln (vol2 n e / (r * r) ^ n) < INR (max_iters opt) ->
  exists e' gamma' x k, cutting_plane_optim ora (ell_space (N := RNum) single) opt tt e gamma = Ok (tt, e', gamma', (Some x, k)) /\
    gamma' = wsq n d t (coords x) /\ gamma' < 4 * M * (r * r).
Proof. exact sq_converges. Qed.
Print Assumptions C88_converges.
(** One of the tests (tests/integration_test.rs 171-220); the infinite start
    value of the test acts like any level that the starting point improves. *)
Theorem C88_test : forall s gamma : R, s = 1 \/ s = -1 -> 2 <= gamma ->
  exists e, ell_new_with_scalar (N := RNum) 10 (start11 s) = Ok e /\
  exists e' gamma' x k, cutting_plane_optim (sq2_assess (N := RNum)) (ell_space (N := RNum) single) topts tt e gamma = Ok (tt, e', gamma', (Some x, k)) /\
    gamma' = coords x 0%nat * coords x 0%nat + coords x 1%nat * coords x 1%nat /\ gamma' < 16 / 10 ^ 6.
Proof. exact test_converges. Qed.
Print Assumptions C88_test.
Theorem C88_cut_refuted : exists (x : Arr RNum) (gamma : R) (y : vec) g beta, vecn 2 x /\
  sq2_assess (N := RNum) tt x gamma = Ok (tt, gamma, ((g, mkSingle (N := RNum) beta), false)) /\
  wsq 2 ones zeros y < gamma /\ 0 < along 2 (coords g) y (coords x) + beta.
Proof. exact sq2_removes. Qed.
Print Assumptions C88_cut_refuted.
Example C88_case : sq_oracle 2 ones zeros (sq2_assess (N := RNum)) /\ forall gamma : R, 2 <= gamma -> exists e, ell_new_with_scalar (N := RNum) 10 (start11 1) = Ok e.
Proof. split; [exact (proj1 sq2_squares)|]. intros gamma H. destruct (test_converges 1 gamma (or_introl eq_refl) H) as (e & E & _). exists e. exact E. Qed.
