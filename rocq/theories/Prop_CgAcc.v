(** C113: what an answer of conjugate_gradient means in binary64. *)
From Coq Require Import ZArith Reals List.
From Flocq Require Import Core IEEE754.BinarySingleNaN.
From Verif Require Import Num Res Arr ArrLemmas Spec PowerSpec StepAccSpec Cg CgAccSpec CgAcc CgAccEx CgWitness Replay.
Import ListNotations.
Local Open Scope R_scope.

(** An answer with finite coordinates has a true residual of at most the tolerance plus
    [m + 1] times what one round can add. The matrix need not be symmetric or definite. *)
Theorem C113_answer (lm : Libm) (n : nat) (a b : Arr (FNum lm)) (W X Y T : R) (x0 : option (Arr (FNum lm))) (tol : f64) (m : nat) (x : Arr (FNum lm)) :
  (0 < n)%nat -> (Z.of_nat n <= 2 ^ 20)%Z -> is_mat n n a -> (forall i j, (i < n)%nat -> (j < n)%nat -> Rabs (fentry n a i j) <= W) ->
  0 <= X -> 0 <= Y -> 1 <= T -> is_vec n b -> match x0 with Some v => is_vec n v | None => True end ->
  is_finite tol = true -> 2 * B2R tol + bpow radix2 (-400) <= Y ->
  (forall s k s', cg_first a b x0 s -> cg_path a n (tol : FNum lm) s k s' -> cg_within n a X Y T s') ->
  conjugate_gradient (N := FNum lm) a b x0 tol m = Ok (Solved x) ->
  (forall i, (i < n)%nat -> is_finite (nth i (adata x) (n0 (N := FNum lm)) : f64) = true /\ Rabs (fcoords x i) <= X) ->
  norm2 n (fun i => fcoords b i - Rsum n (fun j => fentry n a i j * fcoords x j)) <=
    (1 + 6 * INR n * bpow radix2 (-53)) * B2R tol + bpow radix2 (-500) + INR n * (INR m + 1) * cg_unit n W X Y T.
Proof. exact (fun H1 H2 H3 H4 H5 H6 H7 H8 H9 H10 H11 H12 H13 H14 => cg_answer lm n a b W X Y T H1 H2 H3 H4 H5 H6 H7 x0 tol m x H8 H9 H10 H11 H12 H13 (fun i Hi => proj1 (H14 i Hi)) (fun i Hi => proj2 (H14 i Hi))). Qed.
Print Assumptions C113_answer.

(** The repository's 2 by 2 system with tolerance 1e-5: the answer solves it up to the
    tolerance and 1e-10. *)
Theorem C113_case : exists x, conjugate_gradient (N := F) cga cgb None (flit 1 (-5)) 10 = Ok (Solved x) /\
  norm2 2 (fun i => fcoords cgb i - Rsum 2 (fun j => fentry 2 cga i j * fcoords x j)) <= B2R (flit 1 (-5)) + / 10000000000.
Proof. exact cg_case. Qed.
Print Assumptions C113_case.
