(** Words for the accuracy of the LDL' factorisation. *)
From Coq Require Import ZArith Reals List Arith.
From Flocq Require Import Core IEEE754.BinarySingleNaN.
From Verif Require Import Num Res Arr Spec Ldlt.
Local Open Scope R_scope.

(** the pivot of row [i], as stored on the diagonal *)
Definition pivot {lm : Libm} (n : nat) (m : LDLT (FNum lm)) (i : nat) : f64 := nth (i * n + i) (l_storage m) (n0 (N := FNum lm)).
(** the real matrix a binary64 matrix stands for *)
Definition real_of (G : nat -> nat -> f64) : mtx := fun i j => B2R (G i j).
(** a diagonal far from overflow and underflow *)
Definition moderate_diag (n : nat) (G : nat -> nat -> f64) : Prop :=
  forall i, (i < n)%nat -> bpow radix2 (-400) <= B2R (G i i) <= bpow radix2 400.
(** the matrix with its diagonal multiplied by [1 + c] *)
Definition diag_by (c : R) (A : mtx) : mtx := fun i j => if Nat.eqb i j then (1 + c) * A i i else A i j.
