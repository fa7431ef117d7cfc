(** The determinant of a real matrix, by expansion along the first row, and the
    squared volume of an ellipsoid relative to the unit ball.  Specification
    vocabulary: nothing here mentions how the code updates anything. *)
From Coq Require Import Reals Arith.
From Verif Require Import Num Ell Spec EllSpec.
Open Scope R_scope.

(** [M] without row 0 and column [j] *)
Definition minor (M : mtx) (j : nat) : mtx := fun i l => M (S i) (if Nat.ltb l j then l else S l).
Fixpoint det (n : nat) (M : mtx) : R :=
  match n with
  | O => 1
  | S k => Rsum (S k) (fun j => (-1) ^ j * M 0%nat j * det k (minor M j))
  end.
(** det (kappa M): the square of the volume of the ellipsoid in units of the
    volume of the unit ball *)
Definition vol2 (n : nat) (e : Ell RNum) : R := kap e ^ n * det n (shape n e).
