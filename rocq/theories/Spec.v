(** Specification vocabulary over the reals: vectors and matrices are functions
    of their indices, of which the first [n] matter.  Nothing here mentions the
    model of the code. *)
From Coq Require Import Reals Arith.
Open Scope R_scope.

Definition vec := nat -> R.
Definition mtx := nat -> nat -> R.

(** f 0 + ... + f (n-1) *)
Fixpoint Rsum (n : nat) (f : nat -> R) : R :=
  match n with O => 0 | S k => Rsum k f + f k end.
Definition dot (n : nat) (x y : vec) : R := Rsum n (fun i => x i * y i).
Definition mulmv (n : nat) (M : mtx) (x : vec) : vec := fun i => Rsum n (fun j => M i j * x j).
Definition quad (n : nat) (M : mtx) (x : vec) : R := dot n x (mulmv n M x).

Definition sym (n : nat) (M : mtx) : Prop := forall i j, (i < n)%nat -> (j < n)%nat -> M i j = M j i.
Definition psd (n : nat) (M : mtx) : Prop := forall x, 0 <= quad n M x.
Definition pd (n : nat) (M : mtx) : Prop := forall x, (exists i, (i < n)%nat /\ x i <> 0) -> 0 < quad n M x.

(** The ellipsoid with centre [c] and shape [kappa * M]: the points [c + M y]
    with [y' M y <= kappa].  For an invertible [M] this is
    (x - c)' M^-1 (x - c) <= kappa ([in_ell_inverse] below). *)
Definition in_ell (n : nat) (M : mtx) (kappa : R) (c x : vec) : Prop :=
  exists y, (forall i, (i < n)%nat -> x i - c i = mulmv n M y i) /\ quad n M y <= kappa.

(** [g . (x - c)] *)
Definition along (n : nat) (g x c : vec) : R := dot n g (fun i => x i - c i).

Definition mtx_one : mtx := fun i j => if Nat.eqb i j then 1 else 0.
Definition mulmm (n : nat) (A B : mtx) : mtx := fun i j => Rsum n (fun k => A i k * B k j).
Definition inverse (n : nat) (A B : mtx) : Prop := forall i j, (i < n)%nat -> (j < n)%nat ->
  mulmm n A B i j = mtx_one i j /\ mulmm n B A i j = mtx_one i j.
