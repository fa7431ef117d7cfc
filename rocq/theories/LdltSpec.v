(** Specification of the LDL' manager. *)
From Coq Require Import Reals List Arith.
From Verif Require Import Num Res Arr Ldlt Spec.
Import ListNotations.
Open Scope R_scope.

(** The entries of an n x n array. *)
Definition entries (n : nat) (a : Arr RNum) : mtx := fun i j => nth (i * n + j) (adata a) 0.
(** An n x n array. *)
Definition square {N : Num} (n : nat) (a : Arr N) : Prop := length (adata a) = (n * n)%nat /\ arows a = n /\ acols a = n.
(** The element function handed to [factor] answers with the entries of [A] on
    the lower triangle. *)
Definition reads {N : Num} (n : nat) (get : nat -> nat -> res N) (A : nat -> nat -> N) : Prop :=
  forall i j, (j <= i)%nat -> (i < n)%nat -> get i j = Ok (A i j).

(** The calls a user can make on a manager, in any order. *)
Inductive mgr_op (N : Num) :=
| OpFactor (get : nat -> nat -> res N)
| OpSemi (get : nat -> nat -> res N)
| OpWitness.
Arguments OpFactor {N}. Arguments OpSemi {N}. Arguments OpWitness {N}.
Definition do_op {N : Num} (o : mgr_op N) (m : LDLT N) : res (LDLT N) :=
  match o with
  | OpFactor g => ' (m', _) <- ldlt_factor g m ;; Ok m'
  | OpSemi g => ' (m', _) <- ldlt_factor_semi g m ;; Ok m'
  | OpWitness => ' (m', _) <- ldlt_witness m ;; Ok m'
  end.
Fixpoint do_ops {N : Num} (l : list (mgr_op N)) (m : LDLT N) : res (LDLT N) :=
  match l with [] => Ok m | o :: l => m' <- do_op o m ;; do_ops l m' end.
(** A manager of size [n] some calls can produce (calls that panicked leave none). *)
Definition mgr {N : Num} (n : nat) (m : LDLT N) : Prop := exists l, do_ops l (ldlt_new n) = Ok m.

(** The stored vector, cut off outside the reported block. *)
Definition wit_vec (m : LDLT RNum) : vec := fun i =>
  if (Nat.leb (fst (l_pos m)) i && Nat.ltb i (snd (l_pos m)))%bool then nth i (adata (l_wit m)) 0 else 0.
