(** The conjugate gradient method in exact arithmetic, as the recurrence in the
    documentation (conjugate_gradient.rs 8-18) states it, and what a caller is
    told.  Nothing here mentions the model of the code. *)
From Coq Require Import Reals Arith.
From Verif Require Import Spec PowerSpec.
Open Scope R_scope.

(** iterate, residual and direction *)
Record cgv := mkCgv { cx : vec; cr : vec; cp : vec }.
Fixpoint cg_seq (n : nat) (M : mtx) (b x0 : vec) (k : nat) : cgv :=
  match k with
  | O => let r := fun i => b i - mulmv n M x0 i in mkCgv x0 r r
  | S j =>
      let s := cg_seq n M b x0 j in
      let alpha := dot n (cr s) (cr s) / quad n M (cp s) in
      let r := fun i => cr s i - alpha * mulmv n M (cp s) i in
      let beta := dot n r r / dot n (cr s) (cr s) in
      mkCgv (fun i => cx s i + alpha * cp s i) r (fun i => r i + beta * cp s i)
  end.

(** the step from round k divides by zero *)
Definition breaks (n : nat) (M : mtx) (b x0 : vec) (k : nat) : Prop := quad n M (cp (cg_seq n M b x0 k)) = 0.
(** round k ends with an accepted iterate *)
Definition accepts (n : nat) (M : mtx) (b x0 : vec) (tol : R) (k : nat) : Prop :=
  norm2 n (cr (cg_seq n M b x0 (S k))) < tol.
(** the residual of [x] *)
Definition resid (n : nat) (M : mtx) (b x : vec) : vec := fun i => b i - mulmv n M x i.
(** the error of [x] in the energy norm, squared, against a solution [z] *)
Definition energy (n : nat) (M : mtx) (z x : vec) : R := quad n M (fun i => x i - z i).
(** the combinations of r, M r, ..., M^(k-1) r with r the residual of the start *)
Definition krylov (n : nat) (M : mtx) (b x0 : vec) (k : nat) (y : vec) : Prop :=
  exists c, forall i, (i < n)%nat -> y i = Rsum k (fun j => c j * pow_mv n M (resid n M b x0) j i).
