(** Specification of the LMI oracles. *)
From Coq Require Import Reals List Arith.
From Verif Require Import Num Res Arr CuttingPlane Spec Ldlt LdltSpec Lmi.
Import ListNotations.
Open Scope R_scope.

(** An oracle some calls can produce, for n x n matrices. *)
Definition lmi_ok {N : Num} (n : nat) (o : LMI N) : Prop :=
  square n (lmi_b o) /\ Forall (square n) (lmi_f o) /\ mgr n (lmi_mgr o).
Definition lmi0_ok {N : Num} (n : nat) (o : LMI0 N) : Prop :=
  Forall (square n) (lmi0_f o) /\ mgr n (lmi0_mgr o).
(** B - y_0 F_0 - ... - y_{k-1} F_{k-1} *)
Definition pencil (n k : nat) (f : list (Arr RNum)) (b : Arr RNum) (y : vec) : mtx :=
  fun i j => entries n b i j - Rsum k (fun q => entries n (nth q f b) i j * y q).
(** y_0 F_0 + ... + y_{k-1} F_{k-1} *)
Definition pencil0 (n k : nat) (f : list (Arr RNum)) (y : vec) : mtx :=
  fun i j => Rsum k (fun q => entries n (nth q f (a_zeros (N := RNum) n n)) i j * y q).
Definition xvec (x : Arr RNum) : vec := fun i => nth i (adata x) 0.
Definition all_sym (n : nat) (l : list (Arr RNum)) : Prop := Forall (fun a => sym n (entries n a)) l.
