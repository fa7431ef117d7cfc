(** Words for what the LMI oracle's answer means in binary64. *)
From Coq Require Import ZArith Reals List Arith.
From Flocq Require Import Core IEEE754.BinarySingleNaN.
From Verif Require Import Num Res Arr CuttingPlane EllCalc Ell Spec Ldlt LdltSpec Lmi LmiSpec LdltAccSpec StepAccSpec.
Local Open Scope R_scope.

Section F.
Context {lm : Libm}.
Notation F := (FNum lm).
(** B - y_0 F_0 - ... - y_{k-1} F_{k-1} for the real numbers that the given binary64
    matrices consist of, without any rounding *)
Definition fpencil (n k : nat) (o : LMI F) (y : vec) : mtx :=
  fun i j => fentry n (lmi_b o) i j - Rsum k (fun q => fentry n (nth q (lmi_f o) (lmi_b o)) i j * y q).
(** the points with coordinates at most [r] *)
Definition in_box (k : nat) (r y : vec) : Prop := forall q, (q < k)%nat -> Rabs (y q) <= r q.
(** a problem of finite numbers, symmetric, far from overflow: over the whole box
    the terms of every entry add up to at most [M] *)
Record lmi_fits (n k : nat) (r : vec) (M : R) (o : LMI F) : Prop := {
  fit_ok : lmi_ok n o;
  fit_dim : (1 <= n)%nat /\ (Z.of_nat n <= 2 ^ 20)%Z /\ (1 <= k <= length (lmi_f o))%nat /\ (Z.of_nat k <= 2 ^ 20)%Z;
  fit_fin : all_finite (lmi_b o) /\ Forall all_finite (lmi_f o);
  fit_sym : sym n (fentry n (lmi_b o)) /\ Forall (fun a => sym n (fentry n a)) (lmi_f o);
  fit_box : forall q, (q < k)%nat -> 0 <= r q <= bpow radix2 400;
  fit_M : bpow radix2 (-400) <= M <= bpow radix2 400;
  fit_sum : forall i j, (i < n)%nat -> (j < n)%nat ->
    Rabs (fentry n (lmi_b o) i j) + Rsum k (fun q => Rabs (fentry n (nth q (lmi_f o) (lmi_b o)) i j) * r q) <= M }.
(** a point of binary64 numbers in the box *)
Definition point_ok (k : nat) (r : vec) (x : Arr F) : Prop := length (adata x) = k /\ all_finite x /\ in_box k r (fcoords x).
(** the first [c] pivots of the factorisation the oracle holds are finite *)
Definition pivots_ok (n c : nat) (o : LMI F) : Prop := forall i, (i < c)%nat -> is_finite (pivot n (lmi_mgr o) i) = true.
End F.
(** the matrix with [t] added to its diagonal *)
Definition shift (t : R) (A : mtx) : mtx := fun i j => A i j + (if Nat.eqb i j then t else 0).
(** the tolerance: rounding errors of the entries and of the factorisation *)
Definition lmi_tol (n k : nat) (M : R) : R := (50 * INR n * INR n * INR n + 4 * INR n * INR k) * bpow radix2 (-53) * M.
(** how many rows the factorisation went through for this answer *)
Definition rows_read {lm : Libm} {C} (n : nat) (o : LMI (FNum lm)) (c : option C) : nat := match c with None => n | Some _ => snd (l_pos (lmi_mgr o)) end.
(** what has to hold at a state in which the oracle is asked: the centre is in the box,
    and the pivots that lead to the answer are finite *)
Definition calm {lm : Libm} {C} (n k : nat) (r : vec) (ora : OracleFeas (FNum lm) (Arr (FNum lm)) C (LMI (FNum lm))) (o : LMI (FNum lm)) (e : Ell (FNum lm)) : Prop :=
  in_box k r (fcoords (e_xc e)) /\ forall o2 c, of_assess ora o (e_xc e) = Ok (o2, c) -> pivots_ok n (rows_read n o2 c) o2.

(** The homogeneous oracle: y_0 F_0 + ... + y_{k-1} F_{k-1} without rounding, and the
    same conditions on the problem. *)
Section F0.
Context {lm : Libm}.
Notation F := (FNum lm).
Definition fentry0 (n : nat) (o : LMI0 F) (q i j : nat) : R := fentry n (nth q (lmi0_f o) (a_zeros (N := F) n n)) i j.
Definition fpencil0 (n k : nat) (o : LMI0 F) (y : vec) : mtx := fun i j => Rsum k (fun q => fentry0 n o q i j * y q).
Record lmi0_fits (n k : nat) (r : vec) (M : R) (o : LMI0 F) : Prop := {
  fit0_ok : lmi0_ok n o;
  fit0_dim : (1 <= n)%nat /\ (Z.of_nat n <= 2 ^ 20)%Z /\ (1 <= k <= length (lmi0_f o))%nat /\ (Z.of_nat k <= 2 ^ 20)%Z;
  fit0_fin : Forall all_finite (lmi0_f o);
  fit0_sym : Forall (fun a => sym n (fentry n a)) (lmi0_f o);
  fit0_box : forall q, (q < k)%nat -> 0 <= r q <= bpow radix2 400;
  fit0_M : bpow radix2 (-400) <= M <= bpow radix2 400;
  fit0_sum : forall i j, (i < n)%nat -> (j < n)%nat -> Rsum k (fun q => Rabs (fentry0 n o q i j) * r q) <= M }.
Definition pivots0_ok (n c : nat) (o : LMI0 F) : Prop := forall i, (i < c)%nat -> is_finite (pivot n (lmi0_mgr o) i) = true.
End F0.
