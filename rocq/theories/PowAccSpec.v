(** Matrices and start vectors the power iterations handle well in binary64 (C116). *)
From Coq Require Import ZArith Reals List Arith.
From Flocq Require Import Core IEEE754.BinarySingleNaN.
From Verif Require Import Num Res Arr Spec PowerSpec StepAccSpec.
Local Open Scope R_scope.

Section F.
Context {lm : Libm}.
Notation F := (FNum lm).
(** an n by n matrix of finite numbers, of Frobenius norm up to 2^200, that shortens no
    vector by more than the factor [sigma]: the smallest singular value is at least
    [sigma], which exceeds the rounding errors of a product *)
Record regular (n : nat) (a : Arr F) (sigma : R) : Prop := {
  g_dim : (0 < n)%nat /\ (Z.of_nat n <= 2 ^ 20)%Z;
  g_mat : length (adata a) = (n * n)%nat /\ arows a = n /\ acols a = n;
  g_fin : all_finite a;
  g_size : frob n (fentry n a) <= bpow radix2 200;
  g_low : bpow radix2 (-400) <= sigma /\ 6 * (INR n * bpow radix2 (-53)) * frob n (fentry n a) <= sigma;
  g_sing : forall u, sigma * norm2 n u <= norm2 n (mulmv n (fentry n a) u) }.
(** a start vector of [n] finite numbers, not too long and not too short *)
Definition start_ok (n : nat) (x : Arr F) : Prop :=
  length (adata x) = n /\ acols x = 0%nat /\ all_finite x /\ (forall i, (i < n)%nat -> Rabs (fcoords x i) <= bpow radix2 290) /\
  bpow radix2 (-900) <= dot n (fcoords x) (fcoords x).
(** a finite vector of unit length and its quadratic form, up to rounding *)
Definition unit_answer (n : nat) (a : Arr F) (x : Arr F) (q : f64) : Prop :=
  length (adata x) = n /\ all_finite x /\ Rabs (dot n (fcoords x) (fcoords x) - 1) <= 24 * (INR n * bpow radix2 (-53)) /\
  is_finite q = true /\ Rabs (B2R q - quad n (fentry n a) (fcoords x)) <= 13 * (INR n * bpow radix2 (-53)) * frob n (fentry n a) + bpow radix2 (-1020).
(** how far [x] with the value [q] is from an eigenpair *)
Definition miss (n : nat) (a : Arr F) (x : Arr F) (q : f64) : R :=
  norm2 n (fun i => mulmv n (fentry n a) (fcoords x) i - B2R q * fcoords x i).
End F.
