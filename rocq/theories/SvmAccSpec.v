(** Specification of the SVM oracle in double arithmetic (C124). *)
From Coq Require Import ZArith Reals List Bool Arith.
From Flocq Require Import Core IEEE754.BinarySingleNaN.
From Verif Require Import Num Res Arr ArrLemmas CuttingPlane Spec LmiSpec StepAccSpec Svm SvmSpec.
Import ListNotations.
Open Scope R_scope.

Section S.
Context {lm : Libm}.
Notation F := (FNum lm).
(** the data set the oracle was given, as real numbers *)
Definition fsamples (data : Arr F) (labels : list Z) (r c : nat) : samples := mkSamples r c (fentry c data) (fun i => nth i labels 0%Z).
(** [r] samples with [c] features up to [X], labels 1 and -1; query points of c + 1 numbers up to [W] *)
Record svm_range (r c : nat) (X W : R) (data : Arr F) (labels : list Z) (xc : Arr F) : Prop := {
  sr_cols : (0 < c)%nat; sr_dim : (Z.of_nat c <= 2 ^ 26)%Z;
  sr_mat : is_mat r c data; sr_data : all_finite data; sr_size : forall i j, (i < r)%nat -> (j < c)%nat -> Rabs (fentry c data i j) <= X;
  sr_len : (r <= length labels)%nat; sr_lab : forall i, (i < r)%nat -> nth i labels 0%Z = 1%Z \/ nth i labels 0%Z = (-1)%Z;
  sr_vec : (c < length (adata xc))%nat; sr_fin : all_finite xc; sr_query : forall j, (j <= c)%nat -> Rabs (fcoords xc j) <= W;
  sr_X : X <= bpow radix2 300; sr_W : W <= bpow radix2 300 }.
(** how far a computed margin may be off *)
Definition svm_err (c : nat) (X W : R) : R :=
  5 * (INR c * INR c) * bpow radix2 (-53) * (X * W) + bpow radix2 (-53) * W + 6 * INR c * bpow radix2 (-1075).
End S.
