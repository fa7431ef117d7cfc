(** Specification of the max-cut oracle in double arithmetic (C125). *)
From Coq Require Import ZArith Reals List Bool Arith.
From Flocq Require Import Core IEEE754.BinarySingleNaN.
From Verif Require Import Num Res Arr CuttingPlane Spec LmiSpec StepAccSpec Svm SvmSpec.
Import ListNotations.
Open Scope R_scope.

(** The weight of the edges between the sides [s], each edge counted once, and of those
    that leave vertex [i]. *)
Definition cut_of (n : nat) (w : mtx) (s : nat -> bool) : R := Rsum n (fun j => Rsum j (fun i => if Bool.eqb (s i) (s j) then 0 else w i j)).
Definition degree_of (n : nat) (w : mtx) (s : nat -> bool) (i : nat) : R := Rsum n (fun j => if Bool.eqb (s i) (s j) then 0 else w i j).
Section S.
Context {lm : Libm}.
Notation F := (FNum lm).
(** vertex [i] is on the side of those whose coordinate compares as at least zero; a
    coordinate that is not a number is on the other side *)
Definition fside (x : Arr F) (i : nat) : bool := Bleb (B754_zero false : f64) (nth i (adata x) (n0 (N := F)) : f64).
(** a graph with [n] vertices and whole weights up to [B], n^2 B at most 2^52 *)
Record whole_graph (n : nat) (B : Z) (o : Maxcut F) : Prop := {
  wg_n : (0 < n)%nat; wg_new : maxcut_new (mc_weights o) = Ok o; wg_dim : mc_n o = n; wg_len : length (adata (mc_weights o)) = (n * n)%nat;
  wg_fin : all_finite (mc_weights o); wg_whole : forall i j, (i < n)%nat -> (j < n)%nat -> exists k, fentry n (mc_weights o) i j = IZR k /\ (Z.abs k <= B)%Z;
  wg_size : (Z.of_nat n * Z.of_nat n * B <= 2 ^ 52)%Z }.
End S.
