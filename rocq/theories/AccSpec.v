(** What "computed accurately" means: the computed number is finite and within k
    relative roundings of the exact one.  One rounding to nearest changes a number
    by a factor between 1 - 2^-53 and 1 / (1 - 2^-53). *)
From Coq Require Import Reals.
From Flocq Require Import Core IEEE754.BinarySingleNaN.
From Verif Require Import Num.
Local Open Scope R_scope.

Definition close (k : nat) (x : f64) (X : R) : Prop :=
  is_finite x = true /\ 0 <= X /\ X * (1 - bpow radix2 (-53)) ^ k <= B2R x /\ B2R x * (1 - bpow radix2 (-53)) ^ k <= X.
(** neither overflow nor underflow is near *)
Definition mid (X : R) : Prop := X = 0 \/ bpow radix2 (-1000) <= X <= bpow radix2 1000.

(** the numbers for which the accuracy theorems are stated *)
Definition moderate (x : f64) : Prop := is_finite x = true /\ bpow radix2 (-100) <= B2R x <= bpow radix2 100.
Definition moderate_or_zero (x : f64) : Prop := is_finite x = true /\ (B2R x = 0 \/ bpow radix2 (-100) <= B2R x <= bpow radix2 100).
