(** What LowpassOracle::new has to deliver in binary64 (C112). *)
From Coq Require Import ZArith Reals List Arith.
From Flocq Require Import Core IEEE754.BinarySingleNaN.
From Verif Require Import Num Res Arr ArrLemmas Spec StepAccSpec LowpassSpec LowAccSpec.
Local Open Scope R_scope.

(** the platform's cosine is good to [dl] on [-B, B] *)
Definition cos_near (lm : Libm) (B dl : R) : Prop :=
  forall x : f64, is_finite x = true -> Rabs (B2R x) <= B -> is_finite (lm_cos lm x) = true /\ Rabs (B2R (lm_cos lm x) - cos (B2R x)) <= dl.
(** the same design problem with coefficients that differ by up to [h] *)
Definition filter_near (h : R) (f f' : filter) : Prop :=
  f_n f' = f_n f /\ f_m f' = f_m f /\ f_p f' = f_p f /\ f_q f' = f_q f /\ f_lp f' = f_lp f /\ f_up f' = f_up f /\
  forall k j, (k < f_m f)%nat -> (j < f_n f)%nat -> Rabs (f_A f k j - f_A f' k j) <= h.
(** [p] of the frequencies 0, 1/(m-1), ..., 1 are at most [w], where a frequency above [w]
    by no more than [d] may count as well *)
Definition band_by (d : R) (m : nat) (w : R) (p : nat) : Prop :=
  (p <= m)%nat /\ forall k, (k < m)%nat -> (INR k / INR (m - 1) <= w -> (k < p)%nat) /\ ((k < p)%nat -> INR k / INR (m - 1) <= w + d).
(** the error of a coefficient 2 cos(pi k j / (m - 1)) *)
Definition coef_eps (n : nat) (dl : R) : R := 2 * dl + INR n * bpow radix2 (-47).
(** the margin with respect to the problem with the exact cosines *)
Definition design_eps (n : nat) (dl X S : R) : R := low_eps n 4 X S + INR n * X * coef_eps n dl.
