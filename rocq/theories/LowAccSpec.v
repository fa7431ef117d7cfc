(** What the lowpass oracle has to deliver in binary64 (C111). *)
From Coq Require Import ZArith Reals List Arith.
From Flocq Require Import Core IEEE754.BinarySingleNaN.
From Verif Require Import Num Res Arr ArrLemmas CuttingPlane Spec StepAccSpec Lowpass LowpassSpec.
Local Open Scope R_scope.

(** [y] meets the specification with the stop-band level [sp] and with [d] to spare in
    every constraint on a response; a negative [d] allows violations up to [-d] *)
Definition meets_by (f : filter) (d sp : R) (y : vec) : Prop :=
  (forall k, (k < f_p f)%nat -> f_lp f + d <= response f y k <= f_up f - d) /\
  (forall k, (f_p f <= k < f_q f)%nat -> d <= response f y k) /\
  (forall k, (f_q f <= k < f_m f)%nat -> d <= response f y k <= sp - d) /\
  0 <= y 0%nat.
(** [sp] is the largest stop-band response of [y], up to [d] *)
Definition stop_level_by (f : filter) (d : R) (y : vec) (sp : R) : Prop :=
  (exists k, (f_q f <= k < f_m f)%nat /\ Rabs (response f y k - sp) <= d) /\ forall k, (f_q f <= k < f_m f)%nat -> response f y k <= sp + d.
(** the rounding errors of a response of [n] terms up to [W X] and of its comparison with
    a bound up to [S] *)
Definition low_eps (n : nat) (W X S : R) : R := (5 * (INR n * INR n) * W * X + 2 * S) * bpow radix2 (-53) + bpow radix2 (-1000).

Section F.
Context {lm : Libm}.
Notation F := (FNum lm).
(** the design problem whose coefficients are those the oracle holds *)
Definition lw_filter (n : nat) (o : Lowpass F) : filter :=
  mkFilter n (length (lw_spectrum o)) (Z.to_nat (lw_nwpass o)) (Z.to_nat (lw_nwstop o)) (fun k => fcoords (nth k (lw_spectrum o) (a_new 0))) (B2R (lw_lp o : f64)) (B2R (lw_up o : f64)).
(** finite coefficients and bounds, far from overflow *)
Record lw_fits (n : nat) (o : Lowpass F) (W S : R) : Prop := {
  lf_dim : (Z.of_nat n <= 2 ^ 26)%Z;
  lf_rows : forall k, (k < length (lw_spectrum o))%nat -> all_finite (nth k (lw_spectrum o) (a_new 0)) /\ forall j, (j < n)%nat -> Rabs (fcoords (nth k (lw_spectrum o) (a_new 0)) j) <= W;
  lf_lp : is_finite (lw_lp o : f64) = true /\ Rabs (B2R (lw_lp o : f64)) <= S;
  lf_up : is_finite (lw_up o : f64) = true /\ Rabs (B2R (lw_up o : f64)) <= S;
  lf_W : 0 <= W <= bpow radix2 200; lf_S : S <= bpow radix2 200 }.
(** a point of the box of half width [X] *)
Definition in_box (n : nat) (X : R) (x : Arr F) : Prop :=
  is_vec n x /\ all_finite x /\ 0 <= X <= bpow radix2 200 /\ forall i, (i < n)%nat -> Rabs (fcoords x i) <= X.
Definition level_ok (S : R) (sp : f64) : Prop := is_finite sp = true /\ Rabs (B2R sp) <= S.
End F.
