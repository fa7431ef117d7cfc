(** What the quasi-convex example has to deliver in binary64 (C117): maximise s / e^l over
    s^2 <= l. *)
From Coq Require Import ZArith Reals List Arith.
From Flocq Require Import Core IEEE754.BinarySingleNaN.
From Verif Require Import Num Res Arr Spec StepAccSpec ProfitSpec ProfAccSpec.
Local Open Scope R_scope.

(** [z = (s, l)] satisfies the constraint and reaches the level [t], both with [mu] to spare *)
Definition reaches (mu t : R) (z : vec) : Prop := z 0%nat * z 0%nat + mu <= z 1%nat /\ t * exp (z 1%nat) + mu <= z 0%nat.
(** accuracy on a platform whose exp is good to [dl] *)
Definition qc_eps (dl : R) : R := dl + bpow radix2 (-50).
(** what a cut made in the square of half width [X] at a level up to [C] may take away *)
Definition qc_margin (dl X C : R) : R := 2 * qc_eps dl * ((1 + 2 * X) * (X + C * exp X)).
(** how much a level up to [C] can fall when an answer replaces it *)
Definition qc_drop (C : R) : R := C * bpow radix2 (-51).
(** [u] satisfies the constraint and [ga] is its value, up to the accuracy *)
Definition qc_good (dl ga : R) (u : vec) : Prop :=
  u 0%nat * u 0%nat <= u 1%nat + bpow radix2 (-50) * (1 + u 0%nat * u 0%nat) /\ 0 <= u 0%nat /\
  Rabs (ga - u 0%nat / exp (u 1%nat)) <= 2 * qc_eps dl * (u 0%nat / exp (u 1%nat)) + bpow radix2 (-1000).
(** a platform, a square and a range of levels that the analysis covers *)
Definition qc_platform (lm : Libm) (dl X C : R) : Prop := 0 <= dl <= / 1000000 /\ 1 <= X <= 200 /\ 1 <= C <= bpow radix2 100 /\ exp_near lm X dl.
(** a finite level between 0 and [C] *)
Definition qc_level (C : R) (ga : f64) : Prop := is_finite ga = true /\ 0 <= B2R ga <= C.
