(** What C128 says about the oracle of quasicvx2_tests.rs in binary64: maximise sqrt(x) / y
    over exp(x) <= y, x >= 0. *)
From Coq Require Import ZArith Reals.
From Flocq Require Import Core IEEE754.BinarySingleNaN.
From Verif Require Import Num Res Arr Spec StepAccSpec ProfitSpec ProfAccSpec QcAccSpec.
Local Open Scope R_scope.

(** [z = (x, y)] satisfies the constraints and reaches the level [t], the curved ones with [mu] to spare *)
Definition reaches2 (mu t : R) (z : vec) : Prop := exp (z 0%nat) + mu <= z 1%nat /\ 0 <= z 0%nat /\ t * z 1%nat + mu <= sqrt (z 0%nat).
(** what a cut made in the square of half width [X], at a level up to [C] and an x not between
    0 and [r * r], may take away on a platform whose exp is good to [dl] *)
Definition qc2_margin (dl X C r : R) : R := 2 * qc_eps dl * ((1 + 2 * X) * exp X + X / r + C * X).
(** x is not between 0 and [r * r] *)
Definition off_axis {lm} (r : R) (u : Arr (FNum lm)) : Prop := fcoords u 0%nat < 0 \/ r * r <= fcoords u 0%nat.
(** [u] satisfies the constraints and [ga] is its value, up to the accuracy *)
Definition qc2_good (dl ga : R) (u : vec) : Prop :=
  (1 - dl) * exp (u 0%nat) <= u 1%nat /\ 0 <= u 0%nat /\
  Rabs (ga - sqrt (u 0%nat) / u 1%nat) <= bpow radix2 (-50) * (sqrt (u 0%nat) / u 1%nat) + bpow radix2 (-1000).
