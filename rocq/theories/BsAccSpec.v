(** Vocabulary for bsearch in binary64 (C118). *)
From Coq Require Import ZArith Reals.
From Flocq Require Import Core IEEE754.BinarySingleNaN.
From Verif Require Import Num Res CuttingPlane.
Local Open Scope R_scope.

(** An oracle that never panics and accepts a finite double exactly from the real T on. *)
Definition threshold lm {B} (ora : OracleBS (FNum lm) B) (T : R) : Prop :=
  forall b g, exists b' a, ora b g = Ok (b', a) /\ (is_finite g = true -> a = Rle_bool T (B2R g)).
(** What rounding can add to the width of the bracket, over any number of rounds. *)
Definition bs_slack (l u : f64) : R :=
  bpow radix2 (-50) * Rmax (Rabs (B2R l)) (Rabs (B2R u)) + bpow radix2 (-1072).
