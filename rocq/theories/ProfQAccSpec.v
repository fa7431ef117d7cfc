(** What the discrete profit oracle has to deliver in binary64 (C126). *)
From Coq Require Import ZArith Reals List Arith.
From Flocq Require Import Core IEEE754.BinarySingleNaN.
From Verif Require Import Num Res Arr ArrLemmas CuttingPlane Spec StepAccSpec Profit ProfitSpec ProfAccSpec.
Local Open Scope R_scope.

(** [z] is the whole amount, at least one, for the amount [v], which is known up to the
    relative error [dl] *)
Definition whole_near (dl v : R) (z : Z) : Prop :=
  (1 <= z)%Z /\ (Rabs (IZR z - v) <= 1 / 2 + dl * v \/ z = 1%Z /\ v <= 1 / 2 + dl * v).
(** a point of the box whose coordinates are logarithms of whole amounts, up to [dl] *)
Definition log_whole {lm} (dl X : R) (x : Arr (FNum lm)) : Prop :=
  in_square X x /\ forall i, (i < 2)%nat -> exists z : Z, (1 <= z)%Z /\ Rabs (fcoords x i - ln (IZR z)) <= dl.
(** the rounding of an offset which is moved from one point to another *)
Definition q_shift : R := bpow radix2 (-30).
