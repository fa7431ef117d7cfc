(** What the linear examples have to deliver in binary64 (C119). *)
From Coq Require Import ZArith Reals List Arith.
From Flocq Require Import Core IEEE754.BinarySingleNaN.
From Verif Require Import Num Res Arr Spec StepAccSpec ProfitSpec.
Local Open Scope R_scope.

(** x + y <= 3, x - y >= 1 with [mu] to spare; the objective x + y *)
Definition room1 (mu : R) (z : vec) : Prop := z 0%nat + z 1%nat + mu <= 3 /\ 1 + mu <= z 0%nat - z 1%nat.
Definition goal1 (z : vec) : R := z 0%nat + z 1%nat.
(** x >= -1, y >= -2, x + y <= 1 with [mu] to spare; the objective 2x - 3y *)
Definition room4 (mu : R) (z : vec) : Prop := -1 + mu <= z 0%nat /\ -2 + mu <= z 1%nat /\ z 0%nat + z 1%nat + mu <= 1.
Definition goal4 (z : vec) : R := 2 * z 0%nat - 3 * z 1%nat.

(** query points in a square of half width [X], levels up to [C] *)
Definition lin_range (X C : R) : Prop := 1 <= X /\ 6 * X <= C <= bpow radix2 1000.
(** what rounding can do to any of the tests *)
Definition lin_margin (C : R) : R := C * bpow radix2 (-50).
(** a level: minus infinity, or finite of size at most [C] *)
Definition lin_level (C : R) (ga : f64) : Prop := ga = B754_infinity true \/ (is_finite ga = true /\ Rabs (B2R ga) <= C).
(** the value [v] is above the level with [mu] to spare *)
Definition above (mu : R) (ga : f64) (v : R) : Prop := is_finite ga = true -> B2R ga + mu <= v.

Section F.
Context {lm : Libm}.
Notation F := (FNum lm).
(** A good answer to a query at [y] with the level [ga]. *)
Record lin_answer (room : R -> vec -> Prop) (goal : vec -> R) (C : R) (y : Arr F) (ga ga' : f64) (g : Arr F) (b : f64) (better : bool) : Prop := {
  la_cut_ok : two g /\ all_finite g /\ is_finite b = true;
  la_level : lin_level C ga';
  la_no : better = false -> ga' = ga /\ 0 < B2R b;
  la_yes : better = true -> room (- lin_margin C) (fcoords y) /\ is_finite ga' = true /\ Rabs (B2R ga' - goal (fcoords y)) <= lin_margin C /\ B2R b = 0;
  la_up : is_finite ga = true -> is_finite ga' = true /\ B2R ga <= B2R ga';
  la_keeps : forall z, room (lin_margin C) z -> above (lin_margin C) ga' (goal z) -> along 2 (fcoords g) z (fcoords y) + B2R b <= 0
}.
End F.
