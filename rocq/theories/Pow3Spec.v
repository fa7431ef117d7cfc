(** The vectors power_iteration3 goes through (C116): the start vector, then the product
    with the matrix of the vector before, scaled to unit length (flag [true]) when its
    computed square length reaches 1e150 (power_iteration.rs 148-173). *)
From Coq Require Import ZArith.
From Verif Require Import Num Res Arr PowerIter.
Section V.
Context {N : Num}.
Fixpoint visited3 (a x0 : Arr N) (k : nat) : res (Arr N * bool) :=
  match k with
  | O => Ok (x0, false)
  | S j => p <- visited3 a x0 j ;; y <- a_dot_mv a (fst p) ;; d <- a_dot y y ;;
      if nlit 1%Z 150%Z <=?! d then (u <- p_unit y ;; Ok (u, true)) else Ok (y, false)
  end.
End V.
