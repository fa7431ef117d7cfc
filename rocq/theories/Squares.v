(** Models of the oracles in /repo/tests that minimise a (weighted) sum of
    squares.  [v.powi(2)] is taken to be [v * v]. *)
From Coq Require Import ZArith List Bool Arith.
From Verif Require Import Num Res Arr CuttingPlane.
Import ListNotations.

Section Model.
Context {N : Num}.
Notation arr := (Arr N).
Definition answer : Type := (unit * N * ((arr * SingleCut N) * bool)).

(** The last lines of all these oracles (e.g. tests/integration_test.rs 16-21):
    [if f < *gamma { *gamma = f; ((gradient, SingleCut(f)), true) } else
    { ((gradient, SingleCut(f)), false) }] *)
Definition sq_finish (gradient : arr) (f gamma : N) : answer :=
  if f <?! gamma then (tt, f, ((gradient, mkSingle f), true)) else (tt, gamma, ((gradient, mkSingle f), false)).

(** tests/integration_test.rs 12-22, 141-151, 178-188; tests/regression_tests.rs
    12-21, 50-59, 110-119, 144-153, 222-231; tests/numerical_stability.rs 58-67,
    131-140, 167-176 *)
Definition sq2_assess (o : unit) (xc : arr) (gamma : N) : res answer :=
  x <- a_idx xc 0 ;; y <- a_idx xc 1 ;;
  Ok (sq_finish (a_from [n2 *! x; n2 *! y]) (x *! x +! y *! y) gamma).
(** tests/integration_test.rs 48-59 and 93-104 *)
Definition sqt_assess (target : arr) (o : unit) (xc : arr) (gamma : N) : res answer :=
  diff <- a_sub xc target ;;
  f <- a_dot diff diff ;;
  Ok (sq_finish (a_muls diff n2) f gamma).
(** tests/regression_tests.rs 180-193 *)
Definition sqn_assess (ndim : nat) (o : unit) (xc : arr) (gamma : N) : res answer :=
  '(gradient, f) <- for_range 0 ndim (fun i '(gradient, f) =>
     x <- a_idx xc i ;; gradient <- a_setidx gradient i (n2 *! x) ;; Ok (gradient, f +! x *! x)) (a_new ndim, n0) ;;
  Ok (sq_finish gradient f gamma).
(** tests/numerical_stability.rs 14-24 *)
Definition sqc_assess (condition_number : N) (o : unit) (xc : arr) (gamma : N) : res answer :=
  let eps := n1 /! condition_number in
  x <- a_idx xc 0 ;; y <- a_idx xc 1 ;;
  Ok (sq_finish (a_from [n2 *! (n1 +! eps) *! x; n2 *! (n1 /! eps) *! y])
        ((n1 +! eps) *! (x *! x) +! (n1 /! eps) *! (y *! y)) gamma).
(** tests/numerical_stability.rs 97-107 *)
Definition sqs_assess (scale : N) (o : unit) (xc : arr) (gamma : N) : res answer :=
  x <- a_idx xc 0 ;; y <- a_idx xc 1 ;;
  Ok (sq_finish (a_from [n2 *! scale *! x; n2 *! y]) (scale *! (x *! x) +! y *! y) gamma).
End Model.
