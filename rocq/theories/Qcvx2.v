(** Model of the oracle of /repo/tests/quasicvx2_tests.rs: maximise sqrt(x) / y
    subject to exp(x) <= y, y >= 0 and x >= 0. *)
From Coq Require Import ZArith List Bool Arith.
From Verif Require Import Num Res Arr CuttingPlane Examples.
Import ListNotations.

Section Model.
Context {N : Num}.
Notation arr := (Arr N).

(** quasicvx2_tests.rs 39-54: the gradient and the value of constraint [idx] *)
Definition qc2_con (x y : N) (idx : Z) : res (arr * N) :=
  match idx with
  | 0%Z => let tmp := nexp x in Ok (vec2 tmp nm1, tmp -! y)
  | 1%Z => Ok (vec2 n0 nm1, -! y)
  | 2%Z => Ok (vec2 nm1 n0, -! x)
  | _ => Panic
  end.
(** quasicvx2_tests.rs 28-71; the state is [idx], initially -1 (19-23).  The loop is that
    of Examples.v; its extra state is the gradient computed last (a placeholder at the
    start, where the code has none). *)
Definition qc2_assess (idx : Z) (xc : arr) (gamma : N) : res (Z * N * ((arr * SingleCut N) * bool)) :=
  x <- a_idx xc 0 ;; y <- a_idx xc 1 ;;
  c <- round_robin 3 (fun i _ => qc2_con x y i) idx (vec2 n0 n0) ;;
  match c with
  | Done (idx, g, fj) => Ok (idx, gamma, ((g, mkSingle fj), false))
  | Next (idx, _) =>
      let tmp2 := nsqrt x in
      let fj := -! tmp2 +! gamma *! y in
      if fj >?! n0 then Ok (idx, gamma, ((vec2 ((-! nhalf) /! tmp2) gamma, mkSingle fj), false))
      else
        let gamma := tmp2 /! y in
        Ok (idx, gamma, ((vec2 ((-! nhalf) /! tmp2) gamma, mkSingle n0), true))
  end.
End Model.
