(** Models of /repo/src/example1.rs, example1_rr.rs, example3.rs, example4.rs
    and quasicvx.rs. *)
From Coq Require Import ZArith List Bool Arith.
From Verif Require Import Num Res Arr CuttingPlane.
Import ListNotations.

Section Model.
Context {N : Num}.
Notation arr := (Arr N).

(** The loop [for _ in 0..m { idx += 1; if idx == m { idx = 0 } let fj = ...;
    if fj > 0.0 { return ... } }] shared by example1_rr.rs 24-50, example3.rs
    28-53, example4.rs 25-53, quasicvx.rs 23-48 and profit_oracle.rs 35-61.
    [step] is the evaluation of [fj] (it panics where the code has
    [unreachable!()]).  The i32 counter is an integer here; it stays between -1
    and m - 1, so no overflow is possible (C52, C60, C61). *)
Definition round_robin {S : Type} (m : nat) (step : Z -> S -> res (S * N)) (idx : Z) (s : S)
  : res (ctl (Z * S) (Z * S * N)) :=
  loop_range 0 m (fun _ '(idx, s) =>
    let idx := (idx + 1)%Z in
    let idx := if (idx =? Z.of_nat m)%Z then 0%Z else idx in
    '(s, fj) <- step idx s ;;
    if fj >?! n0 then Ok (Done (idx, s, fj)) else Ok (Next (idx, s))) (idx, s).

(** [Arr::from(vec![a, b])], arr.rs 56-63 *)
Definition vec2 (a b : N) : arr := a_from [a; b].
(** the literal -1.0 *)
Definition nm1 : N := -! n1.

(** example1.rs 11-29; the oracle has no state *)
Definition ex1_assess (o : unit) (xc : arr) (gamma : N) : res (unit * N * ((arr * SingleCut N) * bool)) :=
  x <- a_idx xc 0 ;; y <- a_idx xc 1 ;;
  let f0 := x +! y in
  let f1 := f0 -! nZ 3 in
  if f1 >?! n0 then Ok (o, gamma, ((vec2 n1 n1, mkSingle f1), false)) else
  let f2 := -! x +! y +! n1 in
  if f2 >?! n0 then Ok (o, gamma, ((vec2 nm1 n1, mkSingle f2), false)) else
  let f3 := gamma -! f0 in
  if f3 >?! n0 then Ok (o, gamma, ((vec2 nm1 nm1, mkSingle f3), false)) else
  Ok (o, f0, ((vec2 nm1 nm1, mkSingle n0), true)).

(** example1_rr.rs 30-35 *)
Definition ex1rr_val (x y f0 gamma : N) (idx : Z) : res N :=
  match idx with
  | 0%Z => Ok (f0 -! nZ 3)
  | 1%Z => Ok (-! x +! y +! n1)
  | 2%Z => Ok (gamma -! f0)
  | _ => Panic
  end.
(** example1_rr.rs 39-44 *)
Definition ex1rr_grad (idx : Z) : res arr :=
  match idx with
  | 0%Z => Ok (vec2 n1 n1) | 1%Z => Ok (vec2 nm1 n1) | 2%Z => Ok (vec2 nm1 nm1) | _ => Panic
  end.
(** example1_rr.rs 19-53; the state is [idx], initially -1 (10-14) *)
Definition ex1rr_assess (idx : Z) (xc : arr) (gamma : N) : res (Z * N * ((arr * SingleCut N) * bool)) :=
  x <- a_idx xc 0 ;; y <- a_idx xc 1 ;;
  let f0 := x +! y in
  c <- round_robin 3 (fun i s => f <- ex1rr_val x y f0 gamma i ;; Ok (s, f)) idx tt ;;
  match c with
  | Done (idx, _, fj) => g <- ex1rr_grad idx ;; Ok (idx, gamma, ((g, mkSingle fj), false))
  | Next (idx, _) => Ok (idx, f0, ((vec2 nm1 nm1, mkSingle n0), true))
  end.

(** example3.rs 6-9 *)
Record Ex3 := mkEx3 { ex3_idx : Z; ex3_target : N }.
(** example3.rs 11-19 *)
Definition ex3_default : Ex3 := mkEx3 (-1) (-! nlit 1 100).
(** example3.rs 34-40 *)
Definition ex3_val (x y target : N) (idx : Z) : res N :=
  match idx with
  | 0%Z => Ok (-! x -! n1)
  | 1%Z => Ok (-! y -! n2)
  | 2%Z => Ok (x +! y -! n1)
  | 3%Z => Ok (n2 *! x -! nZ 3 *! y -! target)
  | _ => Panic
  end.
(** example3.rs 43-49 *)
Definition ex3_grad (idx : Z) : res arr :=
  match idx with
  | 0%Z => Ok (vec2 nm1 n0) | 1%Z => Ok (vec2 n0 nm1) | 2%Z => Ok (vec2 n1 n1)
  | 3%Z => Ok (vec2 n2 (-! nZ 3)) | _ => Panic
  end.
(** example3.rs 24-55 *)
Definition ex3_assess (o : Ex3) (xc : arr) : res (Ex3 * option (arr * SingleCut N)) :=
  x <- a_idx xc 0 ;; y <- a_idx xc 1 ;;
  c <- round_robin 4 (fun i s => f <- ex3_val x y (ex3_target o) i ;; Ok (s, f)) (ex3_idx o) tt ;;
  match c with
  | Done (idx, _, fj) => g <- ex3_grad idx ;; Ok (mkEx3 idx (ex3_target o), Some (g, mkSingle fj))
  | Next (idx, _) => Ok (mkEx3 idx (ex3_target o), None)
  end.
(** example3.rs 57-59 *)
Definition ex3_update (o : Ex3) (gamma : N) : Ex3 := mkEx3 (ex3_idx o) gamma.
(** example3.rs 21-60 *)
Definition ex3_oracle : OracleFeas N arr (SingleCut N) Ex3 :=
  mkOracleFeas N arr (SingleCut N) Ex3 ex3_assess ex3_update.

(** example4.rs 31-37 *)
Definition ex4_val (x y f0 gamma : N) (idx : Z) : res N :=
  match idx with
  | 0%Z => Ok (-! x -! n1)
  | 1%Z => Ok (-! y -! n2)
  | 2%Z => Ok (x +! y -! n1)
  | 3%Z => Ok (gamma -! f0)
  | _ => Panic
  end.
(** example4.rs 41-47 *)
Definition ex4_grad (idx : Z) : res arr :=
  match idx with
  | 0%Z => Ok (vec2 nm1 n0) | 1%Z => Ok (vec2 n0 nm1) | 2%Z => Ok (vec2 n1 n1)
  | 3%Z => Ok (vec2 (-! n2) (nZ 3)) | _ => Panic
  end.
(** example4.rs 20-56; the state is [idx], initially -1 (10-15) *)
Definition ex4_assess (idx : Z) (xc : arr) (gamma : N) : res (Z * N * ((arr * SingleCut N) * bool)) :=
  x <- a_idx xc 0 ;; y <- a_idx xc 1 ;;
  let f0 := n2 *! x -! nZ 3 *! y in
  c <- round_robin 4 (fun i s => f <- ex4_val x y f0 gamma i ;; Ok (s, f)) idx tt ;;
  match c with
  | Done (idx, _, fj) => g <- ex4_grad idx ;; Ok (idx, gamma, ((g, mkSingle fj), false))
  | Next (idx, _) => Ok (idx, f0, ((vec2 (-! n2) (nZ 3), mkSingle n0), true))
  end.

(** quasicvx.rs 29-33 *)
Definition qcvx_val (sqrtx logy gamma : N) (idx : Z) : res N :=
  match idx with
  | 0%Z => Ok (sqrtx *! sqrtx -! logy)
  | 1%Z => Ok (-! sqrtx +! gamma *! nexp logy)
  | _ => Panic
  end.
(** quasicvx.rs 37-41 *)
Definition qcvx_grad (sqrtx logy gamma : N) (idx : Z) : res arr :=
  match idx with
  | 0%Z => Ok (vec2 (n2 *! sqrtx) nm1)
  | 1%Z => Ok (vec2 nm1 (gamma *! nexp logy))
  | _ => Panic
  end.
(** quasicvx.rs 19-51; the state is [idx], initially -1 (10-14) *)
Definition qcvx_assess (idx : Z) (xc : arr) (gamma : N) : res (Z * N * ((arr * SingleCut N) * bool)) :=
  sqrtx <- a_idx xc 0 ;; logy <- a_idx xc 1 ;;
  c <- round_robin 2 (fun i s => f <- qcvx_val sqrtx logy gamma i ;; Ok (s, f)) idx tt ;;
  match c with
  | Done (idx, _, fj) => g <- qcvx_grad sqrtx logy gamma idx ;; Ok (idx, gamma, ((g, mkSingle fj), false))
  | Next (idx, _) => Ok (idx, sqrtx /! nexp logy, ((vec2 nm1 sqrtx, mkSingle n0), true))
  end.
End Model.
Arguments Ex3 : clear implicits. Arguments mkEx3 {N}. Arguments ex3_idx {N}. Arguments ex3_target {N}.
