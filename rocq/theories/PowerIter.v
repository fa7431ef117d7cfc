(** Model of /repo/src/power_iteration.rs.  Each function returns the vector
    left in [x] with the pair the Rust function returns. *)
From Coq Require Import ZArith List Bool Arith.
Import ListNotations.
From Verif Require Import Num Res Arr.

(** power_iteration.rs 19-22 *)
Record POptions (N : Num) := mkPOptions { p_max_iters : nat; p_tolerance : N }.
Arguments mkPOptions {N}. Arguments p_max_iters {N}. Arguments p_tolerance {N}.

Section Model.
Context {N : Num}.
Notation arr := (Arr N).

(** power_iteration.rs 29-32 *)
Definition norm_l1 (x : arr) : N := isum (map nabs (adata x)).
(** [*x /= x.dot(x).sqrt()], power_iteration.rs 64 and passim *)
Definition p_unit (x : arr) : res arr := d <- a_dot x x ;; Ok (a_divs x (nsqrt d)).
(** [x.dot(&a.dot_mv(x))], power_iteration.rs 71, 74, 97, 101 *)
Definition p_quot (a x : arr) : res N := ax <- a_dot_mv a x ;; a_dot x ax.
(** the test of lines 69 and 94 *)
Definition p_close (tol : N) (x x1 : arr) : res bool :=
  d <- a_sub x x1 ;;
  if norm_l1 d <=?! tol then Ok true
  else (s <- a_add x x1 ;; Ok (norm_l1 s <=?! tol)).

(** power_iteration.rs 63-75 *)
Definition power_iteration (a x : arr) (o : POptions N) : res (arr * (N * nat)) :=
  x <- p_unit x ;;
  c <- loop_range 0 (p_max_iters o) (fun niter x =>
    let x1 := x in
    x <- a_dot_mv a x1 ;;
    x <- p_unit x ;;
    t <- p_close (p_tolerance o) x x1 ;;
    if t then (q <- p_quot a x ;; Ok (Done (x, (q, niter)))) else Ok (Next x)) x ;;
  match c with
  | Done r => Ok r
  | Next x => q <- p_quot a x ;; Ok (x, (q, p_max_iters o))
  end.

(** power_iteration.rs 88-102 *)
Definition power_iteration4 (a x : arr) (o : POptions N) : res (arr * (N * nat)) :=
  let x := a_divs x (norm_l1 x) in
  c <- loop_range 0 (p_max_iters o) (fun niter x =>
    let x1 := x in
    x <- a_dot_mv a x1 ;;
    let x := a_divs x (norm_l1 x) in
    t <- p_close (p_tolerance o) x x1 ;;
    if t then (x <- p_unit x ;; q <- p_quot a x ;; Ok (Done (x, (q, niter)))) else Ok (Next x)) x ;;
  match c with
  | Done r => Ok r
  | Next x => x <- p_unit x ;; q <- p_quot a x ;; Ok (x, (q, p_max_iters o))
  end.

(** power_iteration.rs 117-132; the state is (x, new_vec, eigenval) *)
Definition power_iteration2 (a x : arr) (o : POptions N) : res (arr * (N * nat)) :=
  x <- p_unit x ;;
  new_vec <- a_dot_mv a x ;;
  eigenval <- a_dot x new_vec ;;
  c <- loop_range 0 (p_max_iters o) (fun niter s =>
    let '(_, new_vec, eigenval) := s in
    let eigenval_prev := eigenval in
    x <- p_unit new_vec ;;
    new_vec <- a_dot_mv a x ;;
    eigenval <- a_dot x new_vec ;;
    if nabs (eigenval_prev -! eigenval) <=?! p_tolerance o then Ok (Done (x, (eigenval, niter)))
    else Ok (Next (x, new_vec, eigenval))) (x, new_vec, eigenval) ;;
  match c with
  | Done r => Ok r
  | Next (x, _, eigenval) => Ok (x, (eigenval, p_max_iters o))
  end.

(** power_iteration.rs 148-173; the state is (x, new_vec, eigenval) *)
Definition power_iteration3 (a x : arr) (o : POptions N) : res (arr * (N * nat)) :=
  new_vec <- a_dot_mv a x ;;
  dot <- a_dot x x ;;
  e <- a_dot x new_vec ;;
  let eigenval := e /! dot in
  c <- loop_range 0 (p_max_iters o) (fun niter s =>
    let '(_, new_vec, eigenval) := s in
    let eigenval_prev := eigenval in
    let x := new_vec in
    dot <- a_dot x x ;;
    if dot >=?! nlit 1 150 then
      (x <- p_unit x ;;
       new_vec <- a_dot_mv a x ;;
       eigenval <- a_dot x new_vec ;;
       if nabs (eigenval_prev -! eigenval) <=?! p_tolerance o then Ok (Done (x, (eigenval, niter)))
       else Ok (Next (x, new_vec, eigenval)))
    else
      (new_vec <- a_dot_mv a x ;;
       e <- a_dot x new_vec ;;
       let eigenval := e /! dot in
       if nabs (eigenval_prev -! eigenval) <=?! p_tolerance o then
         (x <- p_unit x ;; Ok (Done (x, (eigenval, niter))))
       else Ok (Next (x, new_vec, eigenval)))) (x, new_vec, eigenval) ;;
  match c with
  | Done r => Ok r
  | Next (x, _, eigenval) => Ok (x, (eigenval, p_max_iters o))
  end.
End Model.
