(** Model of /repo/src/conjugate_gradient.rs. *)
From Coq Require Import ZArith List Bool Arith.
Import ListNotations.
From Verif Require Import Num Res Arr.

(** [Result<Arr, &'static str>]: the two messages of conjugate_gradient.rs 44
    and 70 *)
Inductive cg_err := DidNotConverge | OutOfIterations.
Inductive cg_result (N : Num) := Solved (x : Arr N) | Failed (e : cg_err).
Arguments Solved {N}. Arguments Failed {N}.

Section Model.
Context {N : Num}.
Notation arr := (Arr N).

(** conjugate_gradient.rs 48-50: [for i in 0..n { x[i] += s * p[i]; }] *)
Definition cg_axpy (n : nat) (x : arr) (s : N) (p : arr) : res arr :=
  for_range 0 n (fun i x =>
    pi <- a_idx p i ;; xi <- a_idx x i ;; a_setidx x i (xi +! s *! pi)) x.
(** 52-54: [for i in 0..n { r[i] -= s * q[i]; }] *)
Definition cg_axmy (n : nat) (r : arr) (s : N) (q : arr) : res arr :=
  for_range 0 n (fun i r =>
    qi <- a_idx q i ;; ri <- a_idx r i ;; a_setidx r i (ri -! s *! qi)) r.
(** 64-66: [for i in 0..n { p[i] = r[i] + b * p[i]; }] *)
Definition cg_dir (n : nat) (p : arr) (b : N) (r : arr) : res arr :=
  for_range 0 n (fun i p =>
    ri <- a_idx r i ;; pi <- a_idx p i ;; a_setidx p i (ri +! b *! pi)) p.

(** conjugate_gradient.rs 38-68: one iteration on (x, residual, direction,
    residual_norm_sq) *)
Definition cg_state : Type := arr * arr * arr * N.
Definition cg_step (a : arr) (n : nat) (tol : N) (s : cg_state) : res (ctl cg_state (cg_result N)) :=
  let '(x, residual, direction, residual_norm_sq) := s in
  a_dir <- a_dot_mv a direction ;;
  dir_dot_a_dir <- a_dot direction a_dir ;;
  if dir_dot_a_dir =?! n0 then Ok (Done (Failed DidNotConverge))
  else
    let step_size := residual_norm_sq /! dir_dot_a_dir in
    x <- cg_axpy n x step_size direction ;;
    residual <- cg_axmy n residual step_size a_dir ;;
    residual_norm_sq_new <- a_dot residual residual ;;
    if nsqrt residual_norm_sq_new <?! tol then Ok (Done (Solved x))
    else
      let improvement_ratio := residual_norm_sq_new /! residual_norm_sq in
      direction <- cg_dir n direction improvement_ratio residual ;;
      Ok (Next (x, residual, direction, residual_norm_sq_new)).

(** conjugate_gradient.rs 21-71 *)
Definition conjugate_gradient (a b : arr) (x0 : option arr) (tol : N) (max_iter : nat) : res (cg_result N) :=
  let n := a_len b in
  let x := match x0 with Some x0 => x0 | None => a_new n end in
  ax <- a_dot_mv a x ;;
  residual <- a_sub b ax ;;
  let direction := residual in
  residual_norm_sq <- a_dot residual residual ;;
  c <- loop_range 0 max_iter (fun _ s => cg_step a n tol s) (x, residual, direction, residual_norm_sq) ;;
  match c with
  | Done r => Ok r
  | Next _ => Ok (Failed OutOfIterations)
  end.
End Model.
