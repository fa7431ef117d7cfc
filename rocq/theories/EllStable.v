(** Model of /repo/src/ell_stable.rs: the LDL' search space. *)
From Coq Require Import ZArith List Bool Arith.
From Verif Require Import Num Res Arr CuttingPlane EllCalc Ell.

(** ell_stable.rs 9-15 *)
Record EllStable (N : Num) := mkStable {
  s_mq : Arr N; s_xc : Arr N; s_kappa : N; s_helper : EllCalc N; s_tsq : N }.
Arguments mkStable {N}. Arguments s_mq {N}. Arguments s_xc {N}. Arguments s_kappa {N}.
Arguments s_helper {N}. Arguments s_tsq {N}.

Section Model.
Context {N : Num}.
Notation stable := (EllStable N).

(** ell_stable.rs 18-27 *)
Definition stable_new_with_matrix (kappa : N) (mq xc : Arr N) : stable :=
  mkStable mq xc kappa (calc_new (a_len xc)) n0.
(** ell_stable.rs 29-31 *)
Definition stable_new (val xc : Arr N) : res stable :=
  m <- a_from_diag val ;; Ok (stable_new_with_matrix n1 m xc).
(** ell_stable.rs 33-35 *)
Definition stable_new_with_scalar (val : N) (xc : Arr N) : res stable :=
  m <- a_eye (a_len xc) ;; Ok (stable_new_with_matrix val m xc).

(** ell_stable.rs 60-69: w = inv(L) g, writing the products into the lower triangle *)
Definition stable_forward (n : nat) (mq w : Arr N) : res (Arr N * Arr N) :=
  for_range 1 n (fun i '(mq, w) =>
    for_range 0 i (fun j '(mq, w) =>
      l <- a_get mq j i ;; wj <- a_idx w j ;;
      let val := l *! wj in
      mq <- a_setidx mq (i * n + j) val ;;
      wi <- a_idx w i ;;
      w <- a_setidx w i (wi -! val) ;;
      Ok (mq, w)) (mq, w)) (mq, w).
(** ell_stable.rs 71-75: z = inv(D) w *)
Definition stable_scale (n : nat) (mq z : Arr N) : res (Arr N) :=
  for_range 0 n (fun i z =>
    zi <- a_idx z i ;; d <- a_get mq i i ;; a_setidx z i (zi *! d)) z.
(** ell_stable.rs 77-83: gg_t and omega *)
Definition stable_omega (n : nat) (z w : Arr N) : res (Arr N * N) :=
  for_range 0 n (fun i '(gg_t, omega) =>
    a <- a_idx gg_t i ;; b <- a_idx w i ;;
    gg_t <- a_setidx gg_t i (a *! b) ;;
    v <- a_idx gg_t i ;;
    Ok (gg_t, omega +! v)) (z, n0).
(** ell_stable.rs 92-98: back substitution (as written: reads mq[j, i-1]) *)
Definition stable_backward (n : nat) (mq g_t : Arr N) : res (Arr N) :=
  for_rev 1 n (fun i g_t =>
    for_range i n (fun j g_t =>
      a <- a_idx g_t (i - 1) ;; l <- a_get mq j (i - 1) ;; b <- a_idx g_t j ;;
      a_setidx g_t (i - 1) (a -! l *! b)) g_t) g_t.
(** ell_stable.rs 106-121: rank-one update of the factors; [ndim - 1] underflows
    (panics in debug, and then indexes out of range) for ndim = 0 *)
Definition stable_rank_one (n : nat) (sigma omega : N) (mq z gg_t : Arr N) : res (Arr N) :=
  assert (0 <? n)
   (let mu_val := sigma /! (n1 -! sigma) in
    let oldt := omega /! mu_val in
    let last_idx := n - 1 in
    '(mq, oldt) <- for_range 0 last_idx (fun j '(mq, oldt) =>
       gj <- a_idx gg_t j ;;
       let temp := oldt +! gj in
       zj <- a_idx z j ;;
       let beta2 := zj /! temp in
       d <- a_idx mq (j * n + j) ;;
       mq <- a_setidx mq (j * n + j) (d *! (oldt /! temp)) ;;
       mq <- for_range (j + 1) n (fun l mq =>
               v <- a_idx mq (j * n + l) ;;
               s <- a_get mq l j ;;
               a_setidx mq (j * n + l) (v +! beta2 *! s)) mq ;;
       Ok (mq, temp)) (mq, oldt) ;;
    gl <- a_idx gg_t last_idx ;;
    let temp := oldt +! gl in
    d <- a_idx mq (last_idx * n + last_idx) ;;
    a_setidx mq (last_idx * n + last_idx) (d *! (oldt /! temp))).

(** ell_stable.rs 52-125 *)
Definition stable_update_core (e : stable) (grad : Arr N) (f_core : N -> cutres N)
  : res (stable * CutStatus) :=
  let n := a_len (s_xc e) in
  '(mq, w) <- stable_forward n (s_mq e) grad ;;
  z <- stable_scale n mq w ;;
  '(gg_t, omega) <- stable_omega n z w ;;
  let tsq := s_kappa e *! omega in
  let '(status, (rho, sigma, delta)) := f_core tsq in
  if negb (is_success status)
  then Ok (mkStable mq (s_xc e) (s_kappa e) (s_helper e) tsq, status)
  else
    g_t <- stable_backward n mq z ;;
    let rho_over_omega := rho /! omega in
    xc <- ell_move_xc n rho_over_omega g_t (s_xc e) ;;   (* lines 102-104: same loop as ell.rs 110-113 *)
    mq <- stable_rank_one n sigma omega mq z gg_t ;;
    let kappa := s_kappa e *! delta in
    Ok (mkStable mq xc kappa (s_helper e) tsq, status).

(** ell_stable.rs 128-210: the dispatch is the one of ell.rs *)
Definition stable_update_bias {C} (ct : CutType N C) (e : stable) (cut : Arr N * C) :=
  stable_update_core e (fst cut) (fun tsq => call_bias ct (s_helper e) (snd cut) tsq).
Definition stable_update_central {C} (ct : CutType N C) (e : stable) (cut : Arr N * C) :=
  stable_update_core e (fst cut) (fun tsq => call_central ct (s_helper e) (snd cut) tsq).
Definition stable_update_q {C} (ct : CutType N C) (e : stable) (cut : Arr N * C) :=
  stable_update_core e (fst cut) (fun tsq => call_q ct (s_helper e) (snd cut) tsq).
Definition stable_set_xc (e : stable) (x : Arr N) : stable :=
  mkStable (s_mq e) x (s_kappa e) (s_helper e) (s_tsq e).

Definition stable_space {C} (ct : CutType N C) : SearchSpace N (Arr N) C stable := {|
  sp_xc := s_xc; sp_tsq := s_tsq;
  sp_update_bias_cut := stable_update_bias ct;
  sp_update_central_cut := stable_update_central ct;
  sp_update_q := stable_update_q ct;
  sp_set_xc := stable_set_xc |}.
End Model.
