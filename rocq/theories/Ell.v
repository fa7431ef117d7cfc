(** Model of /repo/src/ell.rs: the ellipsoid search space. *)
From Coq Require Import ZArith List Bool Arith.
From Verif Require Import Num Res Arr CuttingPlane EllCalc.

(** ell.rs 9-16 *)
Record Ell (N : Num) := mkEll {
  e_no_defer : bool; e_mq : Arr N; e_xc : Arr N; e_kappa : N; e_helper : EllCalc N; e_tsq : N }.
Arguments mkEll {N}. Arguments e_no_defer {N}. Arguments e_mq {N}. Arguments e_xc {N}.
Arguments e_kappa {N}. Arguments e_helper {N}. Arguments e_tsq {N}.

Section Model.
Context {N : Num}.
Notation ell := (Ell N).

(** ell.rs 31-41 *)
Definition ell_new_with_matrix (kappa : N) (mq xc : Arr N) : ell :=
  mkEll false mq xc kappa (calc_new (a_len xc)) n0.
(** ell.rs 55-57 *)
Definition ell_new (val xc : Arr N) : res ell :=
  m <- a_from_diag val ;; Ok (ell_new_with_matrix n1 m xc).
(** ell.rs 71-73 *)
Definition ell_new_with_scalar (val : N) (xc : Arr N) : res ell :=
  m <- a_eye (a_len xc) ;; Ok (ell_new_with_matrix val m xc).
(** ell.rs 76-78 *)
Definition ell_from_covariance (cov xc : Arr N) : ell := ell_new_with_matrix n1 cov xc.

(** ell.rs 110-113: the centre loop *)
Definition ell_move_xc (n : nat) (rho_over_omega : N) (grad_t : Arr N) (xc : Arr N) : res (Arr N) :=
  for_range 0 n (fun i xc =>
    x <- a_idx xc i ;; g <- a_idx grad_t i ;; a_setidx xc i (x -! rho_over_omega *! g)) xc.

(** ell.rs 115-126: the shape-matrix loop on the flat buffer *)
Definition ell_shrink_mq (n : nat) (ratio : N) (grad_t : Arr N) (d : list N) : res (list N) :=
  for_range 0 n (fun i d =>
    gi <- a_idx grad_t i ;;
    let r_qg := ratio *! gi in
    for_range 0 (i + 1) (fun j d =>
      gj <- a_idx grad_t j ;;
      let update := r_qg *! gj in
      let idx := i * n + j in
      v <- rd d idx ;;
      d <- wr d idx (v -! update) ;;
      if negb (i =? j) then (w <- rd d idx ;; wr d (j * n + i) w) else Ok d) d) d.

(** ell.rs 97-137 *)
Definition ell_update_core (e : ell) (grad : Arr N) (strategy : N -> cutres N)
  : res (ell * CutStatus) :=
  grad_t <- a_dot_mv (e_mq e) grad ;;
  omega <- a_dot grad grad_t ;;
  let tsq := e_kappa e *! omega in
  let e := mkEll (e_no_defer e) (e_mq e) (e_xc e) (e_kappa e) (e_helper e) tsq in
  let '(status, (rho, sigma, delta)) := strategy tsq in
  if negb (is_success status) then Ok (e, status)
  else
    let n := a_len (e_xc e) in
    let rho_over_omega := rho /! omega in
    xc <- ell_move_xc n rho_over_omega grad_t (e_xc e) ;;
    let ratio := sigma /! omega in
    d <- ell_shrink_mq n ratio grad_t (adata (e_mq e)) ;;
    let mq := mkArr d (arows (e_mq e)) (acols (e_mq e)) in
    let kappa := e_kappa e *! delta in
    if e_no_defer e
    then Ok (mkEll true (a_muls mq kappa) xc n1 (e_helper e) tsq, status)
    else Ok (mkEll false mq xc kappa (e_helper e) tsq, status).

(** ell.rs 182-186: trait CutType *)
Record CutType (C : Type) := mkCutType {
  call_bias : EllCalc N -> C -> N -> cutres N;
  call_central : EllCalc N -> C -> N -> cutres N;
  call_q : EllCalc N -> C -> N -> cutres N }.
Arguments call_bias {C}. Arguments call_central {C}. Arguments call_q {C}.
(** ell.rs 188-198 *)
Definition single_cut : CutType (SingleCut N) := {|
  call_bias := fun h b tsq => calc_bias_cut h (sc_beta b) tsq;
  call_central := fun h _ tsq => calc_central_cut h tsq;
  call_q := fun h b tsq => calc_bias_cut_q h (sc_beta b) tsq |}.
(** ell.rs 200-210 *)
Definition parallel_cut : CutType (ParallelCut N) := {|
  call_bias := fun h b tsq => calc_single_or_parallel_bias_cut h b tsq;
  call_central := fun h b tsq => calc_single_or_parallel_central_cut h b tsq;
  call_q := fun h b tsq => calc_single_or_parallel_q h b tsq |}.

(** ell.rs 140-180 and 212-229: SearchSpace for Ell, through UpdateByCutChoice *)
Definition ell_update_bias {C} (ct : CutType C) (e : ell) (cut : Arr N * C) :=
  ell_update_core e (fst cut) (fun tsq => call_bias ct (e_helper e) (snd cut) tsq).
Definition ell_update_central {C} (ct : CutType C) (e : ell) (cut : Arr N * C) :=
  ell_update_core e (fst cut) (fun tsq => call_central ct (e_helper e) (snd cut) tsq).
Definition ell_update_q {C} (ct : CutType C) (e : ell) (cut : Arr N * C) :=
  ell_update_core e (fst cut) (fun tsq => call_q ct (e_helper e) (snd cut) tsq).
Definition ell_set_xc (e : ell) (x : Arr N) : ell :=
  mkEll (e_no_defer e) (e_mq e) x (e_kappa e) (e_helper e) (e_tsq e).

Definition ell_space {C} (ct : CutType C) : SearchSpace N (Arr N) C ell := {|
  sp_xc := e_xc; sp_tsq := e_tsq;
  sp_update_bias_cut := ell_update_bias ct;
  sp_update_central_cut := ell_update_central ct;
  sp_update_q := ell_update_q ct;
  sp_set_xc := ell_set_xc |}.
End Model.
Arguments CutType : clear implicits.
Arguments call_bias {N C}. Arguments call_central {N C}. Arguments call_q {N C}.
