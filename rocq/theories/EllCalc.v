(** Model of /repo/src/ell_calc.rs: the (rho, sigma, delta) formulas. *)
From Coq Require Import ZArith List Bool.
From Verif Require Import Num Res CuttingPlane.

Section Model.
Context {N : Num}.

(** ell_calc.rs 22-29 *)
Record EllCalcCore := mkCore {
  c_n_f : N; c_n_plus_1 : N; c_half_n : N; c_inv_n : N; c_cst1 : N; c_cst2 : N }.

(** ell_calc.rs 61-78 *)
Definition core_new (n_f : N) : EllCalcCore :=
  let n_plus_1 := n_f +! n1 in
  let half_n := n_f /! n2 in
  let inv_n := n1 /! n_f in
  let n_sq := n_f *! n_f in
  let cst0 := n1 /! (n_f +! n1) in
  let cst1 := n_sq /! (n_sq -! n1) in
  let cst2 := n2 *! cst0 in
  mkCore n_f n_plus_1 half_n inv_n cst1 cst2.

(** ell_calc.rs 152-171 *)
Definition core_parallel_bias_cut_fast_old (c : EllCalcCore) (beta0 beta1 tsq b0b1 eta : N)
  : N * N * N :=
  let bavg := (beta0 +! beta1) *! nhalf in
  let bavgsq := bavg *! bavg in
  let half_sum := (tsq +! b0b1) *! nhalf +! c_n_f c *! bavgsq in
  let kappa := half_sum +! nsqrt (half_sum *! half_sum -! eta *! c_n_plus_1 c *! bavgsq) in
  let inv_mu_plus_1 := eta /! kappa in
  let inv_mu := eta /! (kappa -! eta) in
  let rho := bavg *! inv_mu_plus_1 in
  let sigma := inv_mu_plus_1 in
  let delta := (tsq +! inv_mu *! (bavgsq *! inv_mu_plus_1 -! b0b1)) /! tsq in
  (rho, sigma, delta).

(** ell_calc.rs 218-240 *)
Definition core_parallel_bias_cut_fast (c : EllCalcCore) (beta0 beta1 tsq b0b1 eta : N)
  : N * N * N :=
  let b0sq := beta0 *! beta0 in
  let b1sq := beta1 *! beta1 in
  let zeta0 := tsq -! b0sq in
  let zeta1 := tsq -! b1sq in
  let temp := c_half_n c *! (b1sq -! b0sq) in
  let xi := nsqrt (zeta0 *! zeta1 +! temp *! temp) in
  let bsum := beta0 +! beta1 in
  let bsumsq := bsum *! bsum in
  let sigma := n2 *! eta /! (tsq +! b0b1 +! c_half_n c *! bsumsq +! xi) in
  let rho := sigma *! (beta0 +! beta1) /! n2 in
  let delta := c_cst1 c *! ((zeta0 +! zeta1) /! n2 +! xi /! c_n_f c) /! tsq in
  (rho, sigma, delta).

(** ell_calc.rs 316-320 *)
Definition core_parallel_bias_cut (c : EllCalcCore) (beta0 beta1 tsq : N) : N * N * N :=
  let b0b1 := beta0 *! beta1 in
  let eta := tsq +! c_n_f c *! b0b1 in
  core_parallel_bias_cut_fast c beta0 beta1 tsq b0b1 eta.

(** ell_calc.rs 383-394 *)
Definition core_parallel_central_cut (c : EllCalcCore) (beta1 tsq : N) : N * N * N :=
  let b1sq := beta1 *! beta1 in
  let a1sq := b1sq /! tsq in
  let half_val := c_half_n c *! a1sq in
  let root := half_val +! nsqrt (n1 -! a1sq +! half_val *! half_val) in
  let r_plus_1 := root +! n1 in
  let rho := beta1 /! r_plus_1 in
  let sigma := n2 /! r_plus_1 in
  let delta := root /! (root -! c_inv_n c) in
  (rho, sigma, delta).

(** ell_calc.rs 453-459 *)
Definition core_bias_cut_fast (c : EllCalcCore) (beta tau eta : N) : N * N * N :=
  let rho := eta /! c_n_plus_1 c in
  let sigma := n2 *! rho /! (tau +! beta) in
  let alpha := beta /! tau in
  let delta := c_cst1 c *! (n1 -! alpha *! alpha) in
  (rho, sigma, delta).

(** ell_calc.rs 550-553 *)
Definition core_bias_cut (c : EllCalcCore) (beta tau : N) : N * N * N :=
  let eta := tau +! c_n_f c *! beta in
  core_bias_cut_fast c beta tau eta.

(** ell_calc.rs 605-611 *)
Definition core_central_cut (c : EllCalcCore) (tsq : N) : N * N * N :=
  let sigma := c_cst2 c in
  let rho := nsqrt tsq /! c_n_plus_1 c in
  let delta := c_cst1 c in
  (rho, sigma, delta).

(** ell_calc.rs 627-631 *)
Record EllCalc := mkCalc { ec_n_f : N; ec_helper : EllCalcCore; ec_use_parallel_cut : bool }.

(** ell_calc.rs 653-662 *)
Definition calc_new (n : nat) : EllCalc :=
  let n_f := nN n in mkCalc n_f (core_new n_f) true.

Definition cutres := (CutStatus * (N * N * N))%type.
Definition z3 : N * N * N := (n0, n0, n0).

(** ell_calc.rs 870-877 *)
Definition calc_bias_cut (e : EllCalc) (beta tsq : N) : cutres :=
  if tsq <?! beta *! beta then (NoSoln, z3)
  else let tau := nsqrt tsq in (Success, core_bias_cut (ec_helper e) beta tau).

(** ell_calc.rs 892-908 *)
Definition calc_bias_cut_q (e : EllCalc) (beta tsq : N) : cutres :=
  let tau := nsqrt tsq in
  if tau <?! beta then (NoSoln, z3)
  else
    let eta := tau +! ec_n_f e *! beta in
    if eta <?! n0 then (NoEffect, (n0, n0, n1))
    else (Success, core_bias_cut_fast (ec_helper e) beta tau eta).

(** ell_calc.rs 928-931 *)
Definition calc_central_cut (e : EllCalc) (tsq : N) : cutres :=
  (Success, core_central_cut (ec_helper e) tsq).

(** ell_calc.rs 751-769 *)
Definition calc_parallel_bias_cut (e : EllCalc) (beta0 beta1 tsq : N) : cutres :=
  if beta1 <?! beta0 then (NoSoln, z3)
  else if ((beta1 >?! n0) && (tsq <=?! beta1 *! beta1)) || negb (ec_use_parallel_cut e)
  then calc_bias_cut e beta0 tsq
  else (Success, core_parallel_bias_cut (ec_helper e) beta0 beta1 tsq).

(** ell_calc.rs 787-812 *)
Definition calc_parallel_q (e : EllCalc) (beta0 beta1 tsq : N) : cutres :=
  if beta1 <?! beta0 then (NoSoln, z3)
  else if ((beta1 >?! n0) && (beta1 *! beta1 >=?! tsq)) || negb (ec_use_parallel_cut e)
  then calc_bias_cut_q e beta0 tsq
  else
    let b0b1 := beta0 *! beta1 in
    let eta := tsq +! ec_n_f e *! b0b1 in
    if eta <=?! n0 then (NoEffect, (n0, n0, n1))
    else (Success, core_parallel_bias_cut_fast (ec_helper e) beta0 beta1 tsq b0b1 eta).

(** ell_calc.rs 836-847 *)
Definition calc_parallel_central_cut (e : EllCalc) (beta1 tsq : N) : cutres :=
  if beta1 <?! n0 then (NoSoln, z3)
  else if (tsq <=?! beta1 *! beta1) || negb (ec_use_parallel_cut e)
  then calc_central_cut e tsq
  else (Success, core_parallel_central_cut (ec_helper e) beta1 tsq).

(** ell_calc.rs 671-682 *)
Definition calc_single_or_parallel_bias_cut (e : EllCalc) (b : ParallelCut N) (tsq : N) : cutres :=
  match pc_beta1 b with
  | Some beta1 => calc_parallel_bias_cut e (pc_beta0 b) beta1 tsq
  | None => calc_bias_cut e (pc_beta0 b) tsq
  end.
(** ell_calc.rs 689-700 *)
Definition calc_single_or_parallel_central_cut (e : EllCalc) (b : ParallelCut N) (tsq : N) : cutres :=
  match pc_beta1 b with
  | Some beta1 => calc_parallel_central_cut e beta1 tsq
  | None => calc_central_cut e tsq
  end.
(** ell_calc.rs 707-718 *)
Definition calc_single_or_parallel_q (e : EllCalc) (b : ParallelCut N) (tsq : N) : cutres :=
  match pc_beta1 b with
  | Some beta1 => calc_parallel_q e (pc_beta0 b) beta1 tsq
  | None => calc_bias_cut_q e (pc_beta0 b) tsq
  end.
End Model.
Arguments EllCalcCore : clear implicits.
Arguments EllCalc : clear implicits.
Arguments cutres : clear implicits.
