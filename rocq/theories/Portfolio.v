(** Model of the oracle of /repo/examples/portfolio_optimization.rs. *)
From Coq Require Import ZArith List Bool Arith.
From Verif Require Import Num Res Arr CuttingPlane.
Import ListNotations.

(** examples/portfolio_optimization.rs 5-10 *)
Record Portfolio (N : Num) := mkPortfolio {
  pf_returns : Arr N; pf_risk : Arr N; pf_max_risk : N; pf_budget : N }.
Arguments mkPortfolio {N}. Arguments pf_returns {N}. Arguments pf_risk {N}. Arguments pf_max_risk {N}. Arguments pf_budget {N}.

Section Model.
Context {N : Num}.
Notation arr := (Arr N).

(** examples/portfolio_optimization.rs 30-33, before subtracting the budget *)
Definition pf_sum (xc : arr) : res N :=
  for_range 0 (a_len xc) (fun i s => x <- a_idx xc i ;; Ok (s +! x)) n0.
(** examples/portfolio_optimization.rs 42-47 *)
Definition pf_variance (p : Portfolio N) (xc : arr) : res N :=
  for_range 0 (a_len xc) (fun i r =>
    for_range 0 (a_len xc) (fun j r =>
      x <- a_idx xc i ;; m <- a_idx2 (pf_risk p) i j ;; y <- a_idx xc j ;; Ok (r +! x *! m *! y)) r) n0.
(** examples/portfolio_optimization.rs 50-56 *)
Definition pf_risk_grad (p : Portfolio N) (xc : arr) : res arr :=
  for_range 0 (a_len xc) (fun i g =>
    s <- for_range 0 (a_len xc) (fun j s =>
      a <- a_idx2 (pf_risk p) i j ;; b <- a_idx2 (pf_risk p) j i ;; x <- a_idx xc j ;; Ok (s +! (a +! b) *! x)) n0 ;;
    a_setidx g i s) (a_new (a_len xc)).
(** examples/portfolio_optimization.rs 23-73; the oracle has no changing state *)
Definition pf_assess (p : Portfolio N) (o : unit) (xc : arr) (gamma : N) : res (unit * N * ((arr * SingleCut N) * bool)) :=
  let n := a_len xc in
  let gradient := a_new n in
  s <- pf_sum xc ;;
  let budget_violation := s -! pf_budget p in
  if budget_violation >?! n0 then
    g <- for_range 0 n (fun i g => a_setidx g i n1) gradient ;;
    Ok (tt, gamma, ((g, mkSingle budget_violation), false))
  else
    risk <- pf_variance p xc ;;
    let risk_violation := risk -! pf_max_risk p in
    if risk_violation >?! n0 then
      g <- pf_risk_grad p xc ;;
      Ok (tt, gamma, ((g, mkSingle risk_violation), false))
    else
      ret <- a_dot (pf_returns p) xc ;;
      let obj := -! ret in
      if obj <?! gamma then
        g <- for_range 0 n (fun i g => r <- a_idx (pf_returns p) i ;; a_setidx g i (-! r)) gradient ;;
        Ok (tt, obj, ((g, mkSingle n0), true))
      else Ok (tt, gamma, ((gradient, mkSingle n0), false)).
End Model.
