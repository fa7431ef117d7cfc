(** Property C87: the portfolio oracle of examples/portfolio_optimization.rs.
    Vocabulary: PortfolioSpec.v, RunSpec.v. *)
From Coq Require Import ZArith Reals List Arith Lia Lra.
From Verif Require Import Num Res Arr ArrLemmas CuttingPlane EllCalc Ell EllRun Spec EllSpec EllCuts EllMore EllWitness RunSpec RunProofs Replay Portfolio PortfolioSpec PortfolioProofs PortfolioWitness PortfolioCase.
Open Scope R_scope.

(** ** C87: what the oracle answers, what a run reports, and when it gives up *)
Theorem C87_answer : forall n (p : Portfolio RNum), assets n p -> forall o (x : Arr RNum) (gamma : R), vecn n x -> exists gamma' g beta sh,
  pf_assess p o x gamma = Ok (tt, gamma', ((g, mkSingle beta), sh)) /\ vecn n g /\
  (pf_budget p < total n (coords x) -> gamma' = gamma /\ sh = false /\ beta = total n (coords x) - pf_budget p /\ forall i, (i < n)%nat -> coords g i = 1) /\
  (total n (coords x) <= pf_budget p -> pf_max_risk p < quad n (riskm n p) (coords x) ->
     gamma' = gamma /\ sh = false /\ beta = quad n (riskm n p) (coords x) - pf_max_risk p /\
     forall i, (i < n)%nat -> coords g i = Rsum n (fun j => (riskm n p i j + riskm n p j i) * coords x j)) /\
  (admissible n p (coords x) -> shortfall n p (coords x) < gamma ->
     gamma' = shortfall n p (coords x) /\ sh = true /\ beta = 0 /\ forall i, (i < n)%nat -> coords g i = - coords (pf_returns p) i) /\
  (admissible n p (coords x) -> gamma <= shortfall n p (coords x) -> gamma' = gamma /\ sh = false /\ beta = 0 /\ forall i, (i < n)%nat -> coords g i = 0).
Proof. exact assess_R. Qed.
Print Assumptions C87_answer.
Theorem C87_reports : forall (N : Num) n (p : Portfolio N), assets n p ->
  forall S (sp : SearchSpace N (Arr N) (SingleCut N) S) (opt : Options N) o s gamma o' s' gamma' xb k,
  cutting_plane_optim (pf_assess p) sp opt o s gamma = Ok (o', s', gamma', (xb, k)) ->
  match xb with None => gamma' = gamma | Some x => gamma' = loss n p x /\ accepted n p x end.
Proof. exact @run_reports. Qed.
Print Assumptions C87_reports.
Theorem C87_run : forall n (p : Portfolio RNum) (opt : Options RNum) o (e : Ell RNum) (gamma : R) o' e' (gamma' : R) ans k,
  (2 <= n)%nat -> assets n p -> psd n (riskm n p) -> valid n e -> vecn n (e_xc e) -> 0 < tolerance opt ->
  cutting_plane_optim (pf_assess p) (ell_space (N := RNum) single) opt o e gamma = Ok (o', e', gamma', (ans, k)) ->
  (e_tsq e' <> 0 \/ e' = e -> forall y, no_worse n p y gamma' -> pts n e y -> pts n e' y) /\
  ((k < max_iters opt)%nat -> tolerance opt <= e_tsq e' -> forall y, pts n e y -> ~ no_worse n p y gamma').
Proof. exact (fun n p opt o e gamma o' e' gamma' ans k Hn Ha Hq => optim_keeps single single_sat single_deep single_step n (fun _ _ => True) Hn (no_worse n p) (pf_assess p) opt o e gamma o' e' gamma' ans k (cuts_valid n p Ha Hq) I). Qed.
Print Assumptions C87_run.
Theorem C87_stuck : forall n (p : Portfolio RNum) (opt : Options RNum) (e : Ell RNum) (gamma : R), assets n p -> valid n e -> vecn n (e_xc e) ->
  admissible n p (centre e) -> gamma <= shortfall n p (centre e) -> (0 < max_iters opt)%nat -> 0 < tolerance opt ->
  exists e', cutting_plane_optim (pf_assess p) (ell_space (N := RNum) single) opt tt e gamma = Ok (tt, e', gamma, (None, 0%nat)) /\ e_tsq e' = 0.
Proof. exact stuck. Qed.
Print Assumptions C87_stuck.
(** The example's own main, in binary64: it stops long before its iteration
    limit with an objective above -0.02226, while the very oracle accepts a mix
    with objective below -0.0262 as an improvement. *)
Theorem C87_example_refuted : exists p : Portfolio F, main_portfolio = Ok p /\ exists y, match main_run p with
    | Ok (_, _, gamma, (Some x, k)) => (k < 1000)%nat /\ @nltb F (flit (-2226) (-5)) gamma = true /\
        match pf_assess (N := F) p tt y gamma with
        | Ok (_, gamma2, (_, true)) => @nltb F gamma2 (flit (-262) (-4)) = true
        | _ => False end
    | _ => False end.
Proof. exact main_refuted. Qed.
Print Assumptions C87_example_refuted.
Example C87_case : assets 2 two /\ psd 2 (riskm 2 two) /\ forall opt : Options RNum, (0 < max_iters opt)%nat -> 0 < tolerance opt ->
  (exists e', cutting_plane_optim (pf_assess two) (ell_space (N := RNum) single) opt tt disc 0 = Ok (tt, e', 0, (None, 0%nat))) /\
  exists y, pts 2 disc y /\ admissible 2 two y /\ shortfall 2 two y = -1.
Proof. exact (conj two_assets (conj two_psd two_exact)). Qed.
