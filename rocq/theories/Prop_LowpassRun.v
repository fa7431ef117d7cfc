(** C93: whole runs of lowpass designs over the extended reals.
    C94: a run on an ellipsoid panics only if the oracle does. *)
From Coq Require Import ZArith Reals List Bool Arith Lia Lra.
From Verif Require Import Num Res Arr ArrLemmas CuttingPlane EllCalc Ell EllRun EllLemmas Spec RealLin EllSpec EllReal EllMore Det RunSpec LmiSpec ExtSpec ExtRunSpec
  Lowpass LowpassSpec LowpassCase LowpassRunSpec LowpassRun LowpassDesign RunTotal RunTotalEx Examples ExSpec Profit ProfitSpec Squares Replay.
Import ListNotations.
Open Scope R_scope.

(** ** C93 *)
(** from any proper ellipsoid that contains a ball of filters meeting level [s]: the
    optimiser reports a filter better than [s] *)
Theorem C93_optimum : forall f, (f_q f < f_m f)%nat -> forall (opt : Options RNum) o (e : Ell RNum) (gamma s : R) z r,
  (2 <= f_n f)%nat -> unit_column f -> lw_about o f -> proper (f_n f) e -> vecn (f_n f) (e_xc e) ->
  0 < r -> s <= gamma -> (forall y, ball (f_n f) z r y -> meets f s y /\ pts (f_n f) e y) ->
  0 < tolerance opt <= r * r -> (INR (f_n f) + 1) * ln (vol2 (f_n f) e / (r * r) ^ f_n f) < INR (max_iters opt) ->
  exists o' eE (level : R) (x : Arr RNum) k,
    cutting_plane_optim (lowpass_assess (N := ENum)) (ell_space (N := ENum) parallel_cut) (fin_options opt) o (fin_ell e) (Fin gamma) = Ok (o', eE, Fin level, (Some (fin_arr x), k)) /\
    is_vec (f_n f) x /\ stop_level f (xvec x) level /\ meets f level (xvec x) /\ level < s.
Proof. exact low_converges. Qed.
Print Assumptions C93_optimum.
(** from any valid ellipsoid: no panic; nothing that meets the reported level is
    lost; a run stopped by a rejected cut proves that nothing in the start meets it *)
Theorem C93_certificate : forall f, (f_q f < f_m f)%nat -> forall (opt : Options RNum) o (e : Ell RNum) (gamma : R),
  (2 <= f_n f)%nat -> lw_about o f -> valid (f_n f) e -> vecn (f_n f) (e_xc e) -> 0 < tolerance opt ->
  exists o' eE (e' : Ell RNum) (level : R) ans k,
    cutting_plane_optim (lowpass_assess (N := ENum)) (ell_space (N := ENum) parallel_cut) (fin_options opt) o (fin_ell e) (Fin gamma) = Ok (o', eE, Fin level, (option_map fin_arr ans, k)) /\
    match ans with None => level = gamma | Some x => is_vec (f_n f) x /\ stop_level f (xvec x) level /\ meets f level (xvec x) end /\
    (e_tsq e' <> 0 -> eE = fin_ell e' /\ forall y, meets f level y -> pts (f_n f) e y -> pts (f_n f) e' y) /\
    ((k < max_iters opt)%nat -> tolerance opt <= e_tsq e' -> forall y, pts (f_n f) e y -> ~ meets f level y).
Proof. exact low_certificate. Qed.
Print Assumptions C93_certificate.
(** the same for the feasibility driver, at the level held by the oracle *)
Theorem C93_feasible : forall f sp (opt : Options RNum) o (e : Ell RNum) z r,
  (2 <= f_n f)%nat -> unit_column f -> lw_about o f /\ lw_sp o = Fin sp -> proper (f_n f) e -> vecn (f_n f) (e_xc e) ->
  0 < r -> (forall y, ball (f_n f) z r y -> meets f sp y /\ pts (f_n f) e y) ->
  0 < tolerance opt <= r * r -> (INR (f_n f) + 1) * ln (vol2 (f_n f) e / (r * r) ^ f_n f) < INR (max_iters opt) ->
  exists o' eE (x : Arr RNum) k,
    cutting_plane_feas (lowpass_oracle (N := ENum)) (ell_space (N := ENum) parallel_cut) (fin_options opt) o (fin_ell e) = Ok (o', eE, (Some (fin_arr x), k)) /\
    is_vec (f_n f) x /\ meets f sp (xvec x) /\ INR k <= (INR (f_n f) + 1) * ln (vol2 (f_n f) e / (r * r) ^ f_n f).
Proof. exact low_feasible. Qed.
Print Assumptions C93_feasible.
Theorem C93_infeasible : forall f sp (opt : Options RNum) o (e : Ell RNum),
  (2 <= f_n f)%nat -> lw_about o f /\ lw_sp o = Fin sp -> valid (f_n f) e -> vecn (f_n f) (e_xc e) -> 0 < tolerance opt ->
  exists o' eE (e' : Ell RNum) ans k,
    cutting_plane_feas (lowpass_oracle (N := ENum)) (ell_space (N := ENum) parallel_cut) (fin_options opt) o (fin_ell e) = Ok (o', eE, (option_map fin_arr ans, k)) /\
    (e_tsq e' <> 0 -> eE = fin_ell e' /\ forall y, meets f sp y -> pts (f_n f) e y -> pts (f_n f) e' y) /\
    (ans = None -> (k < max_iters opt)%nat -> tolerance opt <= e_tsq e' -> forall y, meets f sp y -> ~ pts (f_n f) e y).
Proof. exact low_infeasible. Qed.
Print Assumptions C93_infeasible.
(** all calls of a user: LowpassOracle::new, Ell::new_with_scalar at the origin, a
    driver.  A filter [z] that meets level [s] with room [d] is beaten. *)
Theorem C93_design : forall (opt : Options RNum) n wp ws lp up sp val,
  (2 <= n)%nat -> (Z.of_nat (15 * n) <= 2 ^ 31)%Z -> 0 <= wp -> wp <= ws -> ws < 1 -> 0 < val ->
  exists o p q eE, lowpass_new (N := ENum) n (Fin wp) (Fin ws) (Fin lp) (Fin up) (Fin sp) = Ok o /\ band (15 * n) wp p /\ band (15 * n) ws q /\ (0 < p <= q)%nat /\ (q < 15 * n)%nat /\
    ell_new_with_scalar (N := ENum) (Fin val) (a_new n) = Ok eE /\
    forall (s d : R) z, let f := lowpass_problem n p q lp up in
      0 < d -> s <= sp -> slack f s d z -> 2 * dot n z z + d * d / (2 * INR n) <= val ->
      0 < tolerance opt <= d * d / (4 * INR n) -> (INR n + 1) * (INR n * ln (val / (d * d / (4 * INR n)))) < INR (max_iters opt) ->
      (exists o' eE' (level : R) (x : Arr RNum) k,
        cutting_plane_optim (lowpass_assess (N := ENum)) (ell_space (N := ENum) parallel_cut) (fin_options opt) o eE (Fin sp) = Ok (o', eE', Fin level, (Some (fin_arr x), k)) /\
        is_vec n x /\ stop_level f (xvec x) level /\ meets f level (xvec x) /\ level < s) /\
      (exists o' eE' (x : Arr RNum) k,
        cutting_plane_feas (lowpass_oracle (N := ENum)) (ell_space (N := ENum) parallel_cut) (fin_options opt) o eE = Ok (o', eE', (Some (fin_arr x), k)) /\
        is_vec n x /\ meets f sp (xvec x) /\ INR k <= (INR n + 1) * (INR n * ln (val / (d * d / (4 * INR n))))).
Proof. exact design. Qed.
Print Assumptions C93_design.
(** case: two coefficients and the default options *)
Example C93_case : exists o p q eE, lowpass_new (N := ENum) 2 (Fin (1 / 4)) (Fin (1 / 2)) (Fin (1 / 4)) (Fin 1) (Fin 1) = Ok o /\
  ell_new_with_scalar (N := ENum) (Fin 40) (a_new 2) = Ok eE /\ let f := lowpass_problem 2 p q (1 / 4) 1 in
  exists o' eE' (level : R) (x : Arr RNum) k,
    cutting_plane_optim (lowpass_assess (N := ENum)) (ell_space (N := ENum) parallel_cut) (fin_options options_default) o eE (Fin 1) = Ok (o', eE', Fin level, (Some (fin_arr x), k)) /\
    is_vec 2 x /\ stop_level f (xvec x) level /\ meets f level (xvec x) /\ level < 5 / 8.
Proof. exact case_runs. Qed.

(** ** C94, for every number type *)
Theorem C94_feas : forall (N : Num) C O (ct : CutType N C) n (P : O -> Prop) (ora : OracleFeas N (Arr N) C O) opt o e,
  feas_answers n P ora -> P o -> good n e ->
  exists o' e' ans k, cutting_plane_feas ora (ell_space ct) opt o e = Ok (o', e', (ans, k)) /\ P o' /\ good n e' /\ match ans with None => True | Some x => is_vec n x end.
Proof. exact @feas_runs. Qed.
Print Assumptions C94_feas.
Theorem C94_optim : forall (N : Num) C O (ct : CutType N C) n (P : O -> N -> Prop) (ora : OracleOptim N (Arr N) C O) opt o e gamma,
  optim_answers n P ora -> P o gamma -> good n e ->
  exists o' e' gamma' ans k, cutting_plane_optim ora (ell_space ct) opt o e gamma = Ok (o', e', gamma', (ans, k)) /\ P o' gamma' /\ good n e'.
Proof. exact @optim_runs. Qed.
Print Assumptions C94_optim.
Theorem C94_optim_q : forall (N : Num) C O (ct : CutType N C) n (P : O -> N -> Prop) (ora : OracleOptimQ N (Arr N) C O) opt o e gamma,
  optim_q_answers n P ora -> P o gamma -> good n e ->
  exists o' e' gamma' ans k, cutting_plane_optim_q ora (ell_space ct) opt o e gamma = Ok (o', e', gamma', (ans, k)) /\ P o' gamma' /\ good n e'.
Proof. exact @optim_q_runs. Qed.
Print Assumptions C94_optim_q.
Theorem C94_bsearch : forall (N : Num) C O (ct : CutType N C) n (P : O -> Prop) (ora : OracleFeas N (Arr N) C O) opt b intrvl,
  feas_answers n P ora -> (forall o ga, P o -> P (of_update ora o ga)) -> P (ba_omega b) -> good n (ba_space b) ->
  (bsearch (assess_bs ora (ell_space ct)) opt b intrvl = Panic <-> (fst intrvl <=?! snd intrvl) = false).
Proof. exact @bsearch_runs. Qed.
Print Assumptions C94_bsearch.
(** the oracles of the repository, with any numbers *)
Theorem C94_oracles : forall N : Num,
  optim_answers 2 (fun _ _ => True) (ex1_assess (N := N)) /\
  optim_answers 2 (fun i _ => (-1 <= i < 3)%Z) (ex1rr_assess (N := N)) /\
  feas_answers 2 (fun o => (-1 <= ex3_idx o < 4)%Z) (ex3_oracle (N := N)) /\
  optim_answers 2 (fun i _ => (-1 <= i < 4)%Z) (ex4_assess (N := N)) /\
  optim_answers 2 (fun i _ => (-1 <= i < 2)%Z) (qcvx_assess (N := N)) /\
  optim_answers 2 (fun p _ => profit_ok p) (profit_assess (N := N)) /\
  optim_answers 2 (fun r _ => rb_ok r) (profit_rb_assess (N := N)) /\
  optim_q_answers 2 (fun q _ => profit_ok (pq_omega q) /\ two (pq_yd q)) (profit_q_assess (N := N)) /\
  optim_answers 2 (fun _ _ => True) (sq2_assess (N := N)) /\
  (forall n target, length (adata target) = n -> optim_answers n (fun _ _ => True) (sqt_assess (N := N) target)).
Proof.
  exact (fun N => conj ex1_answers (conj ex1rr_answers (conj ex3_answers (conj ex4_answers (conj qcvx_answers (conj profit_answers (conj profit_rb_answers (conj profit_q_answers (conj sq2_answers sqt_answers))))))))).
Qed.
Print Assumptions C94_oracles.
(** case: binary64, a start full of NaN, and a binary search on an interval with a NaN end *)
Example C94_case : match ell_new_with_scalar (N := F) (nsub (n := F) inf inf) (mkArr (N := F) [nsub (n := F) inf inf; inf] 2 0) with
  | Ok e => match cutting_plane_optim (ex1_assess (N := F)) (ell_space (N := F) single_cut) (opts (-20)) tt e inf with Ok (_, _, _, (_, k)) => True | Panic => False end /\
            match bsearch (assess_bs (ex3_oracle (N := F)) (ell_space (N := F) single_cut)) (opts (-20)) (mkAdaptor (ex3_default (N := F)) e (opts (-20))) (inf, nsub (n := F) inf inf) with Ok _ => False | Panic => True end
  | Panic => False end.
Proof. vm_compute. auto. Qed.
