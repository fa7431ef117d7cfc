(** C52-C56: the profit oracles. *)
From Coq Require Import ZArith Reals List Bool.
From Flocq Require Import Core.
From Verif Require Import Num Res Arr CuttingPlane Spec LmiSpec ExSpec Profit ProfitSpec ProfitProofs ProfitReal ProfitMore ProfitQ ProfitRun ProfitWitness ExtSpec ExtOracles ProfitExt.
Import ListNotations.
Open Scope R_scope.

(** ** C52: any number type, any state calls can produce *)
Theorem C52_new_ok : forall (N : Num) unit_price scale limit (elast price_out : Arr N), two elast -> two price_out ->
  profit_ok (profit_new unit_price scale limit elast price_out).
Proof. exact @profit_new_ok. Qed.
Print Assumptions C52_new_ok.
Theorem C52_exhaustive : forall (N : Num) (p : Profit N) y gamma, profit_ok p -> two y ->
  exists p' gamma' g beta b, profit_assess p y gamma = Ok (p', gamma', ((g, mkSingle beta), b)) /\
    profit_ok p' /\ same_params p p' /\ two g /\ decides (v_tests p y gamma) (v_profit p y) gamma gamma' beta b.
Proof. exact @profit_assess_ok. Qed.
Print Assumptions C52_exhaustive.
Example C52_case : (exists p' g, profit_assess (N := RNum) case_oracle (rv 0 0) 0 = Ok (p', 65, ((g, mkSingle (N := RNum) 0), true))) /\
  (exists p' gamma' g beta, profit_assess (N := RNum) case_oracle (rv 1 0) 0 = Ok (p', gamma', ((g, mkSingle (N := RNum) beta), false)) /\ 0 < beta).
Proof. exact (conj case_yes case_no). Qed.

(** ** C53 *)
Theorem C53_valid_cuts : forall (p : Profit RNum) m y (gamma : R), profit_ok p -> about p m -> sane m -> two y -> 0 <= gamma ->
  exists p' gamma' g beta b, profit_assess (N := RNum) p y gamma = Ok (p', gamma', ((g, mkSingle (N := RNum) beta), b)) /\
    profit_ok p' /\ same_params p p' /\ gamma <= gamma' /\
    good_answer (mfeas m) (mprofit m) (xvec y) gamma gamma' g beta b.
Proof. exact profit_good. Qed.
Print Assumptions C53_valid_cuts.
Theorem C53_new_about : forall unit_price scale limit (elast price_out : Arr RNum),
  about (profit_new (N := RNum) unit_price scale limit elast price_out) (mkMarket (unit_price * scale) limit (xvec elast) (xvec price_out)).
Proof. exact profit_new_about. Qed.
Print Assumptions C53_new_about.
Theorem C53_negative_gamma_refuted : exists unit_price scale limit elast price_out y (gamma : R) p' gamma' g beta b u,
  let m := mkMarket (unit_price * scale) limit (xvec elast) (xvec price_out) in
  two elast /\ two price_out /\ two y /\ sane m /\ gamma < 0 /\
  profit_assess (N := RNum) (profit_new (N := RNum) unit_price scale limit elast price_out) y gamma = Ok (p', gamma', ((g, mkSingle (N := RNum) beta), b)) /\
  mfeas m (u 0%nat) (u 1%nat) /\ gamma' < mprofit m (u 0%nat) (u 1%nat) /\
  0 < dot 2 (xvec g) (fun i => u i - xvec y i) + beta.
Proof. exact profit_negative. Qed.
Print Assumptions C53_negative_gamma_refuted.
Example C53_case : profit_ok case_oracle /\ about case_oracle case_market /\ sane case_market.
Proof. exact case_ok. Qed.

(** ** C54: also for negative gamma, as long as the logarithm is defined *)
Theorem C54_gamma_is_profit : forall (p : Profit RNum) m y (gamma : R), profit_ok p -> about p m -> sane m -> two y ->
  0 < gamma + (m_p m 0%nat * exp (xvec y 0%nat) + m_p m 1%nat * exp (xvec y 1%nat)) ->
  exists p' gamma' g beta b, profit_assess (N := RNum) p y gamma = Ok (p', gamma', ((g, mkSingle (N := RNum) beta), b)) /\
    gamma <= gamma' /\
    (b = true <-> mfeas m (xvec y 0%nat) (xvec y 1%nat) /\ gamma <= mprofit m (xvec y 0%nat) (xvec y 1%nat)) /\
    (b = true -> gamma' = mprofit m (xvec y 0%nat) (xvec y 1%nat) /\ beta = 0) /\ (b = false -> gamma' = gamma /\ 0 < beta).
Proof. exact profit_decides. Qed.
Print Assumptions C54_gamma_is_profit.
(** at every level, infinite ones included, in arithmetic with infinities and NaN *)
Theorem C54_any_level : forall (p : Profit RNum) m y gamma, profit_ok p -> about p m -> sane m -> two y -> gamma <> Nan ->
  exists p' gamma' g beta b, profit_assess (N := ENum) (fin_profit p) (fin_arr y) gamma = Ok (p', gamma', ((g, mkSingle (N := ENum) beta), b)) /\
    profit_ok p' /\ same_params (fin_profit p) p' /\ two g /\
    (b = true <-> mfeas m (xvec y 0%nat) (xvec y 1%nat) /\ reaches gamma (mprofit m (xvec y 0%nat) (xvec y 1%nat))) /\
    (b = true -> gamma' = Fin (mprofit m (xvec y 0%nat) (xvec y 1%nat)) /\ beta = Fin 0) /\ (b = false -> gamma' = gamma /\ (beta = PInf \/ exists r, beta = Fin r /\ 0 < r)).
Proof. exact profit_any_level. Qed.
Print Assumptions C54_any_level.
(** from minus infinity the first feasible point is an improvement *)
Example C54_first_point : forall (p : Profit RNum) m y, profit_ok p -> about p m -> sane m -> two y -> mfeas m (xvec y 0%nat) (xvec y 1%nat) ->
  exists p' g, profit_assess (N := ENum) (fin_profit p) (fin_arr y) NInf = Ok (p', Fin (mprofit m (xvec y 0%nat) (xvec y 1%nat)), ((g, mkSingle (N := ENum) (Fin 0)), true)).
Proof. exact any_level_case. Qed.
(** a whole optimisation, with any search space *)
Theorem C54_run : forall (S : Type) (sp : SearchSpace RNum (Arr RNum) (SingleCut RNum) S) opt (p : Profit RNum) m s (gamma : R) p' s' gamma' x k,
  profit_ok p -> about p m -> sane m ->
  cutting_plane_optim (N := RNum) (profit_assess (N := RNum)) sp opt p s gamma = Ok (p', s', gamma', (Some x, k)) ->
  two x /\ mfeas m (xvec x 0%nat) (xvec x 1%nat) /\ gamma' = mprofit m (xvec x 0%nat) (xvec x 1%nat).
Proof. exact @profit_best_R. Qed.
Print Assumptions C54_run.
Theorem C54_run_any : forall (N : Num) (S : Type) (sp : SearchSpace N (Arr N) (SingleCut N) S) opt (p : Profit N) s gamma p' s' gamma' x k, profit_ok p ->
  cutting_plane_optim profit_assess sp opt p s gamma = Ok (p', s', gamma', (Some x, k)) ->
  same_params p p' /\ two x /\ gamma' = v_profit p x /\ (at_ x 0 -! p_log_k p >?! n0) = false.
Proof. exact @profit_best. Qed.
Print Assumptions C54_run_any.

(** ** C55 *)
Theorem C55_robust : forall (r : ProfitRb RNum) b y (gamma : R), rb_ok r -> rb_about r b -> box_sane b -> two y -> 0 <= gamma ->
  exists r' gamma' g beta s, profit_rb_assess (N := RNum) r y gamma = Ok (r', gamma', ((g, mkSingle (N := RNum) beta), s)) /\
    rb_ok r' /\ rb_about r' b /\ gamma <= gamma' /\ two g /\
    (s = true <-> robust b gamma (xvec y 0%nat) (xvec y 1%nat)) /\
    (s = true -> beta = 0 /\ robust b gamma' (xvec y 0%nat) (xvec y 1%nat) /\ exists m, in_box b m /\ gamma' = mprofit m (xvec y 0%nat) (xvec y 1%nat)) /\
    (s = false -> gamma' = gamma /\ 0 < beta) /\
    valid_cut 2 (xvec g) (xvec y) beta (fun u => robust b gamma' (u 0%nat) (u 1%nat)).
Proof. exact rb_good. Qed.
Print Assumptions C55_robust.
Theorem C55_new : forall (N : Num) unit_price scale limit (elast price_out : Arr N) e1 e2 e3 e4 e5, two elast -> two price_out ->
  exists r, profit_rb_new unit_price scale limit elast price_out e1 e2 e3 e4 e5 = Ok r /\ rb_ok r /\
    rb_uie r = (e1, e2) /\ rb_elast r = elast /\ p_log_p_scale (rb_omega r) = nln ((unit_price -! e3) *! scale) /\ p_log_k (rb_omega r) = nln (limit -! e4) /\
    (forall i, (i < 2)%nat -> at_ (p_price_out (rb_omega r)) i = at_ price_out i +! e5).
Proof. exact @rb_new_ok. Qed.
Print Assumptions C55_new.
Example C55_case : box_sane case_box /\
  exists r, profit_rb_new (N := RNum) 51 2 3 (rv (9 / 10) (1 / 2)) (rv 4 29) (1 / 10) (1 / 5) 1 1 1 = Ok r /\ rb_ok r /\ rb_about r case_box.
Proof. exact case_robust. Qed.

(** ** C56 *)
Theorem C56_integer_points : forall (o : ProfitQ RNum) m y (gamma : R) retry, q_ok o -> about (pq_omega o) m -> sane m -> two y -> 0 <= gamma ->
  exists o' gamma' g beta s x more, profit_q_assess (N := RNum) o y gamma retry = Ok (o', gamma', ((g, mkSingle (N := RNum) beta), s, x, more)) /\
    q_ok o' /\ about (pq_omega o') m /\ gamma <= gamma' /\ more = negb retry /\
    ((retry = false /\ s = false /\ x = y /\ pq_yd o' = pq_yd o /\ good_answer (mfeas m) (mprofit m) (xvec y) gamma gamma' g beta s) \/
     (x = pq_yd o' /\ int_point x /\ (retry = true -> x = pq_yd o) /\
      (retry = false -> mfeas m (xvec y 0%nat) (xvec y 1%nat) /\ gamma <= mprofit m (xvec y 0%nat) (xvec y 1%nat) /\
         forall i, (i < 2)%nat -> exists z, nearest_int (exp (xvec y i)) z /\ xvec x i = ln (IZR z)) /\
      exists beta_d, good_answer (mfeas m) (mprofit m) (xvec x) gamma gamma' g beta_d s /\
        beta = beta_d + dot 2 (xvec g) (fun i => xvec x i - xvec y i))).
Proof. exact q_good. Qed.
Print Assumptions C56_integer_points.
Theorem C56_new_ok : forall unit_price scale limit (elast price_out : Arr RNum), two elast -> two price_out ->
  q_ok (profit_q_new (N := RNum) unit_price scale limit elast price_out).
Proof. exact q_new_ok. Qed.
Print Assumptions C56_new_ok.
Theorem C56_new_about : forall unit_price scale limit (elast price_out : Arr RNum),
  about (pq_omega (profit_q_new (N := RNum) unit_price scale limit elast price_out)) (mkMarket (unit_price * scale) limit (xvec elast) (xvec price_out)).
Proof. exact q_new_about. Qed.
Print Assumptions C56_new_about.
(** the shift has the wrong sign: an integer point whose profit is better by more
    than 10 is cut off; with the opposite sign the cut would keep it *)
Theorem C56_shift_refuted : exists unit_price scale limit elast price_out y (gamma : R) o' gamma' g beta s x more u,
  let m := mkMarket (unit_price * scale) limit (xvec elast) (xvec price_out) in
  two elast /\ two price_out /\ two y /\ sane m /\ 0 <= gamma /\
  profit_q_assess (N := RNum) (profit_q_new (N := RNum) unit_price scale limit elast price_out) y gamma false
    = Ok (o', gamma', ((g, mkSingle (N := RNum) beta), s, x, more)) /\
  (forall i, (i < 2)%nat -> exists z, (1 <= z)%Z /\ u i = ln (IZR z)) /\
  mfeas m (u 0%nat) (u 1%nat) /\ gamma' + 10 < mprofit m (u 0%nat) (u 1%nat) /\
  0 < dot 2 (xvec g) (fun i => u i - xvec y i) + beta /\
  dot 2 (xvec g) (fun i => u i - xvec y i) + (beta - 2 * dot 2 (xvec g) (fun i => xvec x i - xvec y i)) <= 0.
Proof. exact q_wrong_shift. Qed.
Print Assumptions C56_shift_refuted.
