(** The profit problem of the crate's own tests: whole runs with default options. *)
From Coq Require Import ZArith Reals List Bool Arith Lia Lra Psatz.
From Flocq Require Import Core.
From Verif Require Import Num Res Arr CuttingPlane EllCalc Ell EllRun ArrLemmas EllLemmas Spec RealLin EllSpec EllReal EllCuts EllMore LmiSpec Examples ExSpec ExProofs
  Profit ProfitSpec ProfitProofs ProfitReal ProfitMore ProfitRun ProfitWitness Det RunSpec RunProofs RunMore ExConv ProfitConv.
Import ListNotations.
Open Scope R_scope.

Lemma disc_diag (val : R) : 0 < val -> exists e, ell_new (N := RNum) (rv val val) (rv 0 0) = Ok e /\ proper 2 e /\ vecn 2 (e_xc e) /\ vol2 2 e = val ^ 2 /\
  forall x, x 0%nat * x 0%nat + x 1%nat * x 1%nat <= val -> pts 2 e x.
Proof.
  intros Hv. destruct (new_diag_real 2 (rv val val) (rv 0 0)) as (e & E & HP & Hpt); try reflexivity; [lia|apply two_rv| |].
  { intros i Hi. destruct i as [|[|]]; try lia; unfold coords; cbn; lra. }
  exists e. split; auto. split; auto.
  split. { destruct (ell_new_ok (N := RNum) 2 (rv val val) (rv 0 0) ltac:(lia) (two_rv _ _) eq_refl) as (e2 & E2 & _ & _ & Hx & _).
    rewrite E in E2. inversion E2; subst e2. rewrite Hx. apply two_rv. }
  split. { rewrite (new_diag_vol 2 (rv val val) (rv 0 0) e ltac:(lia) (two_rv _ _) eq_refl E). unfold coords. cbn. ring. }
  intros x Hx. apply Hpt. unfold coords. cbn. replace ((x 0%nat - 0) * (x 0%nat - 0) / val) with (x 0%nat * x 0%nat / val) by (field; lra).
  replace ((x 1%nat - 0) * (x 1%nat - 0) / val) with (x 1%nat * x 1%nat / val) by (field; lra).
  apply Rmult_le_reg_r with val; auto. replace ((0 + x 0%nat * x 0%nat / val + x 1%nat * x 1%nat / val) * val) with (x 0%nat * x 0%nat + x 1%nat * x 1%nat) by (field; lra). lra.
Qed.

(** *** elasticities 1/10 and 2/5: polynomials in s = e^(u0/10), q = e^(u1/5) *)
Section Poly.
Variables P k p0 p1 : R.
Definition tenth_market : market := mkMarket P k (xvec (rv (1 / 10) (4 / 10))) (xvec (rv p0 p1)).
Notation m := tenth_market.
Definition sv (u : vec) : R := exp (u 0%nat / 10).
Definition qv (u : vec) : R := exp (u 1%nat / 5).
Lemma exp_pow x n : exp x ^ n = exp (INR n * x).
Proof. induction n as [|n IH]; [rewrite Rmult_0_l, exp_0; reflexivity|]. cbn [pow]. rewrite IH, <- exp_plus, S_INR. f_equal. ring. Qed.
Lemma exp_sv u : exp (u 0%nat) = sv u ^ 10.
Proof. unfold sv. rewrite exp_pow. f_equal. rewrite INR_IZR_INZ. cbn. field. Qed.
Lemma exp_qv u : exp (u 1%nat) = qv u ^ 5.
Proof. unfold qv. rewrite exp_pow. f_equal. rewrite INR_IZR_INZ. cbn. field. Qed.
Lemma sv_pos u : 0 < sv u. Proof. apply exp_pos. Qed.
Lemma qv_pos u : 0 < qv u. Proof. apply exp_pos. Qed.
Lemma revenue_poly u : 0 < P -> revenue m u = P * (sv u * qv u ^ 2).
Proof.
  intros HP. unfold revenue, Rpower. cbn [m_P m_a tenth_market]. rewrite !ln_exp. unfold xvec, sv, qv. cbn [rv vec2 a_from adata nth].
  rewrite exp_pow. cbn [INR]. rewrite Rmult_assoc. f_equal. f_equal; f_equal; field.
Qed.
Lemma profit_poly u : 0 < P -> mprofit m (u 0%nat) (u 1%nat) = P * (sv u * qv u ^ 2) - (p0 * sv u ^ 10 + p1 * qv u ^ 5).
Proof.
  intros HP. rewrite <- (revenue_poly u HP), <- exp_sv, <- exp_qv. reflexivity.
Qed.
(** 2 q^5 + 3 c^5 >= 5 c^3 q^2 *)
Lemma quintic c q : 0 <= c -> 0 <= q -> 5 * c ^ 3 * q ^ 2 <= 2 * q ^ 5 + 3 * c ^ 5.
Proof.
  intros Hc Hq. assert (0 <= (q - c) ^ 2 * (2 * q ^ 3 + 4 * c * q ^ 2 + 6 * c ^ 2 * q + 3 * c ^ 3)); [|nra].
  apply Rmult_le_pos; [apply pow2_ge_0|]. assert (0 <= q ^ 3) by (apply pow_le; auto). assert (0 <= c * q ^ 2) by (apply Rmult_le_pos; auto; apply pow_le; auto).
  assert (0 <= c ^ 2 * q) by (apply Rmult_le_pos; auto; apply pow_le; auto). assert (0 <= c ^ 3) by (apply pow_le; auto). lra.
Qed.
Lemma pow_below a c n : 0 <= c -> (0 < n)%nat -> a ^ n < c ^ n -> a < c.
Proof. intros Hc Hn H. apply Rnot_le_lt. intros K. pose proof (pow_incr c a n (conj Hc K)). lra. Qed.

Hypotheses (HP : 0 < P <= 800) (Hk : k <= 30.5) (H0 : 0 <= p0) (H1 : 35 <= p1).
Lemma s_small u : mfeas m (u 0%nat) (u 1%nat) -> sv u < 1.41.
Proof. intros H. unfold mfeas in H. cbn [m_k tenth_market] in H. rewrite exp_sv in H. apply (pow_below _ _ 10); [lra|lia|]. lra. Qed.
Lemma region u : mfeas m (u 0%nat) (u 1%nat) -> 2500 <= mprofit m (u 0%nat) (u 1%nat) ->
  0 <= u 0%nat <= 4.1 /\ 0 <= u 1%nat <= 6.8 /\ P * (sv u * qv u ^ 2) <= 11552.
Proof.
  intros F HG. pose proof (s_small u F) as S1. rewrite profit_poly in HG by lra. pose proof (sv_pos u) as SP. pose proof (qv_pos u) as QP.
  set (s := sv u) in *. set (q := qv u) in *.
  assert (A10 : 0 <= p0 * s ^ 10) by (apply Rmult_le_pos; auto; apply pow_le; lra).
  assert (q2 : 0 < q ^ 2) by (apply pow_lt; auto). assert (q5 : 0 < q ^ 5) by (apply pow_lt; auto). assert (q3 : 0 < q ^ 3) by (apply pow_lt; auto).
  assert (P5 : 35 * q ^ 5 <= p1 * q ^ 5) by (apply Rmult_le_compat_r; lra).
  assert (PS : P * (s * q ^ 2) <= 800 * (s * q ^ 2)) by (apply Rmult_le_compat_r; [nra|lra]).
  assert (SQ : s * q ^ 2 <= 1.41 * q ^ 2) by (apply Rmult_le_compat_r; lra).
  assert (Qlo : 1 < q). { apply (pow_below 1 q 2); [lra|lia|]. rewrite pow1. lra. }
  assert (Qhi : q < 3.2).
  { apply (pow_below q 3.2 3); [lra|lia|]. assert (35 * q ^ 5 = 35 * q ^ 3 * q ^ 2) as E by ring. rewrite E in *.
    assert (35 * q ^ 3 < 1128); [|lra]. apply Rmult_lt_reg_r with (q ^ 2); auto. lra. }
  assert (Slo : 1 < s).
  { apply Rnot_le_lt. intros K. assert (s * q ^ 2 <= 1 * q ^ 2) by (apply Rmult_le_compat_r; lra).
    pose proof (quintic 2.1 q ltac:(lra) ltac:(lra)). lra. }
  assert (U0 : 0 <= u 0%nat <= 4.1).
  { split.
    - apply Rnot_lt_le. intros K. assert (s < 1); [|lra]. unfold s, sv. rewrite <- exp_0 at 1. apply exp_increasing. lra.
    - pose proof (exp_ineq1_le (u 0%nat / 10)) as K. fold (sv u) in K. fold s in K. lra. }
  split; auto. split; [split|].
  - apply Rnot_lt_le. intros K. assert (q < 1); [|lra]. unfold q, qv. rewrite <- exp_0 at 1. apply exp_increasing. lra.
  - pose proof (exp_ineq1_le (u 1%nat / 20)) as K. assert (exp (u 1%nat / 20) < 1.34); [|lra].
    apply (pow_below _ _ 4); [lra|lia|]. rewrite exp_pow. replace (INR 4 * (u 1%nat / 20)) with (u 1%nat / 5) by (rewrite INR_IZR_INZ; cbn; field).
    fold (qv u). fold q. lra.
  - assert (q ^ 2 <= 3.2 ^ 2) by (apply pow_incr; lra). lra.
Qed.
End Poly.

(** *** the data of test_profit_oracle *)
Definition test_market : market := tenth_market (20 * 40) 30.5 10 35.
Definition test_oracle : Profit RNum := profit_new (N := RNum) 20 40 30.5 (rv (1 / 10) (4 / 10)) (rv 10 35).
Lemma test_sane : sane test_market.
Proof. unfold sane, test_market, tenth_market, xvec. cbn. lra. Qed.
Lemma test_steep : steep test_market = 1 / 2.
Proof. unfold steep, test_market, tenth_market, xvec. cbn. rewrite !Rabs_pos_eq; lra. Qed.
Definition near_point (s q : R) : vec := fun i => match i with O => 10 * ln s | _ => 5 * ln q end.
Lemma near_sv s q : 0 < s -> sv (near_point s q) = s.
Proof. intros. unfold sv, near_point. replace (10 * ln s / 10) with (ln s) by field. now apply exp_ln. Qed.
Lemma near_qv s q : 0 < q -> qv (near_point s q) = q.
Proof. intros. unfold qv, near_point. replace (5 * ln q / 5) with (ln q) by field. now apply exp_ln. Qed.
Lemma loss_small c w : 0 <= w <= 7.02 -> 0 <= c <= 13000 -> w * r10 * c <= 1 / 10 ^ 5.
Proof.
  intros Hw Hc. unfold r10. assert (w * c <= 7.02 * 13000) by (apply Rmult_le_compat; lra).
  replace (w * / 10 ^ 10 * c) with (w * c * / 10 ^ 10) by ring.
  apply Rmult_le_reg_r with (10 ^ 10); [apply pow_lt; lra|]. rewrite Rmult_assoc, Rinv_l by (apply pow_nonzero; lra). lra.
Qed.
Lemma region_in (u y : vec) (val : R) : 81 <= val -> 0 <= u 0%nat <= 4.1 -> 0 <= u 1%nat <= 6.8 -> ball 2 u (2 * r10) y -> y 0%nat * y 0%nat + y 1%nat * y 1%nat <= val.
Proof.
  intros Hv U0 U1 Hy. pose proof r10_pos. pose proof r10_small. destruct (ball2_near u (2 * r10) y ltac:(lra) Hy) as [A B]. apply abs_le in A, B.
  pose proof (sq_bound (y 0%nat) 4.2 ltac:(lra)). pose proof (sq_bound (y 1%nat) 6.9 ltac:(lra)). lra.
Qed.
(** for every feasible point with a profit of at least 2500 the run ends within 1e-5 of it *)
Lemma test_near (val gamma : R) e u : 81 <= val <= 10 ^ 20 -> 0 <= gamma -> ell_new (N := RNum) (rv val val) (rv 0 0) = Ok e ->
  mfeas test_market (u 0%nat) (u 1%nat) -> 2500 <= mprofit test_market (u 0%nat) (u 1%nat) -> gamma + 1 / 10 ^ 5 <= mprofit test_market (u 0%nat) (u 1%nat) ->
  exists p' e' gamma' x k, cutting_plane_optim (profit_assess (N := RNum)) (ell_space (N := RNum) single) options_default test_oracle e gamma = Ok (p', e', gamma', (Some x, k)) /\
    mfeas test_market (coords x 0%nat) (coords x 1%nat) /\ gamma' = mprofit test_market (coords x 0%nat) (coords x 1%nat) /\
    mprofit test_market (u 0%nat) (u 1%nat) - 1 / 10 ^ 5 < gamma'.
Proof.
  intros Hv Hg E F HG Hgu. destruct (disc_diag val ltac:(lra)) as (e2 & E2 & HP & Hxc & Hvol & Hin). rewrite E in E2. inversion E2; subst e2.
  destruct (region (20 * 40) 30.5 10 35 ltac:(lra) ltac:(lra) ltac:(lra) ltac:(lra) u F HG) as (U0 & U1 & RV).
  rewrite <- (revenue_poly (20 * 40) 30.5 10 35 u ltac:(lra)) in RV. fold test_market in RV. pose proof (revenue_pos _ test_sane u) as RP.
  pose proof (loss_small (revenue test_market u) (2 * steep test_market + 6) ltac:(rewrite test_steep; lra) ltac:(lra)) as LS.
  destruct (profit_near_best test_market test_sane options_default test_oracle e gamma u r10) as (p' & e' & ga & x & k & R & X1 & X2 & X3); auto.
  - apply (profit_new_ok (N := RNum)); apply two_rv.
  - apply profit_new_about.
  - exact r10_pos.
  - lra.
  - intros y Hy. apply Hin. apply (region_in u y); auto. lra.
  - exact default_tol.
  - rewrite Hvol. apply enough. lra.
  - exists p', e', ga, x, k. repeat (split; [assumption|]). lra.
Qed.
Lemma test_upper u : mfeas test_market (u 0%nat) (u 1%nat) -> mprofit test_market (u 0%nat) (u 1%nat) <= 3406.
Proof.
  intros F. unfold test_market. rewrite profit_poly by lra. pose proof (sv_pos u) as SP. pose proof (qv_pos u) as QP.
  assert (S1 : sv u < 1.4075). { unfold mfeas in F. cbn [m_k test_market tenth_market] in F. rewrite exp_sv in F. apply (pow_below _ _ 10); [lra|lia|]. lra. }
  set (s := sv u) in *. set (q := qv u) in *. assert (Hc : exists c, c = 1.4075) by eauto. destruct Hc as [c Hc]. rewrite <- Hc in S1. assert (Hcp : 0 < c) by lra.
  pose proof (quintic 2.3434 q ltac:(lra) ltac:(lra)) as Q5. assert (q5 : 0 < q ^ 5) by (apply pow_lt; auto). assert (q2 : 0 < q ^ 2) by (apply pow_lt; auto).
  (* convexity of s^10 *)
  assert (T : c ^ 10 + 10 * c ^ 9 * (s - c) <= s ^ 10).
  { 
    assert (forall n, (1 + INR n * ((s - c) / c)) <= (1 + (s - c) / c) ^ n) as B.
    { intros n. destruct (Req_dec ((s - c) / c) 0) as [Z|Z]; [rewrite Z, Rmult_0_r, !Rplus_0_r, pow1; lra|].
      induction n as [|n IH]; [cbn; lra|]. rewrite S_INR. cbn [pow]. assert (0 < 1 + (s - c) / c). { replace (1 + (s - c) / c) with (s / c) by (field; lra). apply Rdiv_lt_0_compat; lra. }
      apply Rmult_le_compat_l with (r := 1 + (s - c) / c) in IH; [|lra]. pose proof (pos_INR n). assert (0 <= INR n * (((s - c) / c) * ((s - c) / c))) by (apply Rmult_le_pos; [auto|apply Rle_0_sqr]). lra. }
    specialize (B 10%nat). replace (1 + (s - c) / c) with (s / c) in B by (field; lra).
    replace (INR 10) with 10 in B by (rewrite INR_IZR_INZ; reflexivity).
    assert (c10 : 0 < c ^ 10) by (apply pow_lt; lra). apply Rmult_le_compat_l with (r := c ^ 10) in B; [|lra].
    rewrite <- Rpow_mult_distr in B. replace (c * (s / c)) with s in B by (field; lra).
    replace (c ^ 10 * (1 + 10 * ((s - c) / c))) with (c ^ 10 + 10 * c ^ 9 * (s - c)) in B by (field; lra). exact B. }
  destruct (Rle_lt_dec (100 * c ^ 9) (800 * q ^ 2)) as [K|K].
  - assert (s * (800 * q ^ 2 - 100 * c ^ 9) <= c * (800 * q ^ 2 - 100 * c ^ 9)) by (apply Rmult_le_compat_r; lra). subst c; lra.
  - assert (s * (800 * q ^ 2 - 100 * c ^ 9) <= 0) by nra. subst c; lra.
Qed.
Lemma test_solves (val gamma : R) : 81 <= val <= 10 ^ 20 -> 0 <= gamma <= 3399 ->
  exists e, ell_new (N := RNum) (rv val val) (rv 0 0) = Ok e /\
  exists p' e' gamma' x k, cutting_plane_optim (profit_assess (N := RNum)) (ell_space (N := RNum) single) options_default test_oracle e gamma = Ok (p', e', gamma', (Some x, k)) /\
    exp (coords x 0%nat) <= 30.5 /\ gamma' = profit_at test_market (exp (coords x 0%nat)) (exp (coords x 1%nat)) /\ 3399 < gamma' <= 3406 /\
    forall x0 x1, 0 < x0 <= 30.5 -> 0 < x1 -> profit_at test_market x0 x1 - 1 / 10 ^ 5 < gamma'.
Proof.
  intros Hv Hg. destruct (disc_diag val ltac:(lra)) as (e & E & _). exists e. split; auto.
  assert (HG : 3399 + 1 / 10 < mprofit test_market (near_point 1.405 2.34 0%nat) (near_point 1.405 2.34 1%nat)).
  { unfold test_market. rewrite profit_poly, near_sv, near_qv by lra. lra. }
  assert (HF : mfeas test_market (near_point 1.405 2.34 0%nat) (near_point 1.405 2.34 1%nat)).
  { unfold mfeas. rewrite exp_sv, near_sv by lra. cbn [m_k test_market tenth_market]. lra. }
  destruct (test_near val gamma e (near_point 1.405 2.34) Hv ltac:(lra) E HF ltac:(lra) ltac:(lra)) as (p' & e' & ga & x & k & RR & X1 & X2 & X3).
  exists p', e', ga, x, k. split; [exact RR|]. split; [exact X1|]. split; [exact X2|].
  split. { split; [lra|]. rewrite X2. now apply test_upper. }
  intros x0 x1 H0 H1. set (u := fun i => match i with O => ln x0 | _ => ln x1 end : R).
  assert (EP : profit_at test_market x0 x1 = mprofit test_market (u 0%nat) (u 1%nat)) by (unfold mprofit, u; rewrite !exp_ln; lra).
  rewrite EP. destruct (Rle_lt_dec (mprofit test_market (u 0%nat) (u 1%nat)) 3399) as [K|K]; [lra|].
  assert (FU : mfeas test_market (u 0%nat) (u 1%nat)). { unfold mfeas, u. rewrite exp_ln by lra. cbn [m_k test_market tenth_market]. lra. }
  destruct (Rle_lt_dec (gamma + 1 / 10 ^ 5) (mprofit test_market (u 0%nat) (u 1%nat))) as [K2|K2]; [|lra].
  destruct (test_near val gamma e u Hv ltac:(lra) E FU ltac:(lra) K2) as (p2 & e2 & ga2 & x2 & k2 & R2 & _ & _ & Y3).
  rewrite RR in R2. inversion R2; subst. exact Y3.
Qed.

(** *** the data of test_profit_oracle_rb *)
Definition test_box : box := mkBox ((20 - 1) * 40) (30.5 - 1) (xvec (rv (10 + 1) (35 + 1))) (xvec (rv (1 / 10) (4 / 10))) (xvec (rv 0.003 0.007)).
Lemma box_ok : box_sane test_box.
Proof. unfold box_sane, test_box, xvec. cbn. lra. Qed.
Definition nominal : market := tenth_market ((20 - 1) * 40) (30.5 - 1) (10 + 1) (35 + 1).
Lemma nominal_in : in_box test_box nominal.
Proof.
  unfold in_box, test_box, nominal, tenth_market, xvec. cbn. split; [lra|]. split; [lra|]. intros i Hi. destruct i as [|[|]]; try lia; cbn; lra.
Qed.
Lemma test_rb : exists o, profit_rb_new (N := RNum) 20 40 30.5 (rv (1 / 10) (4 / 10)) (rv 10 35) 0.003 0.007 1 1 1 = Ok o /\ rb_ok o /\ rb_about o test_box.
Proof.
  destruct (rb_new_ok (N := RNum) 20 40 30.5 (rv (1 / 10) (4 / 10)) (rv 10 35) 0.003 0.007 1 1 1 (two_rv _ _) (two_rv _ _)) as (o & E & H1 & H2 & H3 & H4 & H5 & H6).
  exists o. split; [exact E|]. split; [exact H1|]. unfold rb_about. rewrite H2, H3, H4, H5. split; [reflexivity|]. split; [reflexivity|]. split; [|split; reflexivity].
  intros i Hi. split; [|reflexivity]. specialize (H6 i Hi). change (at_ (p_price_out (rb_omega o)) i) with (xvec (p_price_out (rb_omega o)) i) in H6. rewrite H6.
  destruct i as [|[|]]; try lia; reflexivity.
Qed.
Lemma test_top_steep : top_steep test_box = 0.51.
Proof. unfold top_steep, test_box, xvec. cbn. rewrite !Rabs_pos_eq; lra. Qed.
Lemma test_rb_near (val gamma t : R) e o u : 81 <= val <= 10 ^ 20 -> 0 <= gamma -> ell_new (N := RNum) (rv val val) (rv 0 0) = Ok e ->
  profit_rb_new (N := RNum) 20 40 30.5 (rv (1 / 10) (4 / 10)) (rv 10 35) 0.003 0.007 1 1 1 = Ok o ->
  robust test_box t (u 0%nat) (u 1%nat) -> 2500 <= t -> gamma + 1 / 10 ^ 5 <= t ->
  exists o' e' gamma' x k, cutting_plane_optim (profit_rb_assess (N := RNum)) (ell_space (N := RNum) single) options_default o e gamma = Ok (o', e', gamma', (Some x, k)) /\
    robust test_box gamma' (coords x 0%nat) (coords x 1%nat) /\ t - 1 / 10 ^ 5 < gamma'.
Proof.
  intros Hv Hg E Eo F HG Hgu. destruct (disc_diag val ltac:(lra)) as (e2 & E2 & HP & Hxc & Hvol & Hin). rewrite E in E2. inversion E2; subst e2.
  destruct test_rb as (o2 & Eo2 & O1 & O2). rewrite Eo in Eo2. inversion Eo2; subst o2.
  destruct (F nominal nominal_in) as [F1 F2].
  destruct (region ((20 - 1) * 40) (30.5 - 1) (10 + 1) (35 + 1) ltac:(lra) ltac:(lra) ltac:(lra) ltac:(lra) u F1 ltac:(unfold nominal in F2; lra)) as (U0 & U1 & RV).
  assert (TR : 0 <= top_revenue test_box u <= 13000).
  { unfold top_revenue. split; [apply Rmult_le_pos; [unfold test_box; cbn; lra|left; apply exp_pos]|].
    rewrite !Rabs_pos_eq by lra. unfold test_box, xvec. cbn [b_P b_a b_u rv vec2 a_from adata nth].
    replace (1 / 10 * u 0%nat + 0.003 * u 0%nat + (4 / 10 * u 1%nat + 0.007 * u 1%nat)) with (u 0%nat / 10 + 2 * (u 1%nat / 5) + (0.003 * u 0%nat + 0.007 * u 1%nat)) by field.
    rewrite !exp_plus. fold (sv u). replace (exp (2 * (u 1%nat / 5))) with (qv u ^ 2) by (unfold qv; rewrite exp_pow; f_equal; cbn; ring).
    assert (X : exp (0.003 * u 0%nat + 0.007 * u 1%nat) <= 1.12). { eapply Rle_trans; [apply exp_up; lra|]. lra. } rewrite exp_plus in X.
    rewrite <- Rmult_assoc. eapply Rle_trans; [apply Rmult_le_compat_l; [|exact X]|].
    - apply Rmult_le_pos; [lra|]. pose proof (sv_pos u). pose proof (qv_pos u). assert (0 < qv u ^ 2) by (apply pow_lt; auto). nra.
    - lra. }
  pose proof (loss_small (top_revenue test_box u) (2 * top_steep test_box + 6) ltac:(rewrite test_top_steep; lra) TR) as LS.
  destruct (rb_near_best test_box box_ok options_default o e gamma t u r10) as (p' & e' & ga & x & k & R & X1 & X3); auto.
  - exact r10_pos.
  - lra.
  - intros y Hy. apply Hin. apply (region_in u y); auto. lra.
  - exact default_tol.
  - rewrite Hvol. apply enough. lra.
  - exists p', e', ga, x, k. repeat (split; [assumption|]). lra.
Qed.
Lemma test_rb_point : robust test_box 2600 (near_point 1.4 2.3 0%nat) (near_point 1.4 2.3 1%nat).
Proof.
  set (u := near_point 1.4 2.3).
  assert (L0 : 0 < u 0%nat <= 4).
  { unfold u, near_point. split; [assert (0 < ln 1.4) by (rewrite <- ln_1; apply ln_increasing; lra); lra|pose proof (ln_tangent 1.4 ltac:(lra)); lra]. }
  assert (L1 : 0 < u 1%nat <= 6.5).
  { unfold u, near_point. split; [assert (0 < ln 2.3) by (rewrite <- ln_1; apply ln_increasing; lra); lra|pose proof (ln_tangent 2.3 ltac:(lra)); lra]. }
  apply (robust_worst test_box 2600 u box_ok). split.
  - unfold mfeas. rewrite exp_sv. unfold u. rewrite near_sv by lra. cbn [m_k worst_market test_box b_k]. lra.
  - pose proof (revenue_profit _ (worst_sane test_box box_ok u) u) as K. rewrite (revenue_exp _ (worst_sane test_box box_ok u)) in K.
    cbn [m_P m_a m_p worst_market test_box b_P b_p] in K. rewrite exp_plus, exp_ln in K by lra. rewrite exp_sv, exp_qv in K.
    unfold worst in K. rewrite (proj2 (Rlt_bool_iff 0 (u 0%nat)) (proj1 L0)), (proj2 (Rlt_bool_iff 0 (u 1%nat)) (proj1 L1)) in K.
    unfold test_box, xvec in K. cbn [b_P b_a b_u rv vec2 a_from adata nth] in K.
    replace ((1 / 10 - 0.003) * u 0%nat + (4 / 10 - 0.007) * u 1%nat) with (u 0%nat / 10 + 2 * (u 1%nat / 5) + (- (0.003 * u 0%nat + 0.007 * u 1%nat))) in K by field.
    rewrite !exp_plus in K. fold (sv u) in K. replace (exp (2 * (u 1%nat / 5))) with (qv u ^ 2) in K by (unfold qv; rewrite exp_pow; f_equal; cbn; ring).
    pose proof (exp_ineq1_le (- (0.003 * u 0%nat + 0.007 * u 1%nat))) as X.
    replace (sv u) with 1.4 in K by (unfold u; rewrite near_sv; lra). replace (qv u) with 2.3 in K by (unfold u; rewrite near_qv; lra).
    unfold test_box, xvec. cbn [m_P m_a m_p worst_market test_box b_P b_p rv vec2 a_from adata nth] in *. lra.
Qed.
Lemma test_rb_solves (val gamma : R) : 81 <= val <= 10 ^ 20 -> 0 <= gamma <= 2599 ->
  exists e o, ell_new (N := RNum) (rv val val) (rv 0 0) = Ok e /\
  profit_rb_new (N := RNum) 20 40 30.5 (rv (1 / 10) (4 / 10)) (rv 10 35) 0.003 0.007 1 1 1 = Ok o /\
  exists o' e' gamma' x k, cutting_plane_optim (profit_rb_assess (N := RNum)) (ell_space (N := RNum) single) options_default o e gamma = Ok (o', e', gamma', (Some x, k)) /\
    robust test_box gamma' (coords x 0%nat) (coords x 1%nat) /\ 2599 < gamma' /\
    forall t u0 u1, robust test_box t u0 u1 -> t - 1 / 10 ^ 5 < gamma'.
Proof.
  intros Hv Hg. destruct (disc_diag val ltac:(lra)) as (e & E & _). destruct test_rb as (o & Eo & _). exists e, o. split; auto. split; auto.
  destruct (test_rb_near val gamma 2600 e o (near_point 1.4 2.3) Hv ltac:(lra) E Eo test_rb_point ltac:(lra) ltac:(lra)) as (p' & e' & ga & x & k & RR & X1 & X3).
  exists p', e', ga, x, k. split; [exact RR|]. split; [exact X1|]. split; [lra|].
  intros t u0 u1 Hr. destruct (Rle_lt_dec t 2599) as [K|K]; [lra|]. destruct (Rle_lt_dec (gamma + 1 / 10 ^ 5) t) as [K2|K2]; [|lra].
  destruct (test_rb_near val gamma t e o (fun i => match i with O => u0 | _ => u1 end) Hv ltac:(lra) E Eo Hr ltac:(lra) K2) as (p2 & e2 & ga2 & x2 & k2 & R2 & _ & Y3).
  rewrite RR in R2. inversion R2; subst. exact Y3.
Qed.

Lemma bias_single_deeper n e g beta : valid n e -> vecn n g -> sqrt (width2 n e g) < beta -> 0 <= width2 n e g ->
  ubias single e (g, SC beta) = Ok (with_tsq e (width2 n e g), NoSoln).
Proof.
  intros V Hg Hb Hw.
  destruct (core_run n e g (fun tsq => call_bias single (e_helper e) (SC beta) tsq) NoSoln 0 0 0 V Hg) as (e' & E & H & _).
    + rewrite (v_calc _ _ V). simpl. rewrite calc_bias_eq.
      destruct (Raux.Rlt_bool _ _) eqn:B; auto. apply Rlt_bool_no in B. exfalso.
      assert (sqrt (width2 n e g) * sqrt (width2 n e g) = width2 n e g) by now apply sqrt_sqrt.
      pose proof (sqrt_pos (width2 n e g)). nra.
    + etransitivity; [exact E|]. now rewrite H.
Qed.
(** asking for more than the market gives: rejected at once *)
Lemma too_much_assess : exists p', profit_assess (N := RNum) (profit_new (N := RNum) 1 1 1 (rv 0 0) (rv 1 1)) (rv 0 0) 2 = Ok (p', 2, ((rv (1 / 4) (1 / 4), mkSingle (N := RNum) (ln 4)), false)).
Proof.
  unfold profit_assess, profit_feas, round_robin, loop_range, profit_new, rv. pdc. rnum. 
  rewrite (proj2 (Rlt_bool_no _ _)) by (rewrite ln_1; lra). pdc. rnum. unfold isum. cbn [fold_left]. rnum.
  assert (L : 1 < ln 4). { rewrite <- (ln_exp 1). apply ln_increasing; [apply exp_pos|]. pose proof exp_le_3. lra. }
  rewrite !exp_0. replace (2 + (1 * 1 + 1 * 1)) with 4 by ring. replace (1 * 1) with 1 by ring. rewrite ln_1.
  match goal with |- context [Rlt_bool 0 ?e] => replace e with (ln 4) by ring end.
  rewrite (proj2 (Rlt_bool_iff _ _)) by lra. pdc. 
  match goal with |- context [a_sub ?a ?b] => replace (a_sub a b) with (Ok (rv (1 / 4) (1 / 4))) end.
  2:{ unfold a_sub, a_divs, rv, vec2, a_from. cbn -[Rdiv IZR]. replace (1 * (1 / (2 + (1 + 1))) - 0) with (1 / 4) by field; reflexivity. }
  cbn [bind]. eexists. reflexivity.
Qed.

Lemma too_much : exists e, ell_new (N := RNum) (rv 1 1) (rv 0 0) = Ok e /\ exists p',
  cutting_plane_optim (profit_assess (N := RNum)) (ell_space (N := RNum) single) options_default (profit_new (N := RNum) 1 1 1 (rv 0 0) (rv 1 1)) e 2
    = Ok (p', with_tsq e (1 / 8), 2, (None, 0%nat)).
Proof.
  destruct (disc_diag 1 ltac:(lra)) as (e & E & HP & _). exists e. split; auto. destruct too_much_assess as (p' & Ea). exists p'.
  unfold cutting_plane_optim, loop_range. 
  replace (max_iters (options_default (N := RNum)) - 0)%nat with (S (max_iters (options_default (N := RNum)) - 1)) by reflexivity.
  cbn [loop_up]. change (sp_xc (ell_space (N := RNum) single) e) with (e_xc e).
  assert (Hx : e_xc e = rv 0 0). { destruct (ell_new_ok (N := RNum) 2 (rv 1 1) (rv 0 0) ltac:(lia) (two_rv _ _) eq_refl) as (e2 & E2 & _ & _ & Hx & _). rewrite E in E2. inversion E2; subst e2. exact Hx. }
  rewrite Hx, Ea. cbn [bind].
  assert (Hw : width2 2 e (rv (1 / 4) (1 / 4)) = 1 / 8).
  { inversion E. unfold width2, quad, dot, shape, kap, coords. cbn. unfold mulmv. cbn. unfold coords. cbn. field. }
  change (sp_update_bias_cut (ell_space (N := RNum) single) e) with (ubias single e).
  rewrite (bias_single_deeper 2 e (rv (1 / 4) (1 / 4)) (ln 4) (proj1 HP) (two_rv _ _)).
  - rewrite Hw. rewrite Hx. reflexivity.
  - rewrite Hw. apply Rlt_trans with 1.
    + replace 1 with (sqrt 1) at 2 by apply sqrt_1. apply sqrt_lt_1; lra.
    + rewrite <- (ln_exp 1). apply ln_increasing; [apply exp_pos|]. pose proof exp_le_3. lra.
  - rewrite Hw. lra.
Qed.
Lemma too_much_rb : exists e o, ell_new (N := RNum) (rv 1 1) (rv 0 0) = Ok e /\
  profit_rb_new (N := RNum) 1 1 1 (rv 0 0) (rv 1 1) 0 0 0 0 0 = Ok o /\ exists o',
  cutting_plane_optim (profit_rb_assess (N := RNum)) (ell_space (N := RNum) single) options_default o e 2 = Ok (o', with_tsq e (1 / 8), 2, (None, 0%nat)).
Proof.
  destruct (disc_diag 1 ltac:(lra)) as (e & E & HP & _). exists e.
  exists (mkProfitRb (N := RNum) (0, 0) (profit_new (N := RNum) 1 1 1 (rv 0 0) (rv 1 1)) (rv 0 0)). split; auto.
  split. { unfold profit_rb_new, profit_new, a_add, rv, vec2, a_from. cbn -[Rdiv IZR Rplus Rminus ln]. repeat f_equal; ring. }
  destruct too_much_assess as (p' & Ea). exists (mkProfitRb (N := RNum) (0, 0) p' (rv 0 0)).
  unfold cutting_plane_optim, loop_range.
  replace (max_iters (options_default (N := RNum)) - 0)%nat with (S (max_iters (options_default (N := RNum)) - 1)) by reflexivity.
  cbn [loop_up]. change (sp_xc (ell_space (N := RNum) single) e) with (e_xc e).
  assert (Hx : e_xc e = rv 0 0). { destruct (ell_new_ok (N := RNum) 2 (rv 1 1) (rv 0 0) ltac:(lia) (two_rv _ _) eq_refl) as (e2 & E2 & _ & _ & Hx & _). rewrite E in E2. inversion E2; subst e2. exact Hx. }
  rewrite Hx. unfold profit_rb_assess at 1.
  assert (El : profit_rb_elast (N := RNum) (mkProfitRb (N := RNum) (0, 0) (profit_new (N := RNum) 1 1 1 (rv 0 0) (rv 1 1)) (rv 0 0)) (rv 0 0) = Ok (rv 0 0)).
  { unfold profit_rb_elast, for_range, loop_range. pdc. rnum. unfold rv. pdc. rnum. rewrite (proj2 (Rlt_bool_no 0 0)) by lra. rewrite Rplus_0_r. reflexivity. }
  rewrite El. cbn [bind rb_omega rb_uie rb_elast].
  change (set_elast (N := RNum) (profit_new (N := RNum) 1 1 1 (rv 0 0) (rv 1 1)) (rv 0 0)) with (profit_new (N := RNum) 1 1 1 (rv 0 0) (rv 1 1)).
  rewrite Ea. cbn [bind].
  assert (Hw : width2 2 e (rv (1 / 4) (1 / 4)) = 1 / 8).
  { inversion E. unfold width2, quad, dot, shape, kap, coords. cbn. unfold mulmv. cbn. unfold coords. cbn. field. }
  change (sp_update_bias_cut (ell_space (N := RNum) single) e) with (ubias single e).
  rewrite (bias_single_deeper 2 e (rv (1 / 4) (1 / 4)) (ln 4) (proj1 HP) (two_rv _ _)).
  - rewrite Hw. rewrite Hx. reflexivity.
  - rewrite Hw. apply Rlt_trans with 1.
    + replace 1 with (sqrt 1) at 2 by apply sqrt_1. apply sqrt_lt_1; lra.
    + rewrite <- (ln_exp 1). apply ln_increasing; [apply exp_pos|]. pose proof exp_le_3. lra.
  - rewrite Hw. lra.
Qed.
