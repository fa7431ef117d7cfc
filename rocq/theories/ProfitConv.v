(** The optimiser with the profit oracle on an Ell comes within any delta of every
    profit attained on a ball. *)
From Coq Require Import ZArith Reals List Bool Arith Lia Lra Psatz.
From Flocq Require Import Core.
From Verif Require Import Num Res Arr CuttingPlane EllCalc Ell EllRun ArrLemmas EllLemmas Spec RealLin EllSpec EllReal EllCuts EllMore LmiSpec Examples ExSpec ExProofs
  Profit ProfitSpec ProfitProofs ProfitReal ProfitMore ProfitRun Det RunSpec RunProofs RunMore ExConv.
Import ListNotations.
Open Scope R_scope.

Definition revenue (m : market) (u : vec) : R := m_P m * Rpower (exp (u 0%nat)) (m_a m 0%nat) * Rpower (exp (u 1%nat)) (m_a m 1%nat).
Section Conv.
Variable m : market.
Hypothesis Sane : sane m.
Definition beats_by (delta : R) (u : vec) (gamma : R) : Prop := mfeas m (u 0%nat) (u 1%nat) /\ gamma + delta <= mprofit m (u 0%nat) (u 1%nat).
Definition inv_profit (p : Profit RNum) (gamma : R) : Prop := profit_ok p /\ about p m /\ 0 <= gamma.

Lemma two_vecn (x : Arr RNum) : vecn 2 x <-> two x. Proof. reflexivity. Qed.

Lemma revenue_exp u : revenue m u = exp (ln (m_P m) + (m_a m 0%nat * u 0%nat + m_a m 1%nat * u 1%nat)).
Proof. unfold revenue, Rpower. rewrite !ln_exp, !exp_plus, exp_ln by apply Sane. ring. Qed.
Lemma revenue_profit u : revenue m u = mprofit m (u 0%nat) (u 1%nat) + (m_p m 0%nat * exp (u 0%nat) + m_p m 1%nat * exp (u 1%nat)).
Proof. rewrite revenue_exp, (mprofit_exp m Sane). ring. Qed.
Lemma ln_tangent w : 0 < w -> ln w <= w - 1.
Proof. intros Hw. pose proof (exp_ineq1_le (ln w)) as H. rewrite exp_ln in H by auto. lra. Qed.
(** a point better by [delta] lies below the constraint by [delta / revenue] *)
Lemma shortfall_depth delta (gamma : R) u : 0 <= gamma -> gamma + delta <= mprofit m (u 0%nat) (u 1%nat) ->
  shortfall m gamma u <= - (delta / revenue m u).
Proof.
  intros G0 Hu. pose proof (costs_pos m Sane u) as HC. pose proof (revenue_profit u) as HR.
  assert (RP : 0 < revenue m u) by (rewrite revenue_exp; apply exp_pos).
  unfold shortfall. rewrite <- (ln_exp (ln (m_P m) + _)), <- revenue_exp.
  set (V := m_p m 0%nat * exp (u 0%nat) + m_p m 1%nat * exp (u 1%nat)) in *.
  replace (ln (gamma + V) - ln (revenue m u)) with (ln ((gamma + V) / revenue m u)).
  2:{ unfold Rdiv. rewrite ln_mult, ln_Rinv; try lra. now apply Rinv_0_lt_compat. }
  eapply Rle_trans; [apply ln_tangent; apply Rdiv_lt_0_compat; lra|].
  apply Rmult_le_reg_r with (revenue m u); auto.
  replace (((gamma + V) / revenue m u - 1) * revenue m u) with (gamma + V - revenue m u) by (field; lra).
  replace (- (delta / revenue m u) * revenue m u) with (- delta) by (field; lra). lra.
Qed.

Lemma profit_cuts delta : 0 <= delta -> optim_cuts single_sat single_deep 2 inv_profit (beats_by delta) (profit_assess (N := RNum)).
Proof.
  intros Hd o x gamma o' gamma' g c sh (H1 & H2 & H3) Hx E.
  destruct (profit_good o m x gamma H1 H2 Sane Hx H3) as (p' & ga & g2 & be & b & E2 & O1 & O2 & O3 & G).
  rewrite E in E2. inversion E2; subst p' ga g2 c b. destruct G as [G1 G2 G3 G4 G5].
  split; [split; auto; split; [now apply (about_same o)|lra]|]. split; auto. split; [|split; [|split]].
  - unfold single_deep. cbn. destruct sh; [destruct (G3 eq_refl) as [_ ->]; lra|destruct (G4 eq_refl); lra].
  - intros ->. apply G4. auto.
  - intros y [K1 K2]. split; auto. lra.
  - intros y [K1 K2]. assert (K3 : gamma' <= mprofit m (y 0%nat) (y 1%nat)) by (cbn [num RNum] in *; lra). specialize (G5 y (conj K1 K3)). unfold single_sat. cbn [sc_beta]. unfold along.
    change (coords g) with (xvec g). change (coords x) with (xvec x). destruct sh; cbn [offset]; auto.
    destruct (G3 eq_refl) as [_ E']. lra.
Qed.
Lemma profit_margin delta z r rho : 0 < r -> 0 < rho -> rho <= r -> rho * revenue m z <= delta ->
  optim_margin 2 inv_profit z r (beats_by delta) rho (profit_assess (N := RNum)).
Proof.
  intros Hr Hrho Hrr Hd o x gamma (H1 & H2 & H3) Hx.
  destruct (profit_good_under o m x gamma H1 H2 Sane Hx H3) as (p' & ga & g & be & b & E & O1 & O2 & O3 & G & U).
  exists p', ga, g, (mkSingle (N := RNum) be), b. split; [exact E|]. intros HB.
  assert (RP : 0 < revenue m z) by (rewrite revenue_exp; apply exp_pos). destruct U as [[U1 U2]|U].
  - unfold along, dot, coords. cbn [Rsum]. rewrite U2. cbn [nth]. 
    assert (B : ball 2 z r (fun i => match i with O => z 0%nat + r | _ => z 1%nat end)).
    { unfold ball, dot. cbn [Rsum]. right. ring. }
    destruct (HB _ B) as [F _]. cbn beta iota in F. apply (mfeas_ln m Sane) in F. unfold xvec in U1. lra.
  - destruct (HB z (ball_centre 2 z r)) as [_ F].
    pose proof (shortfall_depth delta ga z ltac:(lra) F) as D. specialize (U z).
    assert (Hb : 0 <= be) by (destruct G as [_ _ G3 G4 _]; destruct b; [destruct (G3 eq_refl) as [_ ->]; lra|destruct (G4 eq_refl); lra]).
    assert (rho <= delta / revenue m z). { apply Rmult_le_reg_r with (revenue m z); auto. replace (delta / revenue m z * revenue m z) with delta by (field; lra). lra. }
    unfold along. change (coords g) with (xvec g). change (coords x) with (xvec x). lra.
Qed.
Lemma profit_converges (opt : Options RNum) p (e : Ell RNum) (gamma t delta rho : R) z r : profit_ok p -> about p m -> 0 <= gamma ->
  proper 2 e -> vecn 2 (e_xc e) -> 0 < r -> 0 < rho -> rho <= r -> rho * revenue m z <= delta -> gamma + delta <= t ->
  (forall y, ball 2 z r y -> mfeas m (y 0%nat) (y 1%nat) /\ t <= mprofit m (y 0%nat) (y 1%nat) /\ pts 2 e y) ->
  tolerance opt <= rho * rho -> (INR 2 + 1) * ln (vol2 2 e / (r * r) ^ 2) < INR (max_iters opt) ->
  exists p' e' gamma' x k, cutting_plane_optim (profit_assess (N := RNum)) (ell_space (N := RNum) single) opt p e gamma = Ok (p', e', gamma', (Some x, k)) /\
    mfeas m (coords x 0%nat) (coords x 1%nat) /\ gamma' = mprofit m (coords x 0%nat) (coords x 1%nat) /\ t - delta < gamma'.
Proof.
  intros Hp Ha Hg HP Hxc Hr Hrho Hrr Hd Ht HB Htol Hm.
  assert (Hd0 : 0 <= delta). { assert (0 < revenue m z) by (rewrite revenue_exp; apply exp_pos). nra. }
  destruct (optim_bound_margin single single_sat single_deep 2 inv_profit ltac:(lia) z r Hr single_shrink rho (beats_by delta) _ opt p e gamma
     (profit_cuts delta Hd0) (profit_margin delta z r rho Hr Hrho Hrr Hd)) as (p' & e' & ga & x & k & E & Hna & _); auto.
  - split; auto.
  - intros y Hy. destruct (HB y Hy) as (F1 & F2 & F3). split; auto. split; auto. lra.
  - exists p', e', ga, x, k. split; auto.
    destruct (profit_best_R _ opt p m e gamma p' e' ga x k Hp Ha Sane E) as (_ & F & G). split; [exact F|]. split; [exact G|].
    apply Rnot_le_lt. intros Hle. apply Hna. intros y Hy. destruct (HB y Hy) as (F1 & F2 & F3). split; auto. lra.
Qed.

Lemma exp_up d : 0 <= d <= 1 / 2 -> exp d <= 1 + 2 * d.
Proof.
  intros Hd. pose proof (exp_ineq1_le (- d)) as H. rewrite exp_Ropp in H. pose proof (exp_pos d) as P.
  apply Rmult_le_compat_r with (r := exp d) in H; [|lra]. rewrite Rinv_l in H by lra. nra.
Qed.
Definition steep : R := Rabs (m_a m 0%nat) + Rabs (m_a m 1%nat).
Lemma steep_along u y d : Rabs (y 0%nat - u 0%nat) <= d -> Rabs (y 1%nat - u 1%nat) <= d ->
  Rabs ((m_a m 0%nat * y 0%nat + m_a m 1%nat * y 1%nat) - (m_a m 0%nat * u 0%nat + m_a m 1%nat * u 1%nat)) <= steep * d.
Proof.
  intros H0 H1. replace (_ - _) with (m_a m 0%nat * (y 0%nat - u 0%nat) + m_a m 1%nat * (y 1%nat - u 1%nat)) by ring.
  eapply Rle_trans; [apply Rabs_triang|]. rewrite !Rabs_mult. unfold steep. rewrite Rmult_plus_distr_r.
  apply Rplus_le_compat; apply Rmult_le_compat_l; auto using Rabs_pos.
Qed.
Lemma abs_le a b : Rabs a <= b -> - b <= a <= b.
Proof. intros H. split; [pose proof (Rle_abs (- a)) as K; rewrite Rabs_Ropp in K; lra|pose proof (Rle_abs a); lra]. Qed.
Lemma exp_mono a b : a <= b -> exp a <= exp b.
Proof. intros [H|H]; [left; now apply exp_increasing|rewrite H; apply Rle_refl]. Qed.
Lemma revenue_pos u : 0 < revenue m u.
Proof. rewrite revenue_exp. apply exp_pos. Qed.
Lemma revenue_near u y d : Rabs (y 0%nat - u 0%nat) <= d -> Rabs (y 1%nat - u 1%nat) <= d ->
  revenue m u * (1 - steep * d) <= revenue m y <= revenue m u * exp (steep * d).
Proof.
  intros H0 H1. pose proof (abs_le _ _ (steep_along u y d H0 H1)) as HA. pose proof (revenue_pos u) as P.
  assert (revenue m y = revenue m u * exp ((m_a m 0%nat * y 0%nat + m_a m 1%nat * y 1%nat) - (m_a m 0%nat * u 0%nat + m_a m 1%nat * u 1%nat))) as ->.
  { rewrite !revenue_exp, <- exp_plus. f_equal. ring. }
  split; apply Rmult_le_compat_l; try lra.
  - eapply Rle_trans; [|apply exp_ineq1_le]. lra.
  - apply exp_mono. lra.
Qed.
Lemma profit_near u y d : 0 <= d <= 1 / 2 -> Rabs (y 0%nat - u 0%nat) <= d -> Rabs (y 1%nat - u 1%nat) <= d ->
  0 <= mprofit m (u 0%nat) (u 1%nat) -> mprofit m (u 0%nat) (u 1%nat) - (steep + 2) * d * revenue m u <= mprofit m (y 0%nat) (y 1%nat).
Proof.
  intros Hd H0 H1 Hu. destruct (revenue_near u y d H0 H1) as [R1 _]. pose proof (revenue_profit u) as Eu. pose proof (revenue_profit y) as Ey.
  assert (forall i, Rabs (y i - u i) <= d -> exp (y i) <= exp (u i) * (1 + 2 * d)) as HE.
  { intros i Hi. apply abs_le in Hi. replace (y i) with (u i + (y i - u i)) by ring. rewrite exp_plus.
    apply Rmult_le_compat_l; [left; apply exp_pos|]. eapply Rle_trans; [apply exp_mono; apply Hi|]. now apply exp_up. }
  destruct Sane as (_ & _ & P0 & P1 & _).
  pose proof (Rmult_le_compat_l _ _ _ P0 (HE 0%nat H0)) as C0. pose proof (Rmult_le_compat_l _ _ _ P1 (HE 1%nat H1)) as C1.
  set (Cu := m_p m 0%nat * exp (u 0%nat) + m_p m 1%nat * exp (u 1%nat)) in *.
  assert (m_p m 0%nat * exp (y 0%nat) + m_p m 1%nat * exp (y 1%nat) <= Cu * (1 + 2 * d)) as CC by (unfold Cu; nra).
  assert (Cu <= revenue m u) by lra. nra.
Qed.
Lemma ball2_near z r y : 0 < r -> ball 2 z r y -> Rabs (y 0%nat - z 0%nat) <= r /\ Rabs (y 1%nat - z 1%nat) <= r.
Proof.
  intros Hr H. unfold ball, dot in H. cbn [Rsum] in H.
  destruct (in_unit (y 0%nat - z 0%nat) (y 1%nat - z 1%nat) r Hr ltac:(lra)) as [A B]. split; apply Rabs_le; lra.
Qed.
(** within [(2 steep + 6) r revenue] of every feasible point well inside *)
Lemma profit_near_best (opt : Options RNum) p (e : Ell RNum) (gamma : R) u r : profit_ok p -> about p m -> 0 <= gamma ->
  proper 2 e -> vecn 2 (e_xc e) -> 0 < r -> mfeas m (u 0%nat) (u 1%nat) ->
  gamma + (2 * steep + 6) * r * revenue m u <= mprofit m (u 0%nat) (u 1%nat) ->
  (forall y, ball 2 u (2 * r) y -> pts 2 e y) ->
  tolerance opt <= r * r -> (INR 2 + 1) * ln (vol2 2 e / (r * r) ^ 2) < INR (max_iters opt) ->
  exists p' e' gamma' x k, cutting_plane_optim (profit_assess (N := RNum)) (ell_space (N := RNum) single) opt p e gamma = Ok (p', e', gamma', (Some x, k)) /\
    mfeas m (coords x 0%nat) (coords x 1%nat) /\ gamma' = mprofit m (coords x 0%nat) (coords x 1%nat) /\
    mprofit m (u 0%nat) (u 1%nat) - (2 * steep + 6) * r * revenue m u < gamma'.
Proof.
  intros Hp Ha Hg HP Hxc Hr Hu Hgu Hin Htol Hm. pose proof (revenue_pos u) as RP. pose proof (costs_pos m Sane u) as HC.
  pose proof (revenue_profit u) as HR.
  assert (S0 : 0 <= steep) by (unfold steep; pose proof (Rabs_pos (m_a m 0%nat)); pose proof (Rabs_pos (m_a m 1%nat)); lra).
  assert (Small : (2 * steep + 6) * r <= 1).
  { apply Rmult_le_reg_r with (revenue m u); auto. lra. }
  assert (r <= 1 / 6) by nra. assert (0 <= steep * r <= 1 / 2) by nra.
  assert (Hu0 : 0 <= mprofit m (u 0%nat) (u 1%nat)). { assert (0 <= (2 * steep + 6) * r * revenue m u) by (apply Rmult_le_pos; [nra|lra]). lra. }
  set (z := fun i => match i with O => u 0%nat - r | _ => u 1%nat end).
  replace (mprofit m (u 0%nat) (u 1%nat) - (2 * steep + 6) * r * revenue m u) with
    ((mprofit m (u 0%nat) (u 1%nat) - (steep + 2) * (2 * r) * revenue m u) - 2 * r * revenue m u) by ring.
  eapply profit_converges with (r := r) (rho := r) (z := z); eauto.
  - lra.
  - destruct (revenue_near u z r) as [_ R2]; unfold z.
    { replace (u 0%nat - r - u 0%nat) with (- r) by ring. rewrite Rabs_Ropp, Rabs_pos_eq; lra. }
    { replace (u 1%nat - u 1%nat) with 0 by ring. rewrite Rabs_R0. lra. }
    pose proof (exp_up _ H0). fold z. assert (revenue m z <= revenue m u * 2). { eapply Rle_trans; [exact R2|]. apply Rmult_le_compat_l; lra. } nra.
  - lra.
  - intros y Hy. destruct (ball2_near z r y Hr Hy) as [Y0 Y1]. pose proof Y0 as Y0'. apply abs_le in Y0'. unfold z in Y0, Y1, Y0'.
    split; [|split].
    + apply (mfeas_ln m Sane) in Hu. apply (mfeas_ln m Sane). lra.
    + apply profit_near; try lra.
      apply Rabs_le. lra.
    + apply Hin. unfold ball, dot in *. cbn [Rsum] in *. unfold z in Hy. nra.
Qed.
(** a run that stopped on a rejected cut has proved that nothing in the start beats its answer *)
Lemma profit_certificate (opt : Options RNum) p (e : Ell RNum) (gamma : R) p' e' (gamma' : R) ans k : profit_ok p -> about p m -> 0 <= gamma ->
  valid 2 e -> vecn 2 (e_xc e) -> 0 < tolerance opt ->
  cutting_plane_optim (profit_assess (N := RNum)) (ell_space (N := RNum) single) opt p e gamma = Ok (p', e', gamma', (ans, k)) ->
  (k < max_iters opt)%nat -> tolerance opt <= e_tsq e' ->
  forall u, pts 2 e u -> mfeas m (u 0%nat) (u 1%nat) -> mprofit m (u 0%nat) (u 1%nat) < gamma'.
Proof.
  intros Hp Ha Hg HV Hxc Htol E Hk Ht u Hu Hf.
  destruct (optim_keeps single single_sat single_deep single_step 2 inv_profit ltac:(lia) (beats_by 0) _ opt p e gamma p' e' gamma' ans k
    (profit_cuts 0 (Rle_refl 0)) (conj Hp (conj Ha Hg)) HV Hxc Htol E) as [_ K].
  specialize (K Hk Ht u Hu). apply Rnot_le_lt. intros Hle. apply K. split; auto. rewrite Rplus_0_r. exact Hle.
Qed.
End Conv.

(** ** robust *)
Section Robust.
Variable b : box.
Hypothesis Sane : box_sane b.
(** the largest revenue at [u] with the worst price factor *)
Definition top_revenue (u : vec) : R :=
  b_P b * exp (b_a b 0%nat * u 0%nat + b_u b 0%nat * Rabs (u 0%nat) + (b_a b 1%nat * u 1%nat + b_u b 1%nat * Rabs (u 1%nat))).
Definition top_steep : R := Rabs (b_a b 0%nat) + b_u b 0%nat + (Rabs (b_a b 1%nat) + b_u b 1%nat).
Definition rb_inv (r : ProfitRb RNum) (gamma : R) : Prop := rb_ok r /\ rb_about r b /\ 0 <= gamma.
Definition rb_beats (delta : R) (u : vec) (gamma : R) : Prop := robust b (gamma + delta) (u 0%nat) (u 1%nat).

Lemma robust_less t t' y0 y1 : t' <= t -> robust b t y0 y1 -> robust b t' y0 y1.
Proof. intros Ht H m Hm. destruct (H m Hm). split; auto. lra. Qed.
Lemma worst_sane y : sane (worst_market b y).
Proof. destruct Sane as (B1 & B2 & B3 & B4 & B5 & _). repeat split; assumption. Qed.
Lemma worst_abs y i : (i < 2)%nat -> Rabs (worst (b_a b) (b_u b) y i) <= Rabs (b_a b i) + b_u b i.
Proof.
  intros Hi. assert (0 <= b_u b i) by (destruct Sane as (_ & _ & _ & _ & _ & H6 & H7); destruct i as [|[|]]; try lia; assumption).
  unfold worst. destruct (Rlt_bool 0 (y i)); [unfold Rminus|]; (eapply Rle_trans; [apply Rabs_triang|]); rewrite ?Rabs_Ropp, (Rabs_pos_eq (b_u b i)); lra.
Qed.
Lemma worst_steep y : steep (worst_market b y) <= top_steep.
Proof. unfold steep, top_steep. cbn [m_a worst_market]. pose proof (worst_abs y 0%nat ltac:(lia)). pose proof (worst_abs y 1%nat ltac:(lia)). lra. Qed.
Lemma worst_term y u i : (i < 2)%nat -> worst (b_a b) (b_u b) y i * u i <= b_a b i * u i + b_u b i * Rabs (u i).
Proof.
  intros Hi. assert (0 <= b_u b i) by (destruct Sane as (_ & _ & _ & _ & _ & H6 & H7); destruct i as [|[|]]; try lia; assumption).
  pose proof (Rle_abs (u i)) as K1. pose proof (Rle_abs (- u i)) as K2. rewrite Rabs_Ropp in K2.
  unfold worst. destruct (Rlt_bool 0 (y i)); nra.
Qed.
Lemma worst_revenue y u : revenue (worst_market b y) u <= top_revenue u.
Proof.
  rewrite (revenue_exp _ (worst_sane y)). unfold top_revenue. cbn [m_P m_a worst_market]. rewrite exp_plus, exp_ln by apply Sane.
  apply Rmult_le_compat_l; [left; apply Sane|]. apply exp_mono. pose proof (worst_term y u 0%nat ltac:(lia)). pose proof (worst_term y u 1%nat ltac:(lia)). lra.
Qed.
Lemma robust_feas t u : robust b t (u 0%nat) (u 1%nat) -> u 0%nat <= ln (b_k b).
Proof. intros H. destruct (H _ (worst_in b u Sane)) as [F _]. apply (mfeas_ln _ (worst_sane u)) in F. exact F. Qed.
Lemma robust_profit t u y : robust b t (u 0%nat) (u 1%nat) -> t <= mprofit (worst_market b y) (u 0%nat) (u 1%nat).
Proof. intros H. apply (H _ (worst_in b y Sane)). Qed.

Lemma rb_cuts delta : 0 <= delta -> optim_cuts single_sat single_deep 2 rb_inv (rb_beats delta) (profit_rb_assess (N := RNum)).
Proof.
  intros Hd o x gamma o' gamma' g c sh (H1 & H2 & H3) Hx E.
  destruct (rb_good o b x gamma H1 H2 Sane Hx H3) as (p' & ga & g2 & be & s & E2 & O1 & O2 & O3 & G1 & G2 & G3 & G4 & G5).
  rewrite E in E2. inversion E2; subst p' ga g2 c s.
  split; [split; auto; split; auto; lra|]. split; auto. split; [|split; [|split]].
  - unfold single_deep. cbn. destruct sh; [destruct (G3 eq_refl) as [-> _]; lra|destruct (G4 eq_refl); lra].
  - intros ->. apply G4. auto.
  - intros y. apply robust_less. cbn [num RNum] in *. lra.
  - intros y K. assert (K3 : robust b gamma' (y 0%nat) (y 1%nat)). { eapply robust_less; [|exact K]. cbn [num RNum] in *. lra. }
    specialize (G5 y K3). unfold single_sat. cbn [sc_beta]. unfold along.
    change (coords g) with (xvec g). change (coords x) with (xvec x). destruct sh; cbn [offset]; auto.
    destruct (G3 eq_refl) as [E' _]. lra.
Qed.
Lemma rb_margin delta z r rho : 0 < r -> 0 < rho -> rho <= r -> (forall y, rho * revenue (worst_market b y) z <= delta) ->
  optim_margin 2 rb_inv z r (rb_beats delta) rho (profit_rb_assess (N := RNum)).
Proof.
  intros Hr Hrho Hrr Hd o x gamma (H1 & H2 & H3) Hx.
  destruct (rb_good_under o b x gamma H1 H2 Sane Hx H3) as (p' & ga & g & be & s & E & O1 & O2 & O3 & G1 & G2 & G3 & G4 & G5 & U).
  exists p', ga, g, (mkSingle (N := RNum) be), s. split; [exact E|]. intros HB. destruct U as [[U1 U2]|U].
  - unfold along, dot, coords. cbn [Rsum]. rewrite U2. cbn [nth].
    assert (B : ball 2 z r (fun i => match i with O => z 0%nat + r | _ => z 1%nat end)).
    { unfold ball, dot. cbn [Rsum]. right. ring. }
    pose proof (robust_feas _ _ (HB _ B)) as F. cbn beta iota in F. unfold xvec in U1. lra.
  - pose proof (HB z (ball_centre 2 z r)) as F. apply robust_profit with (y := xvec x) in F.
    pose proof (shortfall_depth _ (worst_sane (xvec x)) delta ga z ltac:(lra) F) as D. specialize (U z).
    assert (Hb : 0 <= be) by (destruct s; [destruct (G3 eq_refl) as [-> _]; lra|destruct (G4 eq_refl); lra]).
    pose proof (revenue_pos _ (worst_sane (xvec x)) z) as RP. specialize (Hd (xvec x)).
    assert (rho <= delta / revenue (worst_market b (xvec x)) z).
    { apply Rmult_le_reg_r with (revenue (worst_market b (xvec x)) z); auto. unfold Rdiv. rewrite Rmult_assoc, Rinv_l by lra. lra. }
    unfold along. change (coords g) with (xvec g). change (coords x) with (xvec x). lra.
Qed.
Lemma rb_near_best (opt : Options RNum) o (e : Ell RNum) (gamma t : R) u r : rb_ok o -> rb_about o b -> 0 <= gamma ->
  proper 2 e -> vecn 2 (e_xc e) -> 0 < r -> robust b t (u 0%nat) (u 1%nat) ->
  gamma + (2 * top_steep + 6) * r * top_revenue u <= t ->
  (forall y, ball 2 u (2 * r) y -> pts 2 e y) ->
  tolerance opt <= r * r -> (INR 2 + 1) * ln (vol2 2 e / (r * r) ^ 2) < INR (max_iters opt) ->
  exists o' e' gamma' x k, cutting_plane_optim (profit_rb_assess (N := RNum)) (ell_space (N := RNum) single) opt o e gamma = Ok (o', e', gamma', (Some x, k)) /\
    robust b gamma' (coords x 0%nat) (coords x 1%nat) /\ t - (2 * top_steep + 6) * r * top_revenue u < gamma'.
Proof.
  intros Hp Ha Hg HP Hxc Hr Hu Hgu Hin Htol Hm.
  assert (S0 : 0 <= top_steep) by (unfold top_steep; pose proof (Rabs_pos (b_a b 0%nat)); pose proof (Rabs_pos (b_a b 1%nat)); destruct Sane as (_ & _ & _ & _ & _ & H6 & H7); lra).
  assert (RP : 0 < top_revenue u) by (apply Rmult_lt_0_compat; [apply Sane|apply exp_pos]).
  assert (Small : (2 * top_steep + 6) * r <= 1).
  { apply Rmult_le_reg_r with (top_revenue u); auto.
    pose proof (robust_profit t u u Hu) as K. pose proof (revenue_profit _ (worst_sane u) u) as K2. pose proof (costs_pos _ (worst_sane u) u) as K3.
    pose proof (worst_revenue u u). lra. }
  assert (r <= 1 / 6) by nra. assert (0 <= top_steep * r <= 1 / 2) by nra.
  assert (Ht0 : 0 <= t). { assert (0 <= (2 * top_steep + 6) * r * top_revenue u) by (apply Rmult_le_pos; [nra|lra]). lra. }
  set (z := fun i => match i with O => u 0%nat - r | _ => u 1%nat end).
  set (delta := 2 * r * top_revenue u). assert (Hd0 : 0 <= delta) by (unfold delta; nra).
  set (t' := t - (top_steep + 2) * (2 * r) * top_revenue u).
  assert (Et : t - (2 * top_steep + 6) * r * top_revenue u = t' - delta) by (unfold t', delta; ring).
  assert (HB : forall y, ball 2 z r y -> robust b t' (y 0%nat) (y 1%nat) /\ pts 2 e y).
  { intros y Hy. destruct (ball2_near z r y Hr Hy) as [Y0 Y1]. pose proof Y0 as Y0'. apply abs_le in Y0'. unfold z in Y0, Y1, Y0'. split.
    - apply (robust_worst b t' y Sane). pose proof (robust_feas t u Hu) as F. split; [apply (mfeas_ln _ (worst_sane y)); cbn [m_k worst_market]; lra|].
      pose proof (robust_profit t u y Hu) as K.
      pose proof (profit_near _ (worst_sane y) u y (2 * r) ltac:(lra) ltac:(apply Rabs_le; lra) ltac:(lra) ltac:(lra)) as N.
      eapply Rle_trans; [|exact N]. unfold t'.
      assert ((steep (worst_market b y) + 2) * (2 * r) * revenue (worst_market b y) u <= (top_steep + 2) * (2 * r) * top_revenue u); [|lra].
      pose proof (revenue_pos _ (worst_sane y) u). assert (0 <= steep (worst_market b y)) by (unfold steep; pose proof (Rabs_pos (m_a (worst_market b y) 0%nat)); pose proof (Rabs_pos (m_a (worst_market b y) 1%nat)); lra).
      apply Rmult_le_compat; [nra|lra| |apply worst_revenue]. apply Rmult_le_compat_r; [lra|]. pose proof (worst_steep y). lra.
    - apply Hin. unfold ball, dot in *. cbn [Rsum] in *. unfold z in Hy. nra. }
  destruct (optim_bound_margin single single_sat single_deep 2 rb_inv ltac:(lia) z r Hr single_shrink r (rb_beats delta) _ opt o e gamma
     (rb_cuts delta Hd0)) as (p' & e' & ga & x & k & E & Hna & _); auto.
  - apply rb_margin; try lra. intros y.
    destruct (revenue_near _ (worst_sane y) u z r) as [_ R2]; unfold z.
    { replace (u 0%nat - r - u 0%nat) with (- r) by ring. rewrite Rabs_Ropp, Rabs_pos_eq; lra. }
    { replace (u 1%nat - u 1%nat) with 0 by ring. rewrite Rabs_R0. lra. }
    fold z. pose proof (worst_steep y) as WS. pose proof (worst_revenue y u) as WR. pose proof (revenue_pos _ (worst_sane y) u) as WP.
    assert (exp (steep (worst_market b y) * r) <= 2). { eapply Rle_trans; [apply exp_mono with (b := top_steep * r); nra|]. pose proof (exp_up _ H0). lra. }
    assert (revenue (worst_market b y) z <= top_revenue u * 2). { eapply Rle_trans; [exact R2|]. apply Rmult_le_compat; try lra. left; apply exp_pos. }
    unfold delta. nra.
  - split; auto.
  - intros y Hy. destruct (HB y Hy) as (F1 & F3). split; auto. eapply robust_less; [|exact F1]. cbn [num RNum] in *. lra.
  - exists p', e', ga, x, k. split; auto.
    destruct (optim_accepts single single_sat single_deep 2%nat rb_inv (rb_beats delta) (profit_rb_assess (N := RNum)) opt o e gamma p' e' ga x k) as (Hx & o1 & g1 & o2 & cut & (K1 & K2 & K3) & K4); eauto.
    { apply rb_cuts; auto. } { split; auto. } { apply valid_wf, HP. }
    destruct (rb_good o1 b x g1 K1 K2 Sane Hx K3) as (p1 & ga2 & g2 & be & s & E2 & O1 & O2 & O3 & G1 & G2 & G3 & G4 & G5).
    rewrite K4 in E2. inversion E2; subst p1 ga2 s. split; [apply G3; reflexivity|]. rewrite Et.
    apply Rnot_le_lt. intros Hle. apply Hna. intros y Hy. eapply robust_less; [|apply (HB y Hy)]. cbn [num RNum] in *. lra.
Qed.
Lemma rb_certificate (opt : Options RNum) o (e : Ell RNum) (gamma : R) o' e' (gamma' : R) ans k : rb_ok o -> rb_about o b -> 0 <= gamma ->
  valid 2 e -> vecn 2 (e_xc e) -> 0 < tolerance opt ->
  cutting_plane_optim (profit_rb_assess (N := RNum)) (ell_space (N := RNum) single) opt o e gamma = Ok (o', e', gamma', (ans, k)) ->
  (k < max_iters opt)%nat -> tolerance opt <= e_tsq e' ->
  forall u, pts 2 e u -> ~ robust b gamma' (u 0%nat) (u 1%nat).
Proof.
  intros Hp Ha Hg HV Hxc Htol E Hk Ht u Hu Hf.
  destruct (optim_keeps single single_sat single_deep single_step 2 rb_inv ltac:(lia) (rb_beats 0) _ opt o e gamma o' e' gamma' ans k
    (rb_cuts 0 (Rle_refl 0)) (conj Hp (conj Ha Hg)) HV Hxc Htol E) as [_ K].
  apply (K Hk Ht u Hu). eapply robust_less; [|exact Hf]. rewrite Rplus_0_r. apply Rle_refl.
Qed.
End Robust.
