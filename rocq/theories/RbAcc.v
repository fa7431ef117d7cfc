(** The robust profit oracle in binary64 (C115). *)
From Coq Require Import ZArith Reals Lra Lia Bool Arith List.
From Flocq Require Import Core IEEE754.BinarySingleNaN.
From Verif Require Import Num Res Arr ArrLemmas CuttingPlane EllCalc Ell EllRun Spec RunSpec FloatLemmas FloatErr StepAccSpec StepRunSpec StepRun Profit ProfitSpec ProfitMore ProfAccSpec ProfAcc ProfAccRun RbAccSpec LevelRun.
Import ListNotations.
Local Open Scope R_scope.
#[local] Opaque fadd fsub fmul fdiv fsqrt fofZ.

(** two markets that differ in the elasticities *)
Definition tilt (a a' z : vec) : R := (a 0%nat * z 0%nat + a 1%nat * z 1%nat) - (a' 0%nat * z 0%nat + a' 1%nat * z 1%nat).
Lemma rev_eq P a z : P * Rpower (exp (z 0%nat)) (a 0%nat) * Rpower (exp (z 1%nat)) (a 1%nat) = P * exp (a 0%nat * z 0%nat + a 1%nat * z 1%nat).
Proof. unfold Rpower. rewrite !ln_exp, Rmult_assoc, <- exp_plus. reflexivity. Qed.
Lemma tilt_earns P k a a' pr nu h t (z : vec) : 0 < P -> 0 < k -> 0 <= h -> tilt a a' z <= h -> earns (worse nu (mkMarket P k a pr)) t z -> earns (worse (nu - h) (mkMarket P k a' pr)) t z.
Proof.
  intros HP Hk Hh HT [A B]. unfold earns, mfeas, mprofit, profit_at, worse in *. cbn [m_P m_k m_a m_p] in *. rewrite rev_eq in *. split.
  - eapply Rle_trans; [exact A|]. apply Rmult_le_compat_l; [lra|]. apply exp_le. lra.
  - eapply Rle_trans; [exact B|]. apply Rplus_le_compat_r. rewrite !Rmult_assoc, <- !exp_plus. apply Rmult_le_compat_l; [lra|]. apply exp_le. unfold tilt in HT. lra.
Qed.
Lemma worse_zero m nu t z : earns (worse nu m) t z <-> earns (worse 0 (worse nu m)) t z.
Proof. unfold worse. cbn. rewrite Ropp_0, exp_0, !Rmult_1_r. reflexivity. Qed.
Lemma worst_worse mu b y : worst_market (worse_box mu b) y = worse mu (worst_market b y). Proof. reflexivity. Qed.
Lemma sane_worse mu b : box_sane b -> box_sane (worse_box mu b).
Proof. intros (A & B & C). pose proof (exp_pos (- mu)). split; [cbn; nra|]. split; [cbn; nra|exact C]. Qed.

Section R.
Variable lm : Libm.
Notation F := (FNum lm).
Variables (dl X L T : R).
Hypotheses (Hdl : 0 <= dl <= / 1000000) (HE : exp_near lm L dl) (HL : ln_near lm T dl).
Notation eps := (prof_eps dl).
Notation inbox := (fun z : vec => forall i, (i < 2)%nat -> Rabs (z i) <= X).
Lemma fin_nth (a : Arr F) i : all_finite a -> is_finite (nth i (adata a) (n0 (N := F)) : f64) = true.
Proof. intros H. destruct (Nat.lt_ge_cases i (length (adata a))) as [A|A]; [exact (proj1 (Forall_nth _ _) H i _ A)|]. rewrite nth_overflow by exact A. apply n0_fin. Qed.
Lemma rb_sane (r : ProfitRb F) : rb_fits r X L T -> box_sane (rb_box r).
Proof.
  intros H. pose proof (rf_low _ _ _ _ H 0%nat ltac:(lia)) as A. pose proof (rf_low _ _ _ _ H 1%nat ltac:(lia)) as B. pose proof (exp_pos (X + 1 - T)) as E. destruct (rf_u _ _ _ _ H) as [U0 U1].
  repeat split; try apply exp_pos; auto; cbn [b_p rb_box]; lra.
Qed.
(** the elasticities of a call *)
Lemma rb_call_elast (r : ProfitRb F) (y : Arr F) : rb_ok r -> rb_fits r X L T -> in_square X y -> exists a : Arr F, profit_rb_elast r y = Ok a /\ two a /\ all_finite a /\
  forall i, (i < 2)%nat -> Rabs (fcoords a i - worst (b_a (rb_box r)) (b_u (rb_box r)) (fcoords y) i) <= uu * (Rabs (fcoords (rb_elast r) i) + b_u (rb_box r) i) + ee.
Proof.
  intros Ho Hf (Ty & Fy & By). destruct (rb_elast_ok r y Ho Ty) as (a & E & Ta & V). exists a. split; [exact E|]. split; [exact Ta|].
  assert (K : forall i, (i < 2)%nat -> is_finite (nth i (adata a) (n0 (N := F)) : f64) = true /\ Rabs (fcoords a i - worst (b_a (rb_box r)) (b_u (rb_box r)) (fcoords y) i) <= uu * (Rabs (fcoords (rb_elast r) i) + b_u (rb_box r) i) + ee).
  { intros i Hi. specialize (V i Hi). unfold at_ in V. set (u := (if (i =? 0)%nat then fst (rb_uie r) else snd (rb_uie r)) : f64) in *.
    assert (Fu : is_finite u = true) by (unfold u; destruct (i =? 0)%nat; [exact (rf_u0 _ _ _ _ Hf)|exact (rf_u1 _ _ _ _ Hf)]).
    assert (Vu : b_u (rb_box r) i = B2R u) by (unfold u; cbn [b_u rb_box]; destruct (i =? 0)%nat; reflexivity).
    assert (Pu : 0 <= B2R u) by (rewrite <- Vu; destruct (rf_u _ _ _ _ Hf), i as [|[|]]; [assumption|assumption|lia]).
    assert (Fo : is_finite (nth i (adata (rb_elast r)) (n0 (N := F)) : f64) = true) by (apply fin_nth; exact (rf_el _ _ _ _ Hf)).
    assert (Fv : is_finite (nth i (adata y) (n0 (N := F)) : f64) = true) by (apply fin_nth; exact Fy).
    set (w := (if nltb (n := F) n0 (nth i (adata y) n0) then nopp (n := F) u else u) : f64) in *.
    assert (W : is_finite w = true /\ B2R w = (if Rlt_bool 0 (fcoords y i) then - B2R u else B2R u)).
    { unfold w. cbn [nltb FNum]. rewrite fltb_fin by (exact Fv || apply n0_fin). rewrite n0_val. change (B2R (nth i (adata y) (n0 (N := F)) : f64)) with (fcoords y i). destruct (Rlt_bool 0 (fcoords y i)); [|auto]. cbn [nopp FNum]. split; [rewrite <- Fu; apply is_finite_Bopp|apply B2R_Bopp]. }
    destruct W as [Fw Vw]. assert (A : Rabs (fcoords (rb_elast r) i + B2R w) <= Rabs (fcoords (rb_elast r) i) + B2R u). { eapply Rle_trans; [apply Rabs_triang|]. apply Rplus_le_compat_l. rewrite Vw. destruct (Rlt_bool 0 (fcoords y i)); rewrite ?Rabs_Ropp, Rabs_pos_eq; lra. }
    pose proof (rf_a _ _ _ _ Hf i Hi) as RA. rewrite Vu in RA.
    destruct (fadd_fin (nth i (adata (rb_elast r)) (n0 (N := F)) : f64) w Fo Fw) as [VV FF]. { apply bnd_fin with 100; [change (Rabs (fcoords (rb_elast r) i + B2R w) <= 100); lra|lra]. }
    assert (VA : fcoords a i = rnd (fcoords (rb_elast r) i + B2R w)) by (eapply eq_trans; [exact (f_equal (fun v : f64 => B2R v) V)|exact VV]). split; [rewrite V; exact FF|]. rewrite VA.
    assert (WW : worst (b_a (rb_box r)) (b_u (rb_box r)) (fcoords y) i = fcoords (rb_elast r) i + B2R w). { unfold worst. rewrite Vu, Vw. cbn [b_a rb_box]. destruct (Rlt_bool 0 (fcoords y i)); lra. } rewrite WW, Vu.
    eapply Rle_trans; [apply rnd_err|]. pose proof FcosAcc.uu_small. apply Rplus_le_compat_r. apply Rmult_le_compat_l; lra. }
  split; [|intros i Hi; exact (proj2 (K i Hi))]. apply Forall_nth. intros i d Hi. assert (Hi2 : (i < 2)%nat) by (destruct Ta as [Q _]; eapply Nat.lt_le_trans; [exact Hi|]; apply Nat.eq_le_incl; exact Q). rewrite (nth_indep _ d (n0 (N := F) : f64)) by exact Hi. exact (proj1 (K i Hi2)).
Qed.
(** what the rounding of the elasticities does *)
Lemma tilt_small (r : ProfitRb F) (a y : Arr F) (z : vec) : rb_fits r X L T -> (forall i, (i < 2)%nat -> Rabs (fcoords a i - worst (b_a (rb_box r)) (b_u (rb_box r)) (fcoords y) i) <= uu * (Rabs (fcoords (rb_elast r) i) + b_u (rb_box r) i) + ee) -> inbox z ->
  Rabs (tilt (fcoords a) (worst (b_a (rb_box r)) (b_u (rb_box r)) (fcoords y)) z) <= eps / 4.
Proof.
  intros Hf HA Hz. pose proof (HA 0%nat ltac:(lia)) as A0. pose proof (HA 1%nat ltac:(lia)) as A1. pose proof (Hz 0%nat ltac:(lia)) as Z0. pose proof (Hz 1%nat ltac:(lia)) as Z1. pose proof (rf_X _ _ _ _ Hf) as HX. pose proof (rf_L _ _ _ _ Hf) as HL'. pose proof (rf_rev _ _ _ _ Hf) as RV.
  pose proof (Rabs_pos (B2R (p_log_p_scale (rb_omega r) : f64))) as P0. pose proof FcosAcc.uu_small as U. assert (EE : ee <= uu) by (apply bpow_le; lia). assert (E0 : 0 <= ee) by apply bpow_ge_0. pose proof (eps_eq dl) as EP. destruct (rf_u _ _ _ _ Hf) as [U0 U1].
  set (w := worst (b_a (rb_box r)) (b_u (rb_box r)) (fcoords y)) in *. set (B0 := Rabs (fcoords (rb_elast r) 0%nat) + b_u (rb_box r) 0%nat) in *. set (B1 := Rabs (fcoords (rb_elast r) 1%nat) + b_u (rb_box r) 1%nat) in *.
  replace (tilt (fcoords a) w z) with ((fcoords a 0%nat - w 0%nat) * z 0%nat + (fcoords a 1%nat - w 1%nat) * z 1%nat) by (unfold tilt; ring). eapply Rle_trans; [apply Rabs_triang|]. rewrite !Rabs_mult.
  assert (M0 : Rabs (fcoords a 0%nat - w 0%nat) * Rabs (z 0%nat) <= (uu * B0 + ee) * X) by (apply Rmult_le_compat; auto using Rabs_pos). assert (M1 : Rabs (fcoords a 1%nat - w 1%nat) * Rabs (z 1%nat) <= (uu * B1 + ee) * X) by (apply Rmult_le_compat; auto using Rabs_pos).
  assert (K1 : uu * ((B0 + B1) * X) <= uu * 200) by (apply Rmult_le_compat_l; lra). assert (K2 : ee * X <= uu * 200) by (apply Rmult_le_compat; lra). lra.
Qed.
Lemma rb_call (r : ProfitRb F) (y : Arr F) (ga : f64) : rb_ok r -> rb_fits r X L T -> in_square X y -> level_fits L ga -> 0 <= B2R ga ->
  exists r' ga' g (b : f64) sh, profit_rb_assess r y (ga : F) = Ok (r', ga', ((g, mkSingle (N := F) b), sh)) /\
    rb_ok r' /\ rb_same r r' /\ level_fits L ga' /\ two g /\ all_finite g /\ is_finite b = true /\ B2R ga <= B2R (ga' : f64) + prof_drop dl L /\
    (sh = false -> ga' = ga /\ 0 < B2R b) /\
    (sh = true -> robust (worse_box (- (4 * eps)) (rb_box r)) (B2R ga) (fcoords y 0%nat) (fcoords y 1%nat) /\ good_rb dl (rb_box r) (B2R (ga' : f64)) (fcoords y) /\ B2R b = 0) /\
    (0 <= B2R (ga' : f64) -> forall z, inbox z -> robust (worse_box (rb_margin dl X) (rb_box r)) (B2R (ga' : f64)) (z 0%nat) (z 1%nat) -> along 2 (fcoords g) z (fcoords y) + B2R b <= 0).
Proof.
  intros Ho Hf Hy Hg G0. destruct (rb_call_elast r y Ho Hf Hy) as (a & E & Ta & Fa & Va). pose proof (rb_sane r Hf) as Sn. set (p := set_elast (rb_omega r) a). pose proof FcosAcc.uu_small as U. assert (EE : ee <= uu) by (apply bpow_le; lia). pose proof (eps_range dl Hdl) as EP.
  assert (Ok' : profit_ok p) by (destruct Ho as [(I & Q & _) _]; split; [exact I|split; [exact Q|exact Ta]]). pose proof (rf_X _ _ _ _ Hf) as HX. pose proof (rf_L _ _ _ _ Hf) as HL'.
  assert (Ab : forall i, (i < 2)%nat -> Rabs (fcoords a i) <= Rabs (fcoords (rb_elast r) i) + b_u (rb_box r) i + 1 / 1000).
  { intros i Hi. specialize (Va i Hi). pose proof (rf_a _ _ _ _ Hf i Hi) as RA. assert (W : Rabs (worst (b_a (rb_box r)) (b_u (rb_box r)) (fcoords y) i) <= Rabs (fcoords (rb_elast r) i) + b_u (rb_box r) i).
    { assert (0 <= b_u (rb_box r) i) by (destruct (rf_u _ _ _ _ Hf), i as [|[|]]; [assumption|assumption|lia]). unfold worst. change (b_a (rb_box r) i) with (fcoords (rb_elast r) i). pose proof (Rabs_pos (fcoords (rb_elast r) i)). destruct (Rlt_bool 0 (fcoords y i)); apply Rabs_le; pose proof (Rle_abs (fcoords (rb_elast r) i)); pose proof (Rle_abs (- fcoords (rb_elast r) i)) as Q; rewrite Rabs_Ropp in Q; lra. }
    pose proof (Rabs_triang (fcoords a i - worst (b_a (rb_box r)) (b_u (rb_box r)) (fcoords y) i) (worst (b_a (rb_box r)) (b_u (rb_box r)) (fcoords y) i)) as TR. replace (fcoords a i - worst (b_a (rb_box r)) (b_u (rb_box r)) (fcoords y) i + worst (b_a (rb_box r)) (b_u (rb_box r)) (fcoords y) i) with (fcoords a i) in TR by ring.
    set (B := Rabs (fcoords (rb_elast r) i) + b_u (rb_box r) i) in *. assert (0 <= B) by (eapply Rle_trans; [apply Rabs_pos|exact W]). assert (uu * B <= / 10 ^ 12 * 99) by (apply Rmult_le_compat; lra). lra. }
  assert (Pf : prof_fits p X L T).
  { pose proof (rf_a _ _ _ _ Hf) as RA. pose proof (rf_rev _ _ _ _ Hf) as RV. destruct Hf. split; cbn [p set_elast p_log_p_scale p_log_k p_elast p_price_out]; auto; try lra.
    - intros i Hi. specialize (Ab i Hi). specialize (RA i Hi). lra.
    - pose proof (Ab 0%nat ltac:(lia)) as A0. pose proof (Ab 1%nat ltac:(lia)) as A1. set (B0 := Rabs (fcoords (rb_elast r) 0%nat) + b_u (rb_box r) 0%nat) in *. set (B1 := Rabs (fcoords (rb_elast r) 1%nat) + b_u (rb_box r) 1%nat) in *.
      assert ((Rabs (fcoords a 0%nat) + Rabs (fcoords a 1%nat)) * X <= (B0 + B1 + 2 / 1000) * X) by (apply Rmult_le_compat_r; lra). lra. }
  destruct (prof_call lm dl X L T p y Hdl HE HL Ok' Pf Hy ga Hg G0) as (p' & ga' & g & b & sh & EA & O & Sm & Lv & Tg & Ag & Fb & Dr & S0 & S1 & V).
  exists (mkProfitRb (rb_uie r) p' (rb_elast r)), ga', g, b, sh. split; [unfold profit_rb_assess; rewrite E; cbn [bind]; fold p; rewrite EA; reflexivity|].
  split; [split; [exact O|exact (proj2 Ho)]|]. split; [destruct Sm as (Q1 & Q2 & Q3 & Q4); repeat split; [exact Q1|exact Q2|exact Q3]|]. split; [exact Lv|]. split; [exact Tg|]. split; [exact Ag|]. split; [exact Fb|]. split; [exact Dr|]. split; [exact S0|].
  assert (PM : prof_market p = mkMarket (b_P (rb_box r)) (b_k (rb_box r)) (fcoords a) (b_p (rb_box r))) by reflexivity. set (w := worst (b_a (rb_box r)) (b_u (rb_box r)) (fcoords y)) in *.
  assert (WM : worst_market (rb_box r) (fcoords y) = mkMarket (b_P (rb_box r)) (b_k (rb_box r)) w (b_p (rb_box r))) by reflexivity. destruct Sn as (SP & SK & SR). pose proof (conj SP (conj SK SR)) as Sn.
  assert (Ty : Rabs (tilt (fcoords a) w (fcoords y)) <= eps / 4) by (apply (tilt_small r a y); auto; destruct Hy as (_ & _ & Q); exact Q).
  split.
  - intros Hs. destruct (S1 Hs) as (A1 & A2 & A3). rewrite PM in A1, A2. change (yy lm y) with (fcoords y) in A1, A2. split; [|split; [|exact A3]].
    + apply (robust_worst (worse_box (- (4 * eps)) (rb_box r)) (B2R ga) (fcoords y)); [apply sane_worse; exact Sn|]. rewrite worst_worse, WM. replace (- (4 * eps)) with (- (3 * eps) - eps) by ring. apply (tilt_earns _ _ (fcoords a)); auto; [lra|]. apply Rabs_le_inv in Ty. lra.
    + assert (F1 : mfeas (worse (- (4 * eps)) (worst_market (rb_box r) (fcoords y))) (fcoords y 0%nat) (fcoords y 1%nat)). { destruct A1 as [A1 _]. unfold mfeas, worse in *. cbn [m_k worst_market] in *. eapply Rle_trans; [exact A1|]. apply Rmult_le_compat_l; [lra|]. apply exp_le. lra. }
      assert (GG : Rabs (B2R (ga' : f64) - mprofit (worst_market (rb_box r) (fcoords y)) (fcoords y 0%nat) (fcoords y 1%nat)) <= 2 * eps * turnover (worst_market (rb_box r) (fcoords y)) (fcoords y)).
      { rewrite WM. unfold mprofit, profit_at, turnover in *. cbn [m_P m_a m_p] in *. rewrite rev_eq in *. set (C := b_p (rb_box r) 0%nat * exp (fcoords y 0%nat) + b_p (rb_box r) 1%nat * exp (fcoords y 1%nat)) in *.
        assert (C0 : 0 <= C) by (destruct SR as (Q1 & Q2 & _); unfold C; apply Rplus_le_le_0_compat; apply Rmult_le_pos; auto; left; apply exp_pos).
        assert (N := near_exp (eps / 4) (fcoords a 0%nat * fcoords y 0%nat + fcoords a 1%nat * fcoords y 1%nat) (w 0%nat * fcoords y 0%nat + w 1%nat * fcoords y 1%nat) Ty ltac:(lra)).
        set (ra := exp (fcoords a 0%nat * fcoords y 0%nat + fcoords a 1%nat * fcoords y 1%nat)) in *. set (rw := exp (w 0%nat * fcoords y 0%nat + w 1%nat * fcoords y 1%nat)) in *. assert (R0 : 0 < rw) by apply exp_pos. apply near_in in N. set (P := b_P (rb_box r)) in *.
        assert (M1 : P * ra <= P * rw + eps / 2 * (P * rw)). { replace (P * rw + eps / 2 * (P * rw)) with (P * (rw + 2 * (eps / 4) * rw)) by field. apply Rmult_le_compat_l; lra. } assert (M2 : P * rw - eps / 2 * (P * rw) <= P * ra). { replace (P * rw - eps / 2 * (P * rw)) with (P * (rw - 2 * (eps / 4) * rw)) by field. apply Rmult_le_compat_l; lra. }
        assert (P0 : 0 < P * rw) by (apply Rmult_lt_0_compat; lra). assert (P1 : 0 <= P * ra) by (apply Rmult_le_pos; [lra|left; apply exp_pos]). set (u := P * ra) in *. set (v := P * rw) in *. apply Rabs_le_inv in A2. apply Rabs_le.
        assert (M3 : eps * u <= eps * (v + eps / 2 * v)) by (apply Rmult_le_compat_l; lra). assert (M4 : eps * (eps * v) <= / 100 * (eps * v)) by (apply Rmult_le_compat_r; [apply Rmult_le_pos; lra|lra]). assert (0 <= eps * C) by (apply Rmult_le_pos; lra). assert (0 <= eps * v) by (apply Rmult_le_pos; lra).
        lra. }
      split; [|exists (worst_market (rb_box r) (fcoords y)); split; [now apply worst_in|exact GG]]. intros m Hm. split.
      * destruct Hm as (_ & K & _). unfold mfeas, worse in *. cbn [m_k worst_market] in *. eapply Rle_trans; [exact F1|]. apply Rmult_le_compat_r; [left; apply exp_pos|exact K].
      * pose proof (worst_mul _ _ (fcoords y) 0%nat Hm ltac:(lia)) as W0. pose proof (worst_mul _ _ (fcoords y) 1%nat Hm ltac:(lia)) as W1. fold w in W0, W1. destruct Hm as (M1 & M2 & M3). destruct (M3 0%nat ltac:(lia)) as [P0 _]. destruct (M3 1%nat ltac:(lia)) as [P1 _]. rewrite WM in GG. unfold mprofit, profit_at, turnover in *. cbn [m_P m_a m_p] in *. rewrite rev_eq in *. apply Rabs_le_inv in GG.
        assert (EX : exp (w 0%nat * fcoords y 0%nat + w 1%nat * fcoords y 1%nat) <= exp (m_a m 0%nat * fcoords y 0%nat + m_a m 1%nat * fcoords y 1%nat)) by (apply exp_le; lra).
        set (ew := exp (w 0%nat * fcoords y 0%nat + w 1%nat * fcoords y 1%nat)) in *. set (em := exp (m_a m 0%nat * fcoords y 0%nat + m_a m 1%nat * fcoords y 1%nat)) in *. assert (E0 : 0 < ew) by apply exp_pos. assert (RR : b_P (rb_box r) * ew <= m_P m * em) by (apply Rmult_le_compat; lra).
        assert (CC : m_p m 0%nat * exp (fcoords y 0%nat) + m_p m 1%nat * exp (fcoords y 1%nat) <= b_p (rb_box r) 0%nat * exp (fcoords y 0%nat) + b_p (rb_box r) 1%nat * exp (fcoords y 1%nat)) by (apply Rplus_le_compat; apply Rmult_le_compat_r; auto; left; apply exp_pos).
        set (rw := b_P (rb_box r) * ew) in *. set (rm := m_P m * em) in *. set (cm := m_p m 0%nat * exp (fcoords y 0%nat) + m_p m 1%nat * exp (fcoords y 1%nat)) in *. set (cw := b_p (rb_box r) 0%nat * exp (fcoords y 0%nat) + b_p (rb_box r) 1%nat * exp (fcoords y 1%nat)) in *.
        assert (2 * eps * (rm - rw) >= 0) by (apply Rle_ge; apply Rmult_le_pos; lra). assert (2 * eps * (cw - cm) <= 1 * (cw - cm)) by (apply Rmult_le_compat_r; lra). lra.
  - intros Gp z Bz Hz. change (yy lm y) with (fcoords y) in V. apply (V Gp z Bz). rewrite PM. specialize (Hz (worse (rb_margin dl X) (worst_market (rb_box r) (fcoords y)))). 
    assert (Hin : in_box (worse_box (rb_margin dl X) (rb_box r)) (worse (rb_margin dl X) (worst_market (rb_box r) (fcoords y)))) by (rewrite <- worst_worse; apply worst_in, sane_worse, Sn). specialize (Hz Hin). change (earns (worse (rb_margin dl X) (worst_market (rb_box r) (fcoords y))) (B2R (ga' : f64)) z) in Hz.
    replace (prof_margin dl X) with (rb_margin dl X - eps) by (unfold rb_margin; ring). apply (tilt_earns _ _ w); auto; [lra|]. assert (Tz : Rabs (tilt (fcoords a) w z) <= eps / 4) by (apply (tilt_small r a y); auto). apply Rabs_le_inv in Tz. unfold tilt in *. lra.
Qed.
End R.
