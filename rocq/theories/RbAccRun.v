(** Construction and runs of the robust profit oracle in binary64 (C115). *)
From Coq Require Import ZArith Reals Lra Lia Bool Arith List.
From Flocq Require Import Core IEEE754.BinarySingleNaN.
From Verif Require Import Num Res Arr ArrLemmas CuttingPlane EllCalc Ell EllRun Spec RunSpec FloatLemmas FloatErr StepAccSpec StepRunSpec StepRun Profit ProfitSpec ProfitMore ProfAccSpec ProfAcc ProfAccRun RbAccSpec LevelRun RbAcc.
Import ListNotations.
Local Open Scope R_scope.
#[local] Opaque fadd fsub fmul fdiv fsqrt fofZ.

Section R.
Variable lm : Libm.
Notation F := (FNum lm).
Variables (dl X L T : R) (r0 : ProfitRb F).
Hypotheses (Hdl : 0 <= dl <= / 1000000) (HE : exp_near lm L dl) (HL : ln_near lm T dl) (Hf : rb_fits r0 X L T).
Notation inbox := (fun z : vec => forall i, (i < 2)%nat -> Rabs (z i) <= X).
Lemma same_box r : rb_same r0 r -> rb_box r = rb_box r0.
Proof. intros (A & B & C & D & E). unfold rb_box. now rewrite A, B, C, D, E. Qed.
Lemma same_fits r : rb_same r0 r -> rb_fits r X L T.
Proof. intros H. pose proof (same_box r H) as Q. destruct H as (A & B & C & D & E). destruct Hf. split; rewrite ?Q, ?A, ?B, ?C, ?D, ?E; auto. Qed.
Lemma same_trans (p q : ProfitRb F) : rb_same r0 p -> rb_same p q -> rb_same r0 q.
Proof. intros (A & B & C & D & E) (A' & B' & C' & D' & E'). repeat split; congruence. Qed.
Theorem rb_run s G opt (e : Ell F) (ga : F) o' e' (ga' : F) ans k : s <= 1 / 10 -> rb_ok r0 -> level_fits L (ga : f64) ->
  (forall l o1 e1 (ga1 : F) xb1, asked_opt single_cut (tolerance opt) profit_rb_assess r0 e ga None l o1 e1 ga1 xb1 -> (length l <= max_iters opt)%nat ->
    tame_run 2 s G e l /\ 0 <= B2R (ga1 : f64) /\ ((length l < max_iters opt)%nat -> in_square X (e_xc e1))) ->
  cutting_plane_optim profit_rb_assess (ell_space single_cut) opt r0 e ga = Ok (o', e', ga', (ans, k)) ->
  (forall x, ans = Some x -> good_rb dl (rb_box r0) (B2R (ga' : f64)) (fcoords x)) /\
  (k = max_iters opt -> forall z, inbox z /\ robust (worse_box (rb_margin dl X) (rb_box r0)) (B2R (ga' : f64) + INR (S k) * prof_drop dl L) (z 0%nat) (z 1%nat) -> fpts 2 e 1 z -> fpts 2 e' (1 + excess s G k) z) /\
  (forall z r, 0 < r -> (forall x, ball 2 z r x -> (inbox x /\ robust (worse_box (rb_margin dl X) (rb_box r0)) (B2R (ga' : f64) + INR (S k) * prof_drop dl L) (x 0%nat) (x 1%nat)) /\ fpts 2 e 1 x) ->
    (r * r) ^ 2 <= ((1 + excess s G k) ^ 2 * ((1 + s) ^ 2 * exp (- / (INR 2 + 1))) ^ k) * fvol2 2 e).
Proof.
  intros Hs Ho Hl HT E.
  apply (level_run lm 2 _ profit_rb_assess (fun r g => rb_ok r /\ rb_same r0 r /\ level_fits L (g : f64)) (fun g x => good_rb dl (rb_box r0) (B2R (g : f64)) (fcoords x)) (in_square X)
    (fun t z => inbox z /\ robust (worse_box (rb_margin dl X) (rb_box r0)) t (z 0%nat) (z 1%nat)) (prof_drop dl L)) with (s := s) (G := G) (opt := opt) (o := r0) (ga := ga) (o' := o') (ans := ans); auto.
  - exact (drop_nonneg dl L Hdl).
  - intros a t z A [B C]. split; [exact B|]. intros m Hm. destruct (C m Hm) as [C1 C2]. split; [exact C1|lra].
  - intros o x g o2 g2 gr b sh (A & B & C) G0 Qx EA. destruct (rb_call lm dl X L T Hdl HE HL o x g A (same_fits o B) Qx C G0) as (r' & g3 & gr' & b' & sh' & EB & O & Sm & Lv & _ & _ & _ & Dr & S0 & S1 & V).
    assert (E2 := eq_trans (eq_sym EA) EB). inversion E2; subst r' g3 gr' b sh'. clear EB E2. rewrite (same_box o B) in *.
    split; [split; [exact O|split; [exact (same_trans _ _ B Sm)|exact Lv]]|]. split; [intros Q; exact (proj1 (proj2 (S1 Q)))|]. split; [intros Q; exact (proj1 (S0 Q))|]. split; [exact Dr|].
    intros Gp z [Bz Hz]. specialize (V Gp z Bz Hz). destruct sh; cbn [cut_mode foff]; [destruct (S1 eq_refl) as (_ & _ & Q); rewrite Q in V|]; exact V.
  - split; [exact Ho|]. split; [repeat split|exact Hl].
Qed.
End R.

(** *** construction *)
Lemma absorb P P' k k' w p p' d h nu t (z : vec) : 0 < P -> 0 < P' -> 0 <= t -> 0 <= h -> (forall i, (i < 2)%nat -> 0 <= p i /\ p' i <= p i + h * p i) -> P * exp (- d) <= P' -> k * exp (- d) <= k' ->
  earns (worse (nu + d + h) (mkMarket P k w p)) t z -> 0 < k -> earns (worse nu (mkMarket P' k' w p')) t z.
Proof.
  intros HP HP' Ht Hh Hp H1 H2 [A B] Hk. unfold earns, mfeas, mprofit, profit_at, worse in *. cbn [m_P m_k m_a m_p] in *. rewrite rev_eq in *. destruct (Hp 0%nat ltac:(lia)) as [p0 q0]. destruct (Hp 1%nat ltac:(lia)) as [p1 q1].
  assert (EX : exp (- (nu + d + h)) = exp (- d) * (exp (- nu) * exp (- h))) by (rewrite <- !exp_plus; f_equal; ring). assert (Eh : exp (- h) <= 1) by (rewrite <- exp_0; apply exp_le; lra). pose proof (exp_pos (- nu)) as En. pose proof (exp_pos (- h)) as Eh0. split.
  - eapply Rle_trans; [exact A|]. rewrite EX, <- Rmult_assoc. apply Rmult_le_compat; [apply Rmult_le_pos; [lra|left; apply exp_pos]|apply Rmult_le_pos; lra|exact H2|]. rewrite <- (Rmult_1_r (exp (- nu))) at 2. apply Rmult_le_compat_l; lra.
  - set (E := exp (w 0%nat * z 0%nat + w 1%nat * z 1%nat)) in *. assert (E0 : 0 < E) by apply exp_pos. set (c := p 0%nat * exp (z 0%nat) + p 1%nat * exp (z 1%nat)) in *.
    assert (C0 : 0 <= c) by (unfold c; apply Rplus_le_le_0_compat; apply Rmult_le_pos; auto; left; apply exp_pos).
    assert (C1 : p' 0%nat * exp (z 0%nat) + p' 1%nat * exp (z 1%nat) <= c + h * c). { unfold c. replace (p 0%nat * exp (z 0%nat) + p 1%nat * exp (z 1%nat) + h * (p 0%nat * exp (z 0%nat) + p 1%nat * exp (z 1%nat))) with ((p 0%nat + h * p 0%nat) * exp (z 0%nat) + (p 1%nat + h * p 1%nat) * exp (z 1%nat)) by ring. apply Rplus_le_compat; apply Rmult_le_compat_r; auto; left; apply exp_pos. }
    set (R1 := P * exp (- (nu + d + h)) * E) in *. set (R2 := P' * exp (- nu) * E).
    assert (R12 : R1 * exp h <= R2). { unfold R1, R2. rewrite EX. replace (P * (exp (- d) * (exp (- nu) * exp (- h))) * E * exp h) with (P * exp (- d) * (exp (- nu) * E) * (exp (- h) * exp h)) by ring. rewrite <- exp_plus. replace (- h + h) with 0 by ring. rewrite exp_0, Rmult_1_r. replace (P' * exp (- nu) * E) with (P' * (exp (- nu) * E)) by ring. apply Rmult_le_compat_r; [apply Rmult_le_pos; lra|exact H1]. }
    pose proof (exp_ineq1_le h) as I. assert (R1 * (1 + h) <= R1 * exp h) by (apply Rmult_le_compat_l; [unfold R1; repeat apply Rmult_le_pos; try (left; apply exp_pos); lra|lra]). assert (h * c <= h * R1) by (apply Rmult_le_compat_l; lra). lra.
Qed.
Lemma rb_new_market lm T dl (up sc lim e1 e2 e3 e4 e5 : f64) (el po : Arr (FNum lm)) : 0 <= dl <= / 1000000 -> T <= 500 -> ln_near lm T dl -> two el -> two po -> all_finite po ->
  is_finite up = true -> is_finite sc = true -> is_finite lim = true -> is_finite e3 = true -> is_finite e4 = true -> is_finite e5 = true -> 0 <= B2R e1 -> 0 <= B2R e2 ->
  exp (1 - T) <= (B2R up - B2R e3) * B2R sc <= exp (T - 1) -> exp (1 - T) <= B2R up - B2R e3 <= exp (T - 1) -> exp (1 - T) <= B2R lim - B2R e4 <= exp (T - 1) -> (forall i, (i < 2)%nat -> exp (1 - T) <= fcoords po i + B2R e5 <= exp (T - 1)) ->
  exists r, profit_rb_new (N := FNum lm) up sc lim el po e1 e2 e3 e4 e5 = Ok r /\ rb_ok r /\ rb_uie r = (e1, e2) /\ rb_elast r = el /\
    is_finite (p_log_p_scale (rb_omega r) : f64) = true /\ is_finite (p_log_k (rb_omega r) : f64) = true /\ all_finite (p_price_out (rb_omega r)) /\
    let M := mkBox ((B2R up - B2R e3) * B2R sc) (B2R lim - B2R e4) (fun i => fcoords po i + B2R e5) (fcoords el) (fun i => if Nat.eqb i 0 then B2R e1 else B2R e2) in
    forall nu t z, 0 <= t -> (robust (worse_box (nu + 2 * prof_eps dl) M) t (z 0%nat) (z 1%nat) -> robust (worse_box nu (rb_box r)) t (z 0%nat) (z 1%nat)) /\
      (robust (worse_box (nu + 2 * prof_eps dl) (rb_box r)) t (z 0%nat) (z 1%nat) -> robust (worse_box nu M) t (z 0%nat) (z 1%nat)).
Proof.
  intros Hd HT HL Te Tp Fp Fu Fs Fl F3 F4 F5 E1 E2 HP HU HK HQ. pose proof FcosAcc.uu_small as U. pose proof (eps_eq dl) as EP. pose proof (exp_pos (1 - T)) as X1.
  assert (LO : bpow radix2 (-1010) <= exp (1 - T)). { eapply Rle_trans; [|eapply Rle_trans; [exact exp_m500|apply exp_le; lra]]. apply bpow_le. lia. }
  assert (HI : exp (T - 1) <= bpow radix2 1000) by (eapply Rle_trans; [|exact exp_500]; apply exp_le; lra). assert (HI2 : 2 * bpow radix2 1000 <= bpow radix2 1010). { replace (2 * bpow radix2 1000) with (bpow radix2 1001) by (replace 1001%Z with (1 + 1000)%Z by lia; rewrite bpow_plus; reflexivity). apply bpow_le. lia. } pose proof (bpow_gt_0 radix2 1000) as B0.
  assert (G1 : 2 * exp (- T) <= exp (1 - T)). { replace (1 - T) with (1 + - T) by ring. rewrite exp_plus. apply Rmult_le_compat_r; [left; apply exp_pos|]. pose proof (exp_ineq1_le 1). lra. }
  assert (G2 : 2 * exp (T - 1) <= exp T). { replace T with (1 + (T - 1)) at 2 by ring. rewrite exp_plus. apply Rmult_le_compat_r; [left; apply exp_pos|]. pose proof (exp_ineq1_le 1). lra. } pose proof (exp_pos (- T)) as X2.
  (* the differences *)
  destruct (fsub_fin up e3 Fu F3) as [V3 G3]. { apply big_fin. rewrite Rabs_pos_eq; lra. } assert (N3 := near_rnd 0 _ _ (near_exact 0 (B2R up - B2R e3) ltac:(lra) ltac:(lra)) ltac:(lra) ltac:(lra)). rewrite <- V3 in N3.
  destruct (fsub_fin lim e4 Fl F4) as [V4 G4]. { apply big_fin. rewrite Rabs_pos_eq; lra. } assert (N4 := near_rnd 0 _ _ (near_exact 0 (B2R lim - B2R e4) ltac:(lra) ltac:(lra)) ltac:(lra) ltac:(lra)). rewrite <- V4 in N4.
  set (P := (B2R up - B2R e3) * B2R sc) in *. set (K := B2R lim - B2R e4) in *.
  assert (S0 : 0 < B2R sc). { destruct (Rle_or_lt (B2R sc) 0) as [Q|Q]; [|exact Q]. assert (P <= 0) by (unfold P; replace 0 with ((B2R up - B2R e3) * 0) by ring; apply Rmult_le_compat_l; lra). lra. }
  assert (NP : near (3 * uu) (B2R (fsub up e3) * B2R sc) P). { unfold near in *. replace (B2R (fsub up e3) * B2R sc - P) with ((B2R (fsub up e3) - (B2R up - B2R e3)) * B2R sc) by (unfold P; ring). rewrite Rabs_mult, (Rabs_pos_eq (B2R sc)) by lra. replace (3 * uu * P) with (3 * uu * (B2R up - B2R e3) * B2R sc) by (unfold P; ring). apply Rmult_le_compat_r; [lra|]. eapply Rle_trans; [exact N3|]. apply Rmult_le_compat_r; lra. }
  pose proof NP as NP'. apply near_in in NP'. assert (SP : 3 * uu * P <= / 10 * P) by (apply Rmult_le_compat_r; lra).
  destruct (fmul_fin (fsub up e3) sc G3 Fs) as [V5 G5]. { apply big_fin. rewrite Rabs_pos_eq; lra. } assert (N5 := near_rnd (3 * uu) _ _ NP ltac:(lra) ltac:(lra)). rewrite <- V5 in N5.
  pose proof N5 as N5'. apply near_in in N5'. assert (SP2 : (3 * uu + 3 * uu) * P <= / 10 * P) by (apply Rmult_le_compat_r; lra). pose proof N4 as N4'. apply near_in in N4'. assert (SK : (0 + 3 * uu) * K <= / 10 * K) by (apply Rmult_le_compat_r; lra).
  destruct (HL (fmul (fsub up e3) sc) G5 ltac:(lra)) as [FA AA]. destruct (HL (fsub lim e4) G4 ltac:(lra)) as [FB AB].
  pose proof (near_ln _ _ _ N5 ltac:(lra) ltac:(lra)) as LA. pose proof (near_ln _ _ _ N4 ltac:(lra) ltac:(lra)) as LB.
  destruct (rb_new_ok (N := FNum lm) up sc lim el po e1 e2 e3 e4 e5 Te Tp) as (r & ER & Or & R1 & R2 & R3 & R4 & R5). exists r. split; [exact ER|]. split; [exact Or|]. split; [exact R1|]. split; [exact R2|].
  set (sP := p_log_p_scale (rb_omega r) : f64) in *. set (sK := p_log_k (rb_omega r) : f64) in *. change (nln (nsub (n := FNum lm) lim e4)) with (nln (n := FNum lm) (fsub lim e4)) in R4. change (nln (nmul (n := FNum lm) (nsub (n := FNum lm) up e3) sc)) with (nln (n := FNum lm) (fmul (fsub up e3) sc)) in R3.
  rewrite <- R3 in FA, AA. rewrite <- R4 in FB, AB. split; [exact FA|]. split; [exact FB|].
  assert (PR : forall i, (i < 2)%nat -> is_finite (nth i (adata (p_price_out (rb_omega r))) (n0 (N := FNum lm)) : f64) = true /\ near (3 * uu) (fcoords (p_price_out (rb_omega r)) i) (fcoords po i + B2R e5)).
  { intros i Hi. specialize (R5 i Hi). unfold at_ in R5. specialize (HQ i Hi). destruct (fadd_fin (nth i (adata po) (n0 (N := FNum lm)) : f64) e5 (fin_nth lm po i Fp) F5) as [VV FF]. { apply big_fin. change (Rabs (fcoords po i + B2R e5) <= bpow radix2 1010). rewrite Rabs_pos_eq; lra. }
    split; [rewrite R5; exact FF|]. assert (VA : fcoords (p_price_out (rb_omega r)) i = rnd (fcoords po i + B2R e5)) by (eapply eq_trans; [exact (f_equal (fun v : f64 => B2R v) R5)|exact VV]). rewrite VA.
    assert (N6 := near_rnd 0 _ _ (near_exact 0 (fcoords po i + B2R e5) ltac:(lra) ltac:(lra)) ltac:(lra) ltac:(lra)). replace (3 * uu) with (0 + 3 * uu) by ring. exact N6. }
  split. { apply Forall_nth. intros i d Hi. assert (Hi2 : (i < 2)%nat) by (destruct Or as [(_ & [Q _] & _) _]; eapply Nat.lt_le_trans; [exact Hi|]; apply Nat.eq_le_incl; exact Q). rewrite (nth_indep _ d (n0 (N := FNum lm) : f64)) by exact Hi. exact (proj1 (PR i Hi2)). }
  intros M nu t z Ht. apply Rabs_le_inv in AA, AB, LA, LB. assert (dEq : nu + 2 * prof_eps dl = nu + prof_eps dl + prof_eps dl) by ring. assert (P0 : 0 < P) by lra. assert (K0 : 0 < K) by lra.
  assert (LP : P = exp (ln P)) by (rewrite exp_ln; lra). assert (LK : K = exp (ln K)) by (rewrite exp_ln; lra).
  assert (SM : box_sane M). { pose proof (HQ 0%nat ltac:(lia)). pose proof (HQ 1%nat ltac:(lia)). unfold M. repeat split; cbn [b_P b_k b_p b_u Nat.eqb]; lra. }
  assert (SB : box_sane (rb_box r)). { destruct (PR 0%nat ltac:(lia)) as [_ Q0]. destruct (PR 1%nat ltac:(lia)) as [_ Q1]. pose proof (HQ 0%nat ltac:(lia)). pose proof (HQ 1%nat ltac:(lia)). apply near_pos in Q0, Q1; try lra. unfold rb_box. rewrite R1. repeat split; cbn [b_P b_k b_p b_u Nat.eqb fst snd]; try apply exp_pos; lra. }
  assert (WB : forall mu, worst_market (worse_box mu (rb_box r)) z = worse mu (mkMarket (exp (B2R sP)) (exp (B2R sK)) (worst (fcoords el) (b_u M) z) (fcoords (p_price_out (rb_omega r))))) by (intros mu; unfold worst_market, worse_box, worse, rb_box; rewrite R1, R2; reflexivity).
  split; intros H.
  - apply (proj1 (robust_worst _ t z (sane_worse (nu + 2 * prof_eps dl) _ SM))) in H. rewrite worst_worse in H. apply (proj2 (robust_worst _ t z (sane_worse nu _ SB))). rewrite WB. rewrite dEq in H.
    refine (absorb P _ K _ _ (b_p M) _ (prof_eps dl) (prof_eps dl) nu t z P0 (exp_pos _) Ht ltac:(lra) _ _ _ H K0).
    + intros i Hi. destruct (PR i Hi) as [_ Q]. specialize (HQ i Hi). cbn [b_p M]. split; [lra|]. apply near_in in Q. eapply Rle_trans; [exact (proj2 Q)|]. apply Rplus_le_compat_l. apply Rmult_le_compat_r; lra.
    + rewrite LP, exp_sum. apply exp_le. lra.
    + rewrite LK, exp_sum. apply exp_le. lra.
  - apply (proj1 (robust_worst _ t z (sane_worse (nu + 2 * prof_eps dl) _ SB))) in H. rewrite WB in H. apply (proj2 (robust_worst _ t z (sane_worse nu _ SM))). rewrite worst_worse. rewrite dEq in H.
    refine (absorb _ P _ K _ _ (b_p M) (prof_eps dl) (prof_eps dl) nu t z (exp_pos _) P0 Ht ltac:(lra) _ _ _ H (exp_pos _)).
    + intros i Hi. destruct (PR i Hi) as [_ Q]. specialize (HQ i Hi). cbn [b_p M]. pose proof Q as Q'. apply near_pos in Q'; [|lra|lra]. split; [lra|]. apply near_in in Q. set (q := fcoords po i + B2R e5) in *. set (q' := fcoords (p_price_out (rb_omega r)) i) in *.
      assert (A1 : 3 * uu * q <= / 2 * q) by (apply Rmult_le_compat_r; lra). assert (A2 : 3 * uu * q <= 3 * uu * (2 * q')) by (apply Rmult_le_compat_l; lra). assert (A3 : 6 * uu * q' <= prof_eps dl * q') by (apply Rmult_le_compat_r; lra). lra.
    + rewrite LP, exp_sum. apply exp_le. lra.
    + rewrite LK, exp_sum. apply exp_le. lra.
Qed.
