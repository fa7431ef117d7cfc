(** Runs with the profit oracle in binary64 (C114). *)
From Coq Require Import ZArith Reals Lra Lia Bool Arith List.
From Flocq Require Import Core IEEE754.BinarySingleNaN.
From Verif Require Import Num Res Arr ArrLemmas CuttingPlane EllCalc Ell EllRun Spec RunSpec FloatLemmas FloatErr StepAccSpec StepRunSpec StepRun Profit ProfitSpec ProfAccSpec ProfAcc.
Import ListNotations.
Local Open Scope R_scope.

Section R.
Variable lm : Libm.
Notation F := (FNum lm).
Notation single := (single_cut (N := F)).
Variables (dl X L T : R) (p0 : Profit F).
Hypotheses (Hdl : 0 <= dl <= / 1000000) (HE : exp_near lm L dl) (HL : ln_near lm T dl) (Hf : prof_fits p0 X L T).
Notation m := (prof_market p0).
Notation mu := (prof_margin dl X).
Notation eps := (prof_eps dl).
Notation drop := (prof_drop dl L).
Notation inbox := (fun z : vec => forall i, (i < 2)%nat -> Rabs (z i) <= X).
Lemma p_market p : same_params p0 p -> prof_market p = m.
Proof. intros (A & B & C & D). unfold prof_market. now rewrite A, B, C, D. Qed.
Lemma p_fits p : same_params p0 p -> prof_fits p X L T.
Proof. intros (A & B & C & D). destruct Hf. split; rewrite ?A, ?B, ?C, ?D; auto. Qed.
Lemma p_trans (p q : Profit F) : same_params p0 p -> same_params p q -> same_params p0 q.
Proof. intros (A & B & C & D) (A' & B' & C' & D'). repeat split; congruence. Qed.
Lemma drop_nonneg : 0 <= drop.
Proof. unfold prof_drop. pose proof (exp_pos L). pose proof (eps_range dl Hdl). repeat apply Rmult_le_pos; lra. Qed.
Lemma earns_less nu t s z : s <= t -> earns (worse nu m) t z -> earns (worse nu m) s z.
Proof. intros A [B C]. split; [exact B|lra]. Qed.
Definition pstate (p : Profit F) (ga : F) : Prop := profit_ok p /\ same_params p0 p /\ level_fits L (ga : f64).
Definition pbest (ga : F) (xb : option (Arr F)) : Prop := forall x, xb = Some x -> good_answer dl m (B2R (ga : f64)) (fcoords x).
Lemma pstep p (x : Arr F) (ga : F) xb p' (ga' : F) g b sh : pstate p ga -> pbest ga xb -> 0 <= B2R (ga : f64) -> in_square X x -> profit_assess p x ga = Ok (p', ga', ((g, b), sh)) ->
  pstate p' ga' /\ pbest ga' (if sh then Some x else xb) /\ B2R (ga : f64) <= B2R (ga' : f64) + drop /\
  (0 <= B2R (ga' : f64) -> forall z, inbox z -> earns (worse mu m) (B2R (ga' : f64)) z -> along 2 (fcoords g) z (fcoords x) + foff (cut_mode sh) b <= 0).
Proof.
  intros (A & B & C) HB G0 Hx E. destruct (prof_call lm dl X L T p x Hdl HE HL A (p_fits p B) Hx ga C G0) as (q & ga1 & g1 & b1 & sh1 & E1 & CG).
  assert (E2 := eq_trans (eq_sym E) E1). inversion E2; subst q ga1 g1 b sh1. clear E1 E2. destruct CG as (O & Sm & Lv & Tg & Ag & Fb & Dr & S0 & S1 & V). rewrite (p_market p B) in *.
  split; [split; [exact O|split; [exact (p_trans _ _ B Sm)|exact Lv]]|]. split; [|split; [exact Dr|]].
  - destruct sh; intros u Hu; [injection Hu as <-; destruct (S1 eq_refl) as (Q1 & Q2 & _); split; [exact (proj1 Q1)|exact Q2]|]. destruct (S0 eq_refl) as [-> _]. now apply HB.
  - intros Gp z Bz Hz. specialize (V Gp z Bz Hz). destruct sh; cbn [cut_mode foff]; [destruct (S1 eq_refl) as (_ & _ & Q); rewrite Q in V|]; exact V.
Qed.
Lemma p_asked tol limit o (e : Ell F) (ga : F) xb l o1 e1 (ga1 : F) xb1 : asked_opt single tol profit_assess o e ga xb l o1 e1 ga1 xb1 -> (length l <= limit)%nat ->
  (forall l o1 e1 (ga1 : F) xb1, asked_opt single tol profit_assess o e ga xb l o1 e1 ga1 xb1 -> (length l <= limit)%nat -> 0 <= B2R (ga1 : f64) /\ ((length l < limit)%nat -> in_square X (e_xc e1))) ->
  pstate o ga -> pbest ga xb -> pstate o1 ga1 /\ pbest ga1 xb1 /\ B2R (ga : f64) <= B2R (ga1 : f64) + INR (length l) * drop /\
  forall t z, B2R (ga1 : f64) + INR (length l) * drop <= t -> inbox z -> earns (worse mu m) t z -> satisfies 2 z e l.
Proof.
  intros A. revert limit. induction A as [|o e ga xb oa gaa [g b] sh ea st rest o2 e2 ga2 xb2 A B C D IH]; intros limit HL' HX Hs Hb.
  { cbn [length INR satisfies]. split; [exact Hs|]. split; [exact Hb|]. split; [lra|auto]. }
  assert (LE : INR (length ((cut_mode sh, (g, b)) :: rest)) = INR (length rest) + 1) by (cbn [length]; apply S_INR). rewrite LE. cbn [length] in HL'. pose proof drop_nonneg as DN.
  destruct (HX [] o e ga xb ltac:(constructor) ltac:(cbn; lia)) as [G0 X0]. specialize (X0 ltac:(cbn; lia)). destruct (pstep _ _ _ _ _ _ _ _ _ Hs Hb G0 X0 A) as (S1 & S2 & S3 & S4).
  assert (HX' : forall l o1 e1 (ga1 : F) xb1, asked_opt single tol profit_assess oa ea gaa (if sh then Some (e_xc e) else xb) l o1 e1 ga1 xb1 -> (length l <= Nat.pred limit)%nat -> 0 <= B2R (ga1 : f64) /\ ((length l < Nat.pred limit)%nat -> in_square X (e_xc e1))).
  { intros l o3 e3 ga3 xb3 A3 L3. destruct (HX ((cut_mode sh, (g, b)) :: l) o3 e3 ga3 xb3) as [Q1 Q2]; [econstructor; eauto|cbn; lia|]. split; [exact Q1|]. intros Q. apply Q2. cbn. lia. }
  destruct (HX' [] oa ea gaa _ ltac:(constructor) ltac:(cbn; lia)) as [G1 _]. destruct (IH (Nat.pred limit) ltac:(lia) HX' S1 S2) as (I1 & I2 & I3 & I4).
  split; [exact I1|]. split; [exact I2|]. split; [lra|]. intros t z Ht Bz Hz. cbn [satisfies]. split.
  - apply S4; auto. apply earns_less with t; [lra|exact Hz].
  - intros e' st' E. rewrite B in E. inversion E; subst. apply I4 with t; auto. lra.
Qed.
Theorem prof_run s G opt (e : Ell F) (ga : F) o' e' (ga' : F) ans k : s <= 1 / 10 -> profit_ok p0 -> level_fits L (ga : f64) ->
  (forall l o1 e1 (ga1 : F) xb1, asked_opt single (tolerance opt) profit_assess p0 e ga None l o1 e1 ga1 xb1 -> (length l <= max_iters opt)%nat ->
    tame_run 2 s G e l /\ 0 <= B2R (ga1 : f64) /\ ((length l < max_iters opt)%nat -> in_square X (e_xc e1))) ->
  cutting_plane_optim profit_assess (ell_space single) opt p0 e ga = Ok (o', e', ga', (ans, k)) ->
  (forall x, ans = Some x -> good_answer dl m (B2R (ga' : f64)) (fcoords x)) /\
  (k = max_iters opt -> forall z, inbox z -> earns (worse mu m) (B2R (ga' : f64) + INR (S k) * drop) z -> fpts 2 e 1 z -> fpts 2 e' (1 + excess s G k) z) /\
  (forall z r, 0 < r -> (forall x, ball 2 z r x -> inbox x /\ earns (worse mu m) (B2R (ga' : f64) + INR (S k) * drop) x /\ fpts 2 e 1 x) ->
    (r * r) ^ 2 <= ((1 + excess s G k) ^ 2 * ((1 + s) ^ 2 * exp (- / (INR 2 + 1))) ^ k) * fvol2 2 e).
Proof.
  intros Hs Ho Hl HT E. assert (G0 : pstate p0 ga) by (split; [exact Ho|split; [repeat split|exact Hl]]). assert (B0 : pbest ga None) by (intros z; discriminate).
  assert (HX : forall l o1 e1 (ga1 : F) xb1, asked_opt single (tolerance opt) profit_assess p0 e ga None l o1 e1 ga1 xb1 -> (length l <= max_iters opt)%nat -> 0 <= B2R (ga1 : f64) /\ ((length l < max_iters opt)%nat -> in_square X (e_xc e1))).
  { intros l o1 e1 ga1 xb1 A HL'. destruct (HT _ _ _ _ _ A HL') as (_ & Q1 & Q2). auto. }
  assert (HT' : forall l o1 e1 (ga1 : F) xb1, asked_opt single (tolerance opt) profit_assess p0 e ga None l o1 e1 ga1 xb1 -> (length l <= max_iters opt)%nat -> tame_run 2 s G e l) by (intros l o1 e1 ga1 xb1 A HL'; exact (proj1 (HT _ _ _ _ _ A HL'))).
  apply (optim_asked single (tolerance opt)) in E; [|reflexivity]. pose proof drop_nonneg as DN.
  assert (KP : forall l o1 e1 (ga1 : F) xb1 t, asked_opt single (tolerance opt) profit_assess p0 e ga None l o1 e1 ga1 xb1 -> (length l <= max_iters opt)%nat -> B2R (ga1 : f64) + INR (length l) * drop <= t ->
    forall z, inbox z -> earns (worse mu m) t z -> fpts 2 e 1 z -> fpts 2 e1 (1 + excess s G (length l)) z).
  { intros l o1 e1 ga1 xb1 t A HL' Ht z Bz Hz Hp. destruct (asked_opt_run single _ _ _ _ _ _ _ _ _ _ _ A) as [log R]. destruct (p_asked _ _ _ _ _ _ _ _ _ _ _ A HL' HX G0 B0) as (_ & _ & _ & SA).
    pose proof (run_keeps lm 2 s G l Hs e e1 log 0 z R (HT' _ _ _ _ _ A HL') (SA t z Ht Bz Hz) ltac:(lra)) as Q. rewrite Rmult_0_r, Rplus_0_l, Rplus_0_r in Q. apply Q. exact Hp. }
  assert (CP : forall l o1 e1 (ga1 : F) xb1 t, asked_opt single (tolerance opt) profit_assess p0 e ga None l o1 e1 ga1 xb1 -> (length l <= max_iters opt)%nat -> B2R (ga1 : f64) + INR (length l) * drop <= t ->
    forall z r, 0 < r -> (forall x, ball 2 z r x -> inbox x /\ earns (worse mu m) t x /\ fpts 2 e 1 x) ->
    (r * r) ^ 2 <= ((1 + excess s G (length l)) ^ 2 * ((1 + s) ^ 2 * exp (- / (INR 2 + 1))) ^ length l) * fvol2 2 e).
  { intros l o1 e1 ga1 xb1 t A HL' Ht z r Hr HB. destruct (asked_opt_run single _ _ _ _ _ _ _ _ _ _ _ A) as [log R]. destruct (p_asked _ _ _ _ _ _ _ _ _ _ _ A HL' HX G0 B0) as (_ & _ & _ & SA).
    apply (run_count lm 2 s G l e e1 log z r Hs R (HT' _ _ _ _ _ A HL') Hr). intros x Hx. destruct (HB x Hx) as (Q1 & Q2 & Q3). split; [exact Q3|exact (SA t x Ht Q1 Q2)]. }
  inversion E; subst.
  - destruct (p_asked _ (max_iters opt) _ _ _ _ _ _ _ _ _ H ltac:(lia) HX G0 B0) as (S1 & S2 & S3 & _). destruct cut as [g b]. destruct (HX _ _ _ _ _ H ltac:(lia)) as [Q1 Q2]. destruct (pstep _ _ _ _ _ _ _ _ _ S1 S2 Q1 (Q2 H0) H1) as (_ & PB & PD & _).
    split; [exact PB|]. split; [intros; lia|]. apply (CP l o1 e1 ga1 xb1); auto; [lia|]. rewrite S_INR. lra.
  - destruct (p_asked _ (max_iters opt) _ _ _ _ _ _ _ _ _ H ltac:(lia) HX G0 B0) as (S1 & S2 & S3 & _). match goal with H : length _ = max_iters _ |- _ => rewrite <- H in * end. split; [exact S2|].
    split; [intros _; apply (KP l o' e' ga' ans)|apply (CP l o' e' ga' ans)]; auto; rewrite S_INR; lra.
Qed.
End R.

(** *** construction *)
Lemma earns_mono P k Q l a pr t z : P <= Q -> k <= l -> earns (mkMarket P k a pr) t z -> earns (mkMarket Q l a pr) t z.
Proof.
  intros H1 H2 [A B]. split; [unfold mfeas in *; cbn in *; lra|]. unfold mprofit, profit_at in *. cbn [m_P m_a m_p] in *. eapply Rle_trans; [exact B|]. apply Rplus_le_compat_r. unfold Rpower. apply Rmult_le_compat_r; [left; apply exp_pos|]. apply Rmult_le_compat_r; [left; apply exp_pos|exact H1].
Qed.
Lemma exp_sum a b : exp a * exp b = exp (a + b). Proof. symmetry. apply exp_plus. Qed.
Lemma new_market lm T dl (up sc lim : f64) (el po : Arr (FNum lm)) : 0 <= dl <= / 1000000 -> T <= 500 -> ln_near lm T dl ->
  is_finite up = true -> is_finite sc = true -> is_finite lim = true -> exp (1 - T) <= B2R up * B2R sc <= exp (T - 1) -> exp (- T) <= B2R lim <= exp T ->
  let p := profit_new (N := FNum lm) up sc lim el po in let M := mkMarket (B2R up * B2R sc) (B2R lim) (fcoords el) (fcoords po) in
  is_finite (p_log_p_scale p : f64) = true /\ is_finite (p_log_k p : f64) = true /\
  Rabs (B2R (p_log_p_scale p : f64) - ln (B2R up * B2R sc)) <= prof_eps dl /\ Rabs (B2R (p_log_k p : f64) - ln (B2R lim)) <= prof_eps dl /\
  forall nu t z, (earns (worse (nu + prof_eps dl) M) t z -> earns (worse nu (prof_market p)) t z) /\ (earns (worse (nu + prof_eps dl) (prof_market p)) t z -> earns (worse nu M) t z).
Proof.
  intros Hd HT HL Fu Fs Fl [P1 P2] [K1 K2] p M. pose proof FcosAcc.uu_small as U. pose proof (eps_eq dl) as EE. pose proof (exp_pos (1 - T)) as E1. pose proof (exp_pos (- T)) as E2. set (P := B2R up * B2R sc) in *.
  assert (B1 : bpow radix2 (-1010) <= P). { eapply Rle_trans; [|exact P1]. eapply Rle_trans; [|eapply Rle_trans; [exact exp_m500|apply exp_le; lra]]. apply bpow_le. lia. }
  assert (B2 : P <= bpow radix2 1010). { eapply Rle_trans; [exact P2|]. eapply Rle_trans; [|apply (bpow_le radix2 1000); lia]. eapply Rle_trans; [|exact exp_500]. apply exp_le. lra. }
  destruct (fmul_fin up sc Fu Fs) as [Vm Fm]. { apply big_fin. fold P. rewrite Rabs_pos_eq; lra. } fold P in Vm. assert (N := near_rnd 0 P P (near_exact 0 P ltac:(lra) ltac:(lra)) ltac:(lra) B1). rewrite <- Vm in N. pose proof (near_ln _ _ _ N ltac:(lra) ltac:(lra)) as NL. pose proof N as N'. apply near_in in N'.
  assert (G1 : 2 * exp (- T) <= exp (1 - T)). { replace (1 - T) with (1 + - T) by ring. rewrite exp_plus. apply Rmult_le_compat_r; [lra|]. pose proof (exp_ineq1_le 1). lra. }
  assert (G2 : 2 * exp (T - 1) <= exp T). { replace T with (1 + (T - 1)) at 2 by ring. rewrite exp_plus. apply Rmult_le_compat_r; [left; apply exp_pos|]. pose proof (exp_ineq1_le 1). lra. }
  assert (S : 3 * uu * P <= / 10 * P) by (apply Rmult_le_compat_r; lra). destruct (HL (fmul up sc) Fm ltac:(lra)) as [F1 A1]. destruct (HL lim Fl ltac:(lra)) as [F2 A2].
  change (nln (n := FNum lm) (fmul up sc)) with (p_log_p_scale p) in F1, A1. change (nln (n := FNum lm) lim) with (p_log_k p) in F2, A2.
  assert (C1 : Rabs (B2R (p_log_p_scale p : f64) - ln P) <= prof_eps dl). { apply Rabs_le_inv in A1, NL. apply Rabs_le. lra. } assert (C2 : Rabs (B2R (p_log_k p : f64) - ln (B2R lim)) <= prof_eps dl) by lra.
  split; [exact F1|]. split; [exact F2|]. split; [exact C1|]. split; [exact C2|]. intros nu t z. apply Rabs_le_inv in C1, C2.
  assert (X1 : P = exp (ln P)) by (rewrite exp_ln; lra). assert (X2 : B2R lim = exp (ln (B2R lim))) by (rewrite exp_ln; lra).
  split; apply earns_mono; cbn [prof_market m_P m_k M]; try rewrite X1 at 1; try rewrite X2 at 1; rewrite !exp_sum; apply exp_le; lra.
Qed.
