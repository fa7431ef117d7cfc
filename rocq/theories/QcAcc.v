(** The quasi-convex example in binary64 (C117). *)
From Coq Require Import ZArith Reals Lra Lia Psatz List Bool Arith.
From Flocq Require Import Core Plus_error IEEE754.BinarySingleNaN.
From Verif Require Import Num Res Arr ArrLemmas CuttingPlane Spec EllReal Examples ExSpec ExProofs QcvxRun FloatLemmas FloatErr FcosAcc StepAccSpec ProfitSpec ProfAccSpec ProfAcc QcAccSpec.
Import ListNotations.
Local Open Scope R_scope.

Lemma qcvx_cases {N : Num} idx (xc : Arr N) (ga s l : N) : (-1 <= idx < 2)%Z -> a_idx xc 0 = Ok s -> a_idx xc 1 = Ok l ->
  let f0 := s *! s -! l in let f1 := -! s +! ga *! nexp l in
  exists idx', (-1 <= idx' < 2)%Z /\
  ((f0 >?! n0) = true /\ qcvx_assess idx xc ga = Ok (idx', ga, ((vec2 (n2 *! s) nm1, mkSingle f0), false)) \/
   (f1 >?! n0) = true /\ qcvx_assess idx xc ga = Ok (idx', ga, ((vec2 nm1 (ga *! nexp l), mkSingle f1), false)) \/
   (f0 >?! n0) = false /\ (f1 >?! n0) = false /\ qcvx_assess idx xc ga = Ok (idx', s /! nexp l, ((vec2 nm1 s, mkSingle n0), true))).
Proof.
  intros Hi Hx Hy. cbv zeta. unfold qcvx_assess. rewrite Hx, Hy. cbn [bind]. unfold round_robin, loop_range.
  idx_cases Hi; cbn -[nadd nsub nopp nmul ndiv nexp nZ n0 n1 n2 nltb]; ifs; eexists.
  all: split; [|try (first [left; split; [first [assumption|reflexivity]|reflexivity]|right; left; split; [first [assumption|reflexivity]|reflexivity]|right; right; split; [first [assumption|reflexivity]|split; [first [assumption|reflexivity]|reflexivity]]])].
  all: lia.
Qed.
#[local] Opaque fadd fsub fmul fdiv fsqrt fofZ.
Lemma twice_generic x : generic_format radix2 fexp64 x -> generic_format radix2 fexp64 (2 * x).
Proof.
  intros G. apply generic_format_FLT. apply FLT_format_generic in G; [|reflexivity]. destruct G as [f H1 H2 H3]. exists (Float radix2 (Fnum f) (Fexp f + 1)); [|exact H2|cbn [Fexp]; lia].
  rewrite H1. unfold F2R. cbn [Fnum Fexp]. rewrite bpow_plus. change (bpow radix2 1) with 2. ring.
Qed.
Section V.
Variable lm : Libm.
Notation F := (FNum lm).
Variables (dl X C : R).
Hypothesis HP : qc_platform lm dl X C.
Notation eps := (qc_eps dl).
Notation mu := (qc_margin dl X C).
Lemma ep_range : 0 < eps <= / 100000 /\ dl + 8 * uu = eps.
Proof. destruct HP as (A & _). unfold qc_eps. assert (E : bpow radix2 (-50) = 8 * uu) by (change (-50)%Z with (3 + -53)%Z; rewrite bpow_plus; reflexivity). pose proof uu_small as U. rewrite E. lra. Qed.
Lemma exp_X : 0 < exp X <= bpow radix2 400 /\ X <= exp X /\ 1 <= exp X.
Proof.
  destruct HP as (_ & A & _). pose proof (exp_pos X). pose proof (exp_ineq1_le X). split; [|lra]. split; [lra|]. apply Rle_trans with (exp (INR 200)); [apply exp_le; rewrite INR_IZR_INZ; cbn; lra|]. exact (exp_nat 200).
Qed.
Lemma exp_low : bpow radix2 (-400) <= exp (- X).
Proof. pose proof exp_X as [E _]. rewrite exp_Ropp. change (-400)%Z with (- (400))%Z. rewrite bpow_opp. apply Rinv_le; lra. Qed.
Variables (s l : f64) (ga : f64).
Hypotheses (Fs : fin s = true) (Fl : fin l = true) (Hs : Rabs (val s) <= X) (Hl : Rabs (val l) <= X) (Hg : qc_level C ga).
Notation S := (val s).
Notation L := (val l).
Notation E := (nexp (n := F) l : f64).
Lemma e_range : exp (- X) <= exp L <= exp X.
Proof. apply Rabs_le_inv in Hl. split; apply exp_le; lra. Qed.
Lemma e_near : fin E = true /\ near dl (val E) (exp L).
Proof. destruct HP as (_ & _ & _ & H). exact (H l Fl Hl). Qed.
Lemma ee_tiny : ee <= bpow radix2 (-1070) /\ 0 < ee. Proof. split; [apply bpow_le; lia|apply bpow_gt_0]. Qed.
(** the constraint *)
Lemma f0_near : fin (fmul s s) = true /\ fin (fsub (fmul s s) l) = true /\ Rabs (val (fmul s s) - S * S) <= uu * (S * S) + ee /\
  val (fsub (fmul s s) l) = rnd (val (fmul s s) - L) /\ Rabs (val (fsub (fmul s s) l) - (S * S - L)) <= 3 * uu * (X * X + X).
Proof.
  destruct HP as (_ & HX & _). pose proof uu_small as U. pose proof ee_small as EE. apply Rabs_le_inv in Hs. apply Rabs_le_inv in Hl.
  assert (S2 : 0 <= S * S <= X * X) by (split; nra). assert (X2 : 1 <= X * X <= 40000) by (split; nra).
  destruct (mul_ab s s (X * X) Fs Fs) as [F1 _]; [rewrite Rabs_pos_eq; lra|lra|]. destruct (fmul_fin s s Fs Fs) as [V1 _]; [apply (bnd_fin _ (X * X)); [rewrite Rabs_pos_eq; lra|lra]|].
  pose proof (rnd_err (S * S)) as R1. rewrite <- V1, (Rabs_pos_eq (S * S)) in R1 by lra.
  assert (UX : uu * (S * S) <= uu * (X * X)) by (apply Rmult_le_compat_l; lra). assert (UL : uu * (X * X) <= / 1000) by nra.
  assert (EU : ee <= / 100 * uu). { apply Rle_trans with (bpow radix2 (-63)); [apply bpow_le; lia|]. change (-63)%Z with (-10 + -53)%Z. rewrite bpow_plus. change (bpow radix2 (-10)) with (/ 1024). apply Rmult_le_compat_r; lra. }
  pose proof R1 as R1'. apply Rabs_le_inv in R1'.
  assert (M : Rabs (val (fmul s s) - L) <= X * X + X + / 100) by (apply Rabs_le; lra).
  destruct (fsub_fin (fmul s s) l F1 Fl) as [V2 F2]; [apply (bnd_fin _ (X * X + X + / 100)); [exact M|nra]|]. split; [exact F1|]. split; [exact F2|]. split; [exact R1|]. split; [exact V2|]. rewrite V2.
  pose proof (rnd_err (val (fmul s s) - L)) as R2. apply Rabs_le_inv in R2. assert (uu * Rabs (val (fmul s s) - L) <= uu * (X * X + X + / 100)) by (apply Rmult_le_compat_l; lra). assert (uu * 1 <= uu * (X * X)) by (apply Rmult_le_compat_l; lra). assert (uu * 1 <= uu * X) by (apply Rmult_le_compat_l; lra). apply Rabs_le. lra.
Qed.
(** the level times the exponential *)
Notation W := (fmul ga E).
Lemma w_near : fin W = true /\ val W = rnd (val ga * val E) /\ 0 <= val W <= 2 * (C * exp X) /\ Rabs (val W - val ga * exp L) <= (dl + 2 * uu) * (C * exp X) /\ ee <= / 100 * uu /\ 1 <= C * exp X <= bpow radix2 500.
Proof.
  destruct HP as (Hd & HX & HC & _). destruct e_near as [Fe Ne]. destruct Hg as [Fg G]. pose proof uu_small as U. pose proof exp_X as (EX & _ & EX1). pose proof e_range as ER. pose proof (exp_pos L) as EL. apply near_in in Ne.
  assert (EU : ee <= / 100 * uu). { apply Rle_trans with (bpow radix2 (-63)); [apply bpow_le; lia|]. change (-63)%Z with (-10 + -53)%Z. rewrite bpow_plus. change (bpow radix2 (-10)) with (/ 1024). apply Rmult_le_compat_r; lra. }
  assert (CX : C * exp X <= bpow radix2 500). { change 500%Z with (100 + 400)%Z. rewrite bpow_plus. apply Rmult_le_compat; lra. } assert (CX1 : 1 <= C * exp X) by nra.
  assert (P1 : val ga * exp L <= C * exp X) by (apply Rmult_le_compat; lra). assert (P0 : 0 <= val ga * exp L) by (apply Rmult_le_pos; lra).
  assert (D : Rabs (val ga * val E - val ga * exp L) <= dl * (C * exp X)).
  { replace (val ga * val E - val ga * exp L) with (val ga * (val E - exp L)) by ring. rewrite Rabs_mult, (Rabs_pos_eq (val ga)) by lra. apply Rle_trans with (val ga * (dl * exp L)); [apply Rmult_le_compat_l; [lra|apply Rabs_le; lra]|]. replace (val ga * (dl * exp L)) with (dl * (val ga * exp L)) by ring. apply Rmult_le_compat_l; lra. }
  assert (dl * (C * exp X) <= / 1000000 * (C * exp X)) by (apply Rmult_le_compat_r; lra). assert (PE : 0 <= val ga * val E) by (apply Rmult_le_pos; [lra|]; assert (dl * exp L <= / 1000000 * exp L) by (apply Rmult_le_compat_r; lra); lra).
  pose proof D as D'. apply Rabs_le_inv in D'. assert (M : Rabs (val ga * val E) <= 101 / 100 * (C * exp X)) by (rewrite Rabs_pos_eq; lra).
  destruct (fmul_fin ga E Fg Fe) as [V Fw]. { apply big_fin. eapply Rle_trans; [exact M|]. apply Rle_trans with (bpow radix2 10 * bpow radix2 500); [change (bpow radix2 10) with 1024; lra|rewrite <- bpow_plus; apply bpow_le; lia]. }
  pose proof (rnd_err (val ga * val E)) as R. rewrite <- V in R. assert (uu * Rabs (val ga * val E) <= uu * (101 / 100 * (C * exp X))) by (apply Rmult_le_compat_l; lra). assert (uu * 1 <= uu * (C * exp X)) by (apply Rmult_le_compat_l; lra).
  apply Rabs_le_inv in R. split; [exact Fw|]. split; [exact V|]. assert (W0 : 0 <= val W) by (rewrite V, <- rnd_0; now apply rnd_le). assert (uu * (C * exp X) <= / 1000 * (C * exp X)) by (apply Rmult_le_compat_r; lra).
  split; [split; [exact W0|lra]|]. split; [apply Rabs_le; lra|]. split; [exact EU|split; assumption].
Qed.
Lemma f1_near : fin (fadd (nopp (n := F) s) W) = true /\ val (fadd (nopp (n := F) s) W) = rnd (- S + val W) /\ Rabs (val (fadd (nopp (n := F) s) W) - (- S + val W)) <= uu * (X + 3 * (C * exp X)).
Proof.
  destruct HP as (_ & HX & _). destruct w_near as (Fw & _ & W0 & _ & EU & CX). pose proof uu_small as U. apply Rabs_le_inv in Hs.
  assert (VO : val (nopp (n := F) s) = - S) by apply B2R_Bopp. assert (FO : fin (nopp (n := F) s : f64) = true) by (cbn; rewrite is_finite_Bopp; exact Fs).
  assert (M : Rabs (- S + val W) <= X + 2 * (C * exp X)) by (apply Rabs_le; lra).
  destruct (fadd_fin (nopp (n := F) s) W FO Fw) as [V Ff]. { rewrite VO. apply big_fin. eapply Rle_trans; [exact M|]. apply Rle_trans with (bpow radix2 10 * bpow radix2 500); [change (bpow radix2 10) with 1024; lra|rewrite <- bpow_plus; apply bpow_le; lia]. }
  rewrite VO in V. split; [exact Ff|]. split; [exact V|]. rewrite V. pose proof (rnd_err (- S + val W)) as R. assert (uu * Rabs (- S + val W) <= uu * (X + 2 * (C * exp X))) by (apply Rmult_le_compat_l; lra). assert (uu * 1 <= uu * (C * exp X)) by (apply Rmult_le_compat_l; lra). lra.
Qed.
Lemma two_s : fin (fmul (fofZ 2) s) = true /\ val (fmul (fofZ 2) s) = 2 * S.
Proof.
  destruct HP as (_ & HX & _). destruct (fofZ_small 2 ltac:(lia)) as [V2 F2]. apply Rabs_le_inv in Hs. destruct (fmul_fin (fofZ 2) s F2 Fs) as [V Fm]; [apply (bnd_fin _ (2 * X)); [rewrite V2; apply Rabs_le; lra|lra]|]. split; [exact Fm|]. rewrite V, V2. apply rnd_generic.
  exact (twice_generic S (val_generic s)).
Qed.
(** the new level *)
Lemma div_near : 0 <= S -> S * S <= L + bpow radix2 (-50) * (1 + S * S) -> val W <= S ->
  fin (fdiv s E) = true /\ 0 <= val (fdiv s E) <= 44 / 100 /\ Rabs (val (fdiv s E) - S / exp L) <= 2 * eps * (S / exp L) + bpow radix2 (-1000) /\ val ga <= val (fdiv s E) + qc_drop C /\ Rabs (S - val (fdiv s E) * exp L) <= eps * (2 * X).
Proof.
  intros S0 SL WS. destruct HP as (Hd & HX & HC & _). destruct e_near as [Fe Ne]. pose proof uu_small as U. pose proof exp_X as (EX & _ & EX1). pose proof e_range as ER. pose proof exp_low as LO. pose proof (exp_pos L) as EL. pose proof ep_range as [EP EQ].
  destruct w_near as (_ & VW & W0 & _ & EU & _). pose proof Ne as Ne'. apply near_in in Ne'. assert (E0 : 99 / 100 * exp L <= val E) by (assert (dl * exp L <= / 1000000 * exp L) by (apply Rmult_le_compat_r; lra); lra).
  assert (Ep : 0 < val E) by lra. assert (EN : val E <> 0) by lra. apply Rabs_le_inv in Hs.
  assert (IE : / exp L <= bpow radix2 400). { apply Rle_trans with (/ exp (- X)); [apply Rinv_le; [apply exp_pos|lra]|]. rewrite exp_Ropp, Rinv_inv. lra. }
  pose proof (near_inv' dl (val E) (exp L) Ne ltac:(lra) EL) as NI. unfold Rdiv in NI. rewrite !Rmult_1_l in NI. pose proof NI as NI'. apply near_in in NI'. pose proof (Rinv_0_lt_compat _ EL) as IP. pose proof (Rinv_0_lt_compat _ Ep) as IP2.
  assert (DI : Rabs (S / val E - S / exp L) <= 102 / 100 * dl * (S / exp L)).
  { unfold Rdiv. replace (S * / val E - S * / exp L) with (S * (/ val E - / exp L)) by ring. rewrite Rabs_mult, (Rabs_pos_eq S) by exact S0. unfold near in NI. apply Rle_trans with (S * (102 / 100 * dl * / exp L)); [apply Rmult_le_compat_l; [exact S0|exact NI]|right; field; lra]. }
  assert (Q0 : 0 <= S / val E) by (apply Rmult_le_pos; [exact S0|now left]). assert (Q1 : 0 <= S / exp L) by (apply Rmult_le_pos; [exact S0|now left]).
  assert (PK : S / exp L <= 433 / 1000).
  { assert (B50 : bpow radix2 (-50) = 8 * uu) by (change (-50)%Z with (3 + -53)%Z; rewrite bpow_plus; reflexivity).
    assert (S2 : 0 <= S * S <= 40000) by (split; nra). assert (h : bpow radix2 (-50) * (1 + S * S) <= / 1000000). { rewrite B50. apply Rle_trans with (8 * uu * 40001); [apply Rmult_le_compat_l; lra|lra]. }
    set (L2 := L + / 1000000). pose proof (objq_peak S L2) as OP. unfold probq, objq in OP. specialize (OP ltac:(unfold L2; lra)). pose proof peak_b. unfold L2 in OP. rewrite exp_plus in OP.
    pose proof (exp_up (/ 1000000) ltac:(lra)) as EUP. pose proof (exp_pos (/ 1000000)) as EPP. replace (S / exp L) with (S / (exp L * exp (/ 1000000)) * exp (/ 1000000)) by (field; lra).
    assert (0 <= S / (exp L * exp (/ 1000000))) by (apply Rmult_le_pos; [exact S0|left; apply Rinv_0_lt_compat; apply Rmult_lt_0_compat; lra]). nra. }
  assert (dl * (S / exp L) <= / 1000000 * (S / exp L)) by (apply Rmult_le_compat_r; lra). pose proof DI as DI'. apply Rabs_le_inv in DI'.
  assert (M : Rabs (S / val E) <= 434 / 1000) by (rewrite Rabs_pos_eq; lra).
  destruct (fdiv_fin s E Fs EN) as [V Fd]; [apply (bnd_fin _ (434 / 1000)); [exact M|lra]|]. split; [exact Fd|]. rewrite V. pose proof (rnd_err (S / val E)) as R. apply Rabs_le_inv in R. rewrite (Rabs_pos_eq (S / val E)) in R by lra.
  assert (ET : ee * bpow radix2 402 <= bpow radix2 (-600)) by (rewrite <- bpow_plus; apply bpow_le; lia). assert (ET1 : ee <= bpow radix2 (-1000)) by (apply bpow_le; lia). pose proof (bpow_gt_0 radix2 (-1075)) as EE0.
  assert (T6 : bpow radix2 (-600) <= uu) by (apply bpow_le; lia). assert (UQ : uu * (S / val E) <= uu * (S / exp L + / 100 * (S / exp L))) by (apply Rmult_le_compat_l; lra).
  assert (NN : 0 <= rnd (S / val E)) by (rewrite <- rnd_0; now apply rnd_le).
  assert (dlq : 0 <= dl * (S / exp L)) by (apply Rmult_le_pos; lra). assert (uq : 0 <= uu * (S / exp L)) by (apply Rmult_le_pos; lra). assert (uq1 : uu * (S / exp L) <= uu * 1) by (apply Rmult_le_compat_l; lra).
  assert (AC : Rabs (rnd (S / val E) - S / exp L) <= (102 / 100 * dl + 2 * uu) * (S / exp L) + ee) by (apply Rabs_le; lra).
  split; [split; [exact NN|apply Rabs_le_inv in AC; lra]|]. split; [|split].
  - eapply Rle_trans; [exact AC|]. rewrite <- EQ. lra.
  - unfold qc_drop. assert (E51 : bpow radix2 (-51) = 4 * uu) by (change (-51)%Z with (2 + -53)%Z; rewrite bpow_plus; reflexivity). rewrite E51. destruct Hg as [Fg G]. pose proof (rnd_err (val ga * val E)) as RW. rewrite <- VW in RW. apply Rabs_le_inv in RW.
    assert (GE : 0 <= val ga * val E) by (apply Rmult_le_pos; lra). rewrite (Rabs_pos_eq (val ga * val E)) in RW by exact GE.
    assert (K : val ga * (1 - uu) - ee * / val E <= S / val E). { apply Rmult_le_reg_r with (val E); [exact Ep|]. unfold Rdiv. rewrite (Rmult_assoc S), Rinv_l, Rmult_1_r by exact EN. rewrite Rmult_minus_distr_r, (Rmult_assoc ee), Rinv_l, Rmult_1_r by exact EN. lra. }
    assert (KE : ee * / val E <= uu). { eapply Rle_trans; [|exact T6]. eapply Rle_trans; [|exact ET]. apply Rmult_le_compat_l; [lra|]. assert (dl * / exp L <= / 1000000 * / exp L) by (apply Rmult_le_compat_r; lra). apply Rle_trans with (4 * bpow radix2 400); [lra|]. change 402%Z with (2 + 400)%Z. rewrite bpow_plus. change (bpow radix2 2) with 4. lra. }
    assert (UC : uu * val ga <= uu * C) by (apply Rmult_le_compat_l; lra). assert (UC1 : uu * 1 <= uu * C) by (apply Rmult_le_compat_l; lra).
    assert (uu * (S / val E) <= uu * 1) by (apply Rmult_le_compat_l; lra). lra.
  - replace (S - rnd (S / val E) * exp L) with ((S / exp L - rnd (S / val E)) * exp L) by (field; lra). rewrite Rabs_mult, (Rabs_pos_eq (exp L)) by lra. rewrite <- Rabs_Ropp, Ropp_minus_distr. apply Rle_trans with (((102 / 100 * dl + 2 * uu) * (S / exp L) + ee) * exp L); [apply Rmult_le_compat_r; [lra|exact AC]|].
    replace (((102 / 100 * dl + 2 * uu) * (S / exp L) + ee) * exp L) with ((102 / 100 * dl + 2 * uu) * S + ee * exp L) by (field; lra).
    assert (ee * exp L <= uu). { eapply Rle_trans; [|exact T6]. eapply Rle_trans; [|exact ET]. apply Rmult_le_compat_l; [lra|]. apply Rle_trans with (bpow radix2 400); [lra|apply bpow_le; lia]. }
    assert ((102 / 100 * dl + 2 * uu) * S <= (102 / 100 * dl + 2 * uu) * X) by (apply Rmult_le_compat_l; lra). assert (uu * 1 <= uu * X) by (apply Rmult_le_compat_l; lra). assert (0 <= dl * X) by (apply Rmult_le_pos; lra). rewrite <- EQ. lra.
Qed.
End V.
Lemma gt_val lm (x : f64) : fin x = true -> (n0 <?! (x : FNum lm)) = true -> 0 < val x.
Proof. intros Fx H. change (Bltb (n0 (N := FNum lm)) x = true) in H. rewrite fltb_fin in H by (exact Fx || apply n0_fin). apply Rlt_bool_iff in H. now rewrite n0_val in H. Qed.
Lemma le_val lm (x : f64) : fin x = true -> (n0 <?! (x : FNum lm)) = false -> val x <= 0.
Proof. intros Fx H. change (Bltb (n0 (N := FNum lm)) x = false) in H. rewrite fltb_fin in H by (exact Fx || apply n0_fin). apply Rlt_bool_no in H. now rewrite n0_val in H. Qed.
Lemma m1_val lm : fin (nm1 (N := FNum lm) : f64) = true /\ val (nm1 (N := FNum lm) : f64) = -1.
Proof. destruct (fofZ_small 1 ltac:(lia)) as [V Fo]. unfold nm1. split; [cbn; rewrite is_finite_Bopp; exact Fo|]. etransitivity; [apply B2R_Bopp|]. etransitivity; [apply f_equal; exact V|]. lra. Qed.
Lemma rnd_sign x y : generic_format radix2 fexp64 x -> generic_format radix2 fexp64 y -> rnd (x + y) <= 0 -> x + y <= 0.
Proof.
  intros Gx Gy H. apply Rnot_lt_le. intros K. assert (0 <= rnd (x + y)) by (rewrite <- rnd_0; apply rnd_le; lra). apply (round_plus_neq_0 radix2 fexp64 ZnearestE x y Gx Gy); [lra|]. unfold rnd in *. lra.
Qed.
Section C.
Variable lm : Libm.
Notation F := (FNum lm).
Variables (dl X C : R).
Hypothesis HP : qc_platform lm dl X C.
Notation eps := (qc_eps dl).
Notation mu := (qc_margin dl X C).
Lemma mu_parts : eps * (1 + 2 * X) * X <= mu / 2 /\ eps * (1 + 2 * X) * (C * exp X) <= mu / 2 /\ 0 < eps * X /\ 0 < eps * (C * exp X) /\ 0 <= mu.
Proof.
  pose proof (ep_range lm dl X C HP) as [EP _]. destruct HP as (_ & HX & HC & _). pose proof (exp_pos X) as EX. assert (CX : 0 < C * exp X) by (apply Rmult_lt_0_compat; lra).
  assert (A : 0 < eps * (1 + 2 * X) * X) by (repeat apply Rmult_lt_0_compat; lra). assert (B : 0 < eps * (1 + 2 * X) * (C * exp X)) by (repeat apply Rmult_lt_0_compat; lra). assert (D : mu / 2 = eps * (1 + 2 * X) * X + eps * (1 + 2 * X) * (C * exp X)) by (unfold qc_margin; field).
  split; [lra|]. split; [lra|]. split; [apply Rmult_lt_0_compat; lra|]. split; [apply Rmult_lt_0_compat; lra|lra].
Qed.
Lemma qc_call idx (y : Arr F) (ga : f64) : (-1 <= idx < 2)%Z -> in_square X y -> qc_level C ga ->
  exists idx' (ga' : f64) g (b : f64) sh, qcvx_assess idx y (ga : F) = Ok (idx', (ga' : F), ((g, mkSingle (N := F) b), sh)) /\ (-1 <= idx' < 2)%Z /\ qc_level C ga' /\ two g /\ all_finite g /\ fin b = true /\
    val ga <= val ga' + qc_drop C /\ (sh = false -> ga' = ga /\ 0 < val b) /\
    (sh = true -> qc_good dl (val ga') (fcoords y) /\ val ga' <= 44 / 100 /\ val b = 0) /\
    (forall z, (forall i, (i < 2)%nat -> Rabs (z i) <= X) -> reaches mu (val ga') z -> along 2 (fcoords g) z (fcoords y) + val b <= 0).
Proof.
  intros Hi (Ty & Ay & By) Hg. destruct (idx2 (N := F) y ltac:(rewrite (proj1 Ty); lia)) as (s & l & Es & El & Vs & Vl).
  assert (Fs : fin (s : f64) = true) by (rewrite Vs; exact (two_fin lm y 0 Ty Ay ltac:(lia))). assert (Fl : fin (l : f64) = true) by (rewrite Vl; exact (two_fin lm y 1 Ty Ay ltac:(lia))).
  pose proof (By 0%nat ltac:(lia)) as Bs. pose proof (By 1%nat ltac:(lia)) as Bl. assert (Us : fcoords y 0%nat = val (s : f64)) by (rewrite Vs; reflexivity). assert (Ul : fcoords y 1%nat = val (l : f64)) by (rewrite Vl; reflexivity). rewrite Us in Bs. rewrite Ul in Bl.
  destruct (f0_near lm dl X C HP s l Fs Fl Bs Bl) as (M0 & M1 & M2 & M3 & M4). destruct (w_near lm dl X C HP l ga Fl Bl Hg) as (W1 & W2 & W3 & W4 & W5 & W6). destruct (f1_near lm dl X C HP s l ga Fs Fl Bs Bl Hg) as (N1 & N2 & N3).
  destruct mu_parts as (MU1 & MU2 & MU3 & MU4 & MU5). pose proof (ep_range lm dl X C HP) as [EP EQ]. pose proof HP as (Hd & HX & HC & _). destruct (m1_val lm) as [Fm Vm]. pose proof uu_small as U. assert (D0 : 0 <= qc_drop C) by (unfold qc_drop; apply Rmult_le_pos; [lra|apply bpow_ge_0]).
  set (E := nexp (n := F) l : f64) in *. set (W := fmul ga E) in *. set (f1 := fadd (nopp (n := F) s) W) in *. set (f0 := fsub (fmul s s) l) in *.
  assert (uX : 0 < uu * X) by (apply Rmult_lt_0_compat; lra). assert (uXX : 0 < uu * (X * X)) by (repeat apply Rmult_lt_0_compat; lra). assert (uC : 0 < uu * (C * exp X)) by (apply Rmult_lt_0_compat; lra).
  destruct (qcvx_cases (N := F) idx y ga s l Hi Es El) as (idx' & Hi' & [(K & R)|[(K & R)|(K0 & K1 & R)]]); exists idx'; rewrite R; clear R.
  - change (n0 <?! (f0 : F)) with (n0 <?! (f0 : F)) in K. pose proof (gt_val lm f0 M1 K) as P. destruct (two_s lm dl X C HP s Fs Bs) as [F2 V2].
    exists ga, (vec2 (N := F) (n2 *! s) nm1), f0, false. split; [reflexivity|]. split; [exact Hi'|]. split; [exact Hg|]. split; [split; reflexivity|]. split; [constructor; [exact F2|constructor; [exact Fm|constructor]]|]. split; [exact M1|]. split; [lra|]. split; [auto|]. split; [discriminate|].
    intros z Bz [H1 _]. unfold along, dot. cbn [Rsum]. rewrite Us, Ul. change (fcoords (vec2 (N := F) (n2 *! s) nm1) 0%nat) with (val (fmul (fofZ 2) s)). change (fcoords (vec2 (N := F) (n2 *! s) nm1) 1%nat) with (val (nm1 (N := F) : f64)). rewrite V2, Vm. apply Rabs_le_inv in M4. set (S := val (s : f64)) in *.
    pose proof (Rle_0_sqr (z 0%nat - S)) as SQ. unfold Rsqr in SQ. assert (Q : 3 * uu * (X * X + X) <= eps * (1 + 2 * X) * X) by (rewrite <- EQ; assert (0 <= dl * ((1 + 2 * X) * X)) by (repeat apply Rmult_le_pos; lra); lra). lra.
  - pose proof (gt_val lm f1 N1 K) as P.
    exists ga, (vec2 (N := F) nm1 W), f1, false. split; [reflexivity|]. split; [exact Hi'|]. split; [exact Hg|]. split; [split; reflexivity|]. split; [constructor; [exact Fm|constructor; [exact W1|constructor]]|]. split; [exact N1|]. split; [lra|]. split; [auto|]. split; [discriminate|].
    intros z Bz [_ H1]. unfold along, dot. cbn [Rsum]. rewrite Us, Ul. change (fcoords (vec2 (N := F) nm1 W) 0%nat) with (val (nm1 (N := F) : f64)). change (fcoords (vec2 (N := F) nm1 W) 1%nat) with (val W). rewrite Vm. apply Rabs_le_inv in N3. destruct Hg as [Fg G]. pose proof (Bz 1%nat ltac:(lia)) as B1. apply Rabs_le_inv in B1. apply Rabs_le_inv in Bl.
    pose proof (exp_above (val (l : f64)) (z 1%nat)) as EA. assert (EA' : val ga * (exp (val (l : f64)) * (1 + (z 1%nat - val (l : f64)))) <= val ga * exp (z 1%nat)) by (apply Rmult_le_compat_l; lra).
    assert (Q : (val W - val ga * exp (val (l : f64))) * (1 + (z 1%nat - val (l : f64))) <= (dl + 2 * uu) * (C * exp X) * (1 + 2 * X)).
    { eapply Rle_trans; [apply Rle_abs|]. rewrite Rabs_mult. apply Rmult_le_compat; try apply Rabs_pos; [exact W4|apply Rabs_le; lra]. }
    assert (Q2 : (dl + 2 * uu) * (C * exp X) * (1 + 2 * X) + uu * (X + 3 * (C * exp X)) <= mu / 2 + mu / 2).
    { assert (0 < uu * (C * exp X) * X) by (apply Rmult_lt_0_compat; lra). apply Rle_trans with (eps * (1 + 2 * X) * (C * exp X) + eps * (1 + 2 * X) * X); [|lra]. rewrite <- EQ. assert (0 <= dl * ((1 + 2 * X) * X)) by (repeat apply Rmult_le_pos; lra). assert (0 <= dl * ((1 + 2 * X) * (C * exp X))) by (apply Rmult_le_pos; [lra|apply Rmult_le_pos; lra]). lra. }
    lra.
  - pose proof (le_val lm f0 M1 K0) as P0. pose proof (le_val lm f1 N1 K1) as P1. rewrite M3 in P0. rewrite N2 in P1. set (S := val (s : f64)) in *. set (L := val (l : f64)) in *.
    assert (Q0 : val (fmul s s) + - L <= 0) by (apply rnd_sign; [apply val_generic|apply generic_format_opp, val_generic|exact P0]). assert (Q1 : - S + val W <= 0) by (apply rnd_sign; [apply generic_format_opp, val_generic|apply val_generic|exact P1]).
    assert (S0 : 0 <= S) by lra. assert (EE : ee <= bpow radix2 (-50)) by (apply bpow_le; lia). assert (E50 : bpow radix2 (-50) = 8 * uu) by (change (-50)%Z with (3 + -53)%Z; rewrite bpow_plus; reflexivity).
    assert (SL : S * S <= L + bpow radix2 (-50) * (1 + S * S)). { apply Rabs_le_inv in M2. rewrite E50 in *. assert (0 <= uu * (S * S)) by (apply Rmult_le_pos; [lra|apply Rle_0_sqr]). lra. }
    destruct (div_near lm dl X C HP s l ga Fs Fl Bs Bl Hg S0 SL ltac:(fold E W S; lra)) as (D1 & D2 & D3 & D4 & D5). fold E S L in D1, D2, D3, D4, D5.
    exists (fdiv s E), (vec2 (N := F) nm1 s), (n0 (N := F)), true. split; [reflexivity|]. split; [exact Hi'|]. split; [split; [exact D1|lra]|]. split; [split; reflexivity|]. split; [constructor; [exact Fm|constructor; [exact Fs|constructor]]|]. split; [apply n0_fin|]. split; [exact D4|]. split; [discriminate|]. split.
    + intros _. split; [unfold qc_good; rewrite Us, Ul; fold S L; auto|]. split; [lra|apply n0_val].
    + intros z Bz [_ H1]. unfold along, dot. cbn [Rsum]. rewrite Us, Ul, n0_val. change (fcoords (vec2 (N := F) nm1 s) 0%nat) with (val (nm1 (N := F) : f64)). change (fcoords (vec2 (N := F) nm1 s) 1%nat) with S. rewrite Vm. fold S L. set (t := val (fdiv s E)) in *. pose proof (Bz 1%nat ltac:(lia)) as B1. apply Rabs_le_inv in B1. apply Rabs_le_inv in Bl.
      pose proof (exp_above L (z 1%nat)) as EA. assert (EA' : t * (exp L * (1 + (z 1%nat - L))) <= t * exp (z 1%nat)) by (apply Rmult_le_compat_l; lra).
      assert (Q : (S - t * exp L) * (1 + (z 1%nat - L)) <= eps * (2 * X) * (1 + 2 * X)). { eapply Rle_trans; [apply Rle_abs|]. rewrite Rabs_mult. apply Rmult_le_compat; try apply Rabs_pos; [exact D5|apply Rabs_le; lra]. }
      lra.
Qed.
End C.
