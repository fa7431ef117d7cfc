(** One ellipsoid step with a pair of parallel cuts in binary64 (C109). *)
From Coq Require Import ZArith Reals Lra Lia Bool Psatz Arith List.
From Flocq Require Import Core IEEE754.BinarySingleNaN.
From Verif Require Import Num Res Arr CuttingPlane EllCalc Ell ArrLemmas EllLemmas Spec RealLin EllReal FloatLemmas AccSpec FloatRel AccProofs FloatErr LdltErr StepErr StepRel StepAccSpec StepAcc Det DetLemmas VolScalar ParAccSpec ParGeom.
Local Open Scope R_scope.

#[local] Opaque fadd fsub fmul fdiv fsqrt fofZ.

Section Step.
Variable lm : Libm.
Notation F := (FNum lm).
Variables (n : nat) (e : Ell F) (g : Arr F) (lam Lam X r : R).
Hypotheses (He : tame n e lam Lam X) (Hg : grad_ok n g).
Let M := fshape n e.
Let gv := fcoords g.
Let p := mulmv n M gv.
Let om := quad n M gv.
Let kap := fkap e.
Let pf i : f64 := gt e g n i.
Let of : f64 := omega e g n.
Let G := Rsum n (fun i => Rabs (gv i)).
Let P := Lam * G.
Let N := INR n.
Let tt : f64 := fmul (e_kappa e) of.
Hypothesis Ht : moderate tt.
Hypotheses (Hr : 1 <= r) (Hps : pair_slack n lam Lam X kap r <= 1 / 10).
Let a := 4 * N * uu * P.
Let th := 8 * (N * N) * uu * (Lam / lam).
Let ze0 := uu * (X * sqrt (N / (lam * kap))).
Lemma q_ps : pair_slack n lam Lam X kap r = 1600 * (r * th) + 80 * (r * ze0).
Proof. unfold pair_slack. pose proof (sl_eq lm n e lam Lam X) as E. fold kap N th ze0 in E. rewrite E. ring. Qed.
Lemma q_th0 : 0 < th.
Proof. pose proof (uu_th lm n e lam Lam X He) as A. fold N in A. fold th in A. pose proof (bpow_gt_0 radix2 (-53)). lra. Qed.
Lemma q_ze0 : 0 <= ze0. Proof. exact (ze0_pos lm n e lam Lam X He). Qed.
Lemma q_b : 0 < r * th <= 1 / 16000 /\ 0 <= r * ze0 <= 1 / 800 /\ th <= r * th /\ ze0 <= r * ze0.
Proof.
  rewrite q_ps in Hps. pose proof q_th0 as A. pose proof q_ze0 as B. assert (0 < r * th) by (apply Rmult_lt_0_compat; lra). assert (0 <= r * ze0) by (apply Rmult_le_pos; lra).
  assert (1 * th <= r * th) by (apply Rmult_le_compat_r; lra). assert (1 * ze0 <= r * ze0) by (apply Rmult_le_compat_r; lra). repeat split; lra.
Qed.
Lemma q_sl : slack n lam Lam X kap <= 1 / 10.
Proof. pose proof (sl_eq lm n e lam Lam X) as E. fold kap N th ze0 in E. rewrite E. pose proof q_b as (A & B & C & D). lra. Qed.
Lemma q_th : 0 < th <= 1 / 16000. Proof. pose proof q_b as (A & B & C & D). pose proof q_th0. lra. Qed.
Lemma q_N2 : 2 <= N. Proof. exact (N2' lm n e lam Lam X He). Qed.
Lemma q_om : 0 < om. Proof. exact (om_pos lm n e g lam Lam X He Hg Ht). Qed.
Lemma q_kap : 0 < kap. Proof. exact (kap_pos lm n e lam Lam X He). Qed.
Lemma q_of : rel th (val of) om. Proof. exact (of_close lm n e g lam Lam X He Hg Ht). Qed.
Lemma q_ofb : rng (-201) 201 (val of). Proof. exact (of_b lm n e g lam Lam X He Ht). Qed.
Lemma q_tt : rel (11 / 10 * th) (val tt) (kap * om).
Proof. exact (r_t kap om (val of) (val tt) th q_kap q_om (th_b lm n e lam Lam X He q_sl) q_of (tt_rel lm n e g lam Lam X He Ht)). Qed.
Lemma q_T : 0 < val tt. Proof. destruct Ht as [_ A]. exact (rng_pos _ _ _ A). Qed.
(** the scale for which the computed half width is exact *)
Let kp := val tt / om.
Lemma kp_pos : 0 < kp. Proof. apply Rdiv_lt_0_compat; [exact q_T|exact q_om]. Qed.
Lemma kp_om : kp * om = val tt. Proof. unfold kp. field. pose proof q_om. lra. Qed.
Lemma kp_rel : kap * (1 - 11 / 10 * th) <= kp <= kap * (1 + 11 / 10 * th).
Proof.
  pose proof q_tt as [A B]. pose proof q_om as O. rewrite <- kp_om in A, B. split; apply Rmult_le_reg_r with om; auto; lra.
Qed.
Variables (b0 b1 : R).
Hypotheses (H0 : 0 <= b0) (Hq : 4 * (b0 * b0) <= val tt) (H01 : b0 < b1) (H1 : b1 * b1 < val tt) (Hth : val tt <= r * ((b1 - b0) * (b1 - b0))).
Let rho := slab_rho N (val tt) b0 b1.
Let sigma := slab_sigma N (val tt) b0 b1.
Let delta := slab_delta N (val tt) b0 b1.
Variables (rf sf df : f64).
Hypotheses (Rrf : rel (10 * th) (val rf) rho) (Rsf : rel (10 * th) (val sf) sigma) (Rdf : rel (10 * th) (val df) delta).
Hypotheses (Frf : fin rf = true) (Fsf : fin sf = true) (Fdf : fin df = true).
Hypotheses (Grf : rng (-129) 100 rho) (Gsf : rng (-28) 0 sigma).
Lemma s_sigma : 0 < sigma < 1. Proof. exact (pg_sigma N (val tt) b0 b1 q_N2 q_T H0 H01). Qed.
Lemma s_delta : 3 / 4 <= delta <= 2. Proof. exact (pg_delta N (val tt) b0 b1 q_N2 q_T H0 Hq H01 H1). Qed.
Lemma s_rho : 0 <= rho /\ rho * rho <= kp * om.
Proof. rewrite kp_om. pose proof (pg_rho N (val tt) b0 b1 q_N2 q_T H0 H01 H1) as [A B]. split; [left; exact (proj1 A)|exact B]. Qed.
Lemma s_flat : 0 <= sigma <= 1 - / (10 * r).
Proof.
  pose proof (pg_flat N (val tt) b0 b1 q_N2 q_T H0 Hq H01 H1) as A. change (2 * (val tt + N * (b0 * b1)) / _) with sigma in A. pose proof s_sigma as S. pose proof q_T as T0. split; [lra|].
  assert (B : val tt <= r * (8 * val tt * (1 - sigma))) by (eapply Rle_trans; [exact Hth|apply Rmult_le_compat_l; lra]).
  assert (C : 1 <= 8 * (r * (1 - sigma))). { apply Rmult_le_reg_r with (val tt); [exact T0|]. replace (8 * (r * (1 - sigma)) * val tt) with (r * (8 * val tt * (1 - sigma))) by ring. lra. }
  assert (D : / (10 * r) <= 1 - sigma); [|lra]. apply Rmult_le_reg_l with (10 * r); [lra|]. rewrite Rinv_r by lra. lra.
Qed.
Let rt : f64 := fdiv rf of.
Let st : f64 := fdiv sf of.
Let kt : f64 := fmul (e_kappa e) df.
Lemma q_rnd z : bpow radix2 (-900) <= z -> rel (th / 16) (rnd z) z. Proof. exact (rnd_rel lm n e lam Lam X He z). Qed.
Lemma rt_ok' : fin rt = true /\ rel (th / 16) (val rt) (val rf / val of).
Proof.
  pose proof q_th as T. assert (R : rng (-130) 101 (val rf)) by (apply (rel_rng (val rf) rho (10 * th) (-129) 100); [lra|exact Rrf|exact Grf]).
  pose proof (rng_div _ _ _ _ _ _ R q_ofb) as D. pose proof (rng_pos _ _ _ q_ofb) as O. destruct (fdiv_fin rf of Frf) as [E Ff]; [lra| |].
  - apply rnd_ok. rewrite Rabs_pos_eq by (left; exact (rng_pos _ _ _ D)). eapply Rle_trans; [apply D|apply b_le; lia].
  - split; [exact Ff|]. unfold rt. rewrite E. apply q_rnd. eapply Rle_trans; [|apply D]. apply b_le; lia.
Qed.
Lemma sf_b : rng (-29) 1 (val sf).
Proof. pose proof q_th as T. apply (rel_rng (val sf) sigma (10 * th) (-28) 0); [lra|exact Rsf|exact Gsf]. Qed.
Lemma st_ok' : fin st = true /\ rel (th / 16) (val st) (val sf / val of).
Proof.
  pose proof (rng_div _ _ _ _ _ _ sf_b q_ofb) as D. pose proof (rng_pos _ _ _ q_ofb) as O. destruct (fdiv_fin sf of Fsf) as [E Ff]; [lra| |].
  - apply rnd_ok. rewrite Rabs_pos_eq by (left; exact (rng_pos _ _ _ D)). eapply Rle_trans; [apply D|apply b_le; lia].
  - split; [exact Ff|]. unfold st. rewrite E. apply q_rnd. eapply Rle_trans; [|apply D]. apply b_le; lia.
Qed.
Lemma df_b' : rng (-1) 2 (val df).
Proof.
  pose proof q_th as T. pose proof s_delta as D. destruct Rdf as [A B]. assert (delta * (10 * th) <= delta * (1 / 1000)) by (apply Rmult_le_compat_l; lra).
  split; [change (bpow radix2 (-1)) with (/ 2)|change (bpow radix2 2) with 4]; lra.
Qed.
Lemma kt_ok' : fin kt = true /\ rel (th / 16) (val kt) (kap * val df).
Proof.
  pose proof (kap_b lm n e lam Lam X He) as [Fk Kb]. pose proof (rng_mul _ _ _ _ _ _ Kb df_b') as D. destruct (fmul_fin (e_kappa e) df Fk Fdf) as [E Ff].
  - apply rnd_ok. change (val (e_kappa e : f64)) with kap. rewrite Rabs_pos_eq by (left; exact (rng_pos _ _ _ D)). eapply Rle_trans; [apply D|apply b_le; lia].
  - split; [exact Ff|]. unfold kt. rewrite E. change (val (e_kappa e : f64)) with kap. apply q_rnd. eapply Rle_trans; [|apply D]. apply b_le; lia.
Qed.
Lemma quot x X0 y : 0 <= X0 -> rel (10 * th) x X0 -> rel (th / 16) y (x / val of) -> rel (16 * th) y (X0 / om).
Proof.
  intros HX Rx Ry. pose proof q_th as T. pose proof q_om as O. assert (0 < / om) by now apply Rinv_0_lt_compat. assert (0 <= X0 / om) by (apply Rmult_le_pos; lra).
  apply (rel_trans (113 / 10 * th + 1 / 10 * th) (th / 16) _ _ (x / val of)); [lra|lra|lra|lra|nra| |exact Ry].
  apply (rel_div (10 * th) th); [exact HX|exact O|lra|lra|lra|exact Rx|exact q_of].
Qed.
Lemma rt_rel' : rel (16 * th) (val rt) (rho / om). Proof. apply (quot (val rf)); [apply s_rho|exact Rrf|apply rt_ok']. Qed.
Lemma st_rel' : rel (16 * th) (val st) (sigma / om). Proof. apply (quot (val sf)); [apply s_flat|exact Rsf|apply st_ok']. Qed.
Lemma kt_rel' : rel (101 / 10 * th) (val kt) (kap * delta).
Proof.
  pose proof q_th as T. pose proof s_delta as D. pose proof q_kap as K. apply (rel_trans (10 * th) (th / 16) _ _ (kap * val df)); [apply Rmult_le_pos; lra|lra|lra|lra|nra| |apply kt_ok'].
  destruct Rdf as [A B]. split; [assert (kap * (delta * (1 - 10 * th)) <= kap * val df) by (apply Rmult_le_compat_l; lra)|assert (kap * val df <= kap * (delta * (1 + 10 * th))) by (apply Rmult_le_compat_l; lra)]; lra.
Qed.
Lemma kt_low' : kp * delta * (1 - 16 * th) <= val kt.
Proof.
  pose proof q_th as T. pose proof s_delta as D. pose proof q_kap as K. pose proof kp_rel as [_ B]. pose proof kt_rel' as [A _]. eapply Rle_trans; [|exact A].
  replace (kp * delta * (1 - 16 * th)) with (delta * (kp * (1 - 16 * th))) by ring. replace (kap * delta * (1 - 101 / 10 * th)) with (delta * (kap * (1 - 101 / 10 * th))) by ring. apply Rmult_le_compat_l; [lra|].
  apply Rle_trans with (kap * (1 + 11 / 10 * th) * (1 - 16 * th)); [apply Rmult_le_compat_r; lra|]. rewrite Rmult_assoc. apply Rmult_le_compat_l; [lra|]. nra.
Qed.

(** sizes relative to the ellipsoid *)
Let V := sqrt (Lam * om).
Let Y := sqrt (kap * Lam).
Lemma V0 : 0 < V. Proof. exact (V_pos lm n e g lam Lam X He Hg Ht). Qed.
Lemma V2 : V * V = Lam * om. Proof. exact (V_sq lm n e g lam Lam X He Hg Ht). Qed.
Lemma Y0 : 0 < Y. Proof. exact (Y_pos lm n e lam Lam X He). Qed.
Lemma Y2 : Y * Y = kap * Lam. Proof. exact (Y_sq lm n e lam Lam X He). Qed.
Lemma L0 : 0 < Lam. Proof. exact (Lam_pos lm n e lam Lam X He). Qed.
Lemma l0 : 0 < lam. Proof. exact (lam_pos lm n e lam Lam X He). Qed.
Lemma pV i : (i < n)%nat -> Rabs (val (pf i)) <= 1001 / 1000 * V. Proof. exact (pf_V lm n e g lam Lam X He Hg Ht q_sl i). Qed.
Lemma pfin i : (i < n)%nat -> fin (pf i) = true. Proof. exact (pf_fin lm n e g lam Lam X He Hg i). Qed.
Lemma pb2 i : (i < n)%nat -> Rabs (val (pf i)) <= bpow radix2 327. Proof. exact (pf_b2 lm n e g lam Lam X He Hg i). Qed.
Lemma rho_om' : 0 <= rho / om /\ rho / om * V <= 1001 / 1000 * Y.
Proof.
  pose proof s_rho as [R0 R2]. pose proof q_om as O. assert (0 < / om) by now apply Rinv_0_lt_compat. assert (D : 0 <= rho / om) by (apply Rmult_le_pos; lra). split; [exact D|]. pose proof V0 as VV. pose proof Y0 as YY. pose proof L0 as LL.
  assert (VD : 0 <= rho / om * V) by (apply Rmult_le_pos; lra). rewrite <- (Rabs_pos_eq _ VD).
  apply sq_le_abs; [lra|]. replace (rho / om * V * (rho / om * V)) with (rho * rho / (om * om) * (V * V)) by (field; lra). rewrite V2.
  replace (rho * rho / (om * om) * (Lam * om)) with (rho * rho * (Lam / om)) by (field; lra). replace (1001 / 1000 * Y * (1001 / 1000 * Y)) with (1002001 / 1000000 * (Y * Y)) by field. rewrite Y2.
  replace (1002001 / 1000000 * (kap * Lam)) with (1002001 / 1000000 * kap * om * (Lam / om)) by (field; lra).
  assert (0 <= Lam / om) by (apply Rmult_le_pos; lra). apply Rmult_le_compat_r; [lra|]. eapply Rle_trans; [exact R2|]. apply Rmult_le_compat_r; [lra|]. pose proof kp_rel as [_ B]. pose proof q_th as T. pose proof q_kap as K.
  eapply Rle_trans; [exact B|]. rewrite (Rmult_comm _ kap). apply Rmult_le_compat_l; lra.
Qed.
Lemma rt_pf' i : (i < n)%nat -> Rabs (val rt * val (pf i)) <= 101 / 100 * Y.
Proof.
  intros Hi. rewrite Rabs_mult. pose proof rho_om' as [R0 RY]. pose proof q_th as T. pose proof (rel_up _ _ (16 * th) R0 ltac:(lra) rt_rel') as A. pose proof (pV i Hi) as B. pose proof V0 as VV. pose proof Y0 as YY.
  apply Rle_trans with (rho / om * (1001 / 1000) * (1001 / 1000 * V)).
  - apply Rmult_le_compat; auto using Rabs_pos. eapply Rle_trans; [exact A|]. apply Rmult_le_compat_l; lra.
  - revert RY. generalize (rho / om). intros w RY. replace (w * (1001 / 1000) * (1001 / 1000 * V)) with (1002001 / 1000000 * (w * V)) by field. lra.
Qed.
Lemma st_pf' i j : (i < n)%nat -> (j < n)%nat -> Rabs (val st * val (pf i)) * Rabs (val (pf j)) <= 101 / 100 * Lam.
Proof.
  intros Hi Hj. rewrite Rabs_mult. pose proof s_sigma as [S0 S1]. pose proof q_om as O. assert (0 < / om) by now apply Rinv_0_lt_compat. assert (R0 : 0 <= sigma / om) by (apply Rmult_le_pos; lra). pose proof L0 as LL.
  assert (RY : sigma / om * (V * V) <= Lam). { rewrite V2. replace (sigma / om * (Lam * om)) with (sigma * Lam) by (field; lra). rewrite <- (Rmult_1_l Lam) at 2. apply Rmult_le_compat_r; lra. }
  pose proof q_th as T. pose proof (rel_up _ _ (16 * th) R0 ltac:(lra) st_rel') as A. pose proof (pV i Hi) as B. pose proof (pV j Hj) as C. pose proof V0 as VV.
  apply Rle_trans with (sigma / om * (1001 / 1000) * (1001 / 1000 * V) * (1001 / 1000 * V)).
  - apply Rmult_le_compat; auto using Rabs_pos, Rmult_le_pos. apply Rmult_le_compat; auto using Rabs_pos. eapply Rle_trans; [exact A|]. apply Rmult_le_compat_l; lra.
  - revert RY. generalize (sigma / om). intros w RY. replace (w * (1001 / 1000) * (1001 / 1000 * V) * (1001 / 1000 * V)) with (1003003001 / 1000000000 * (w * (V * V))) by field. lra.
Qed.
Lemma st_b' : Rabs (val st) <= bpow radix2 305.
Proof.
  pose proof q_th as T. pose proof (rng_div _ _ _ _ _ _ sf_b q_ofb) as D. destruct st_ok' as [_ S]. assert (E : rng (-231) 203 (val st)) by (apply (rel_rng (val st) (val sf / val of) (th / 16) (-230) 202); [lra|exact S|exact D]).
  rewrite Rabs_pos_eq by (left; exact (rng_pos _ _ _ E)). eapply Rle_trans; [apply E|apply b_le; lia].
Qed.
Let eta := uu * (X + 3 * Y).
Let xt i : f64 := fsub (vget (e_xc e) i) (fmul rt (pf i)).
Let cv := fcoords (e_xc e).
Lemma YB : bpow radix2 (-100) <= Y <= bpow radix2 100. Proof. exact (Y_b lm n e lam Lam X He). Qed.
Lemma w_ok' i : (i < n)%nat -> fin (fmul rt (pf i)) = true /\ Rabs (val (fmul rt (pf i)) - val rt * val (pf i)) <= 102 / 100 * (uu * Y) /\ Rabs (val (fmul rt (pf i))) <= 102 / 100 * Y.
Proof.
  intros Hi. pose proof (rt_pf' i Hi) as A. pose proof YB as [Ya Yb]. pose proof Y0 as YY. pose proof (ee_small Y Ya) as E. pose proof uu_s as U.
  assert (S : Rabs (val rt * val (pf i)) <= bpow radix2 101). { eapply Rle_trans; [exact A|]. rewrite b101. lra. }
  destruct (fmul_fin rt (pf i)) as [Ev Ef]; [apply rt_ok'|apply pfin; auto| |].
  { apply rnd_ok. eapply Rle_trans; [exact S|apply b_le; lia]. }
  split; [exact Ef|]. rewrite Ev. pose proof (rnd_err (val rt * val (pf i))) as R.
  assert (Q : uu * Rabs (val rt * val (pf i)) <= uu * (101 / 100 * Y)) by (apply Rmult_le_compat_l; [lra|exact A]).
  assert (UY : 0 < uu * Y) by (apply Rmult_lt_0_compat; lra). assert (UY2 : uu * Y <= 1 / 1000000 * Y) by (apply Rmult_le_compat_r; lra).
  assert (D : Rabs (rnd (val rt * val (pf i)) - val rt * val (pf i)) <= 102 / 100 * (uu * Y)) by lra. split; [exact D|].
  apply Rabs_le_inv in D. apply Rabs_le_inv in A. apply Rabs_le. clear - A D UY2 YY UY. clearbody Y. lra.
Qed.
Lemma xt_ok' i : (i < n)%nat -> fin (xt i) = true /\ Rabs (val (xt i) - (cv i - val rt * val (pf i))) <= eta.
Proof.
  intros Hi. destruct (w_ok' i Hi) as (Fw & D & B). destruct (t_X _ _ _ _ _ He) as [[X0 X1] XB]. specialize (XB i Hi). change (fcoords (e_xc e) i) with (cv i) in XB.
  pose proof YB as [Ya Yb]. pose proof Y0 as YY. pose proof (ee_small Y Ya) as E. pose proof uu_s as U. assert (UY : 0 < uu * Y) by (apply Rmult_lt_0_compat; lra).
  assert (S : Rabs (cv i - val (fmul rt (pf i))) <= X + 102 / 100 * Y). { unfold Rminus. eapply Rle_trans; [apply Rabs_triang|]. rewrite Rabs_Ropp. lra. }
  destruct (fsub_fin (vget (e_xc e) i : f64) (fmul rt (pf i))) as [Ev Ef]; [exact (xc_fin lm n e lam Lam X He i Hi)|exact Fw| |].
  { apply rnd_ok. change (val (vget (e_xc e) i : f64)) with (cv i). eapply Rle_trans; [exact S|]. apply Rle_trans with (bpow radix2 102); [|apply b_le; lia]. rewrite b102. lra. }
  split; [exact Ef|]. unfold xt. rewrite Ev. change (val (vget (e_xc e) i : f64)) with (cv i).
  pose proof (rnd_err (cv i - val (fmul rt (pf i)))) as R. assert (Q : uu * Rabs (cv i - val (fmul rt (pf i))) <= uu * (X + 102 / 100 * Y)) by (apply Rmult_le_compat_l; [lra|exact S]).
  apply Rabs_le_inv in D. apply Rabs_le. set (z := rnd (cv i - val (fmul rt (pf i)))) in *. assert (K : Rabs (z - (cv i - val (fmul rt (pf i)))) <= uu * X + 103 / 100 * (uu * Y)) by lra.
  apply Rabs_le_inv in K. unfold eta. clear - D K UY. clearbody z Y. lra.
Qed.
Let ze := 101 / 100 * (ze0 + 4 * th).
Lemma ze_b' : 0 <= ze /\ r * ze <= 1 / 100.
Proof. pose proof q_b as (A & B & C & D). pose proof q_ze0. pose proof q_th0. unfold ze. split; [lra|]. replace (r * (101 / 100 * (ze0 + 4 * th))) with (101 / 100 * (r * ze0 + 4 * (r * th))) by ring. lra. Qed.
Lemma q_eta0 : 0 <= eta. Proof. exact (eta0 lm n e lam Lam X He). Qed.
Lemma q_eta : eta * eta * N <= ze * ze * (lam * kp).
Proof.
  pose proof (eta_small lm n e lam Lam X He q_sl) as A. fold N kap in A. fold Y in A. fold eta in A. fold th in A. fold ze0 in A. eapply Rle_trans; [exact A|]. pose proof q_th as T. pose proof q_kap as K. pose proof l0 as L. pose proof kp_rel as [B _].
  unfold ze. set (w := ze0 + 4 * th). replace (101 / 100 * w * (101 / 100 * w) * (lam * kp)) with (w * w * (lam * (10201 / 10000 * kp))) by field. apply Rmult_le_compat_l; [apply Rle_0_sqr|]. apply Rmult_le_compat_l; [lra|].
  assert (kap * (1 - 1 / 1000) <= kap * (1 - 11 / 10 * th)) by (apply Rmult_le_compat_l; lra). lra.
Qed.
(** the shape matrix *)
Let bm := 5 * uu * Lam.
Lemma q_bm : 0 <= bm /\ N * bm <= 16 * th * lam.
Proof.
  pose proof (bm_small lm n e lam Lam X He) as [A B]. fold N bm in B. fold th in B. split; [exact A|]. pose proof q_th. pose proof l0. assert (4 * th * lam <= 16 * th * lam) by (apply Rmult_le_compat_r; lra). lra.
Qed.
Lemma q_a0 : 0 <= a. Proof. exact (a0 lm n e g lam Lam X He Hg). Qed.
Lemma q_a : a * a * N <= (16 * th) * (16 * th) * (lam * om).
Proof.
  pose proof (a_small lm n e g lam Lam X He Hg Ht) as A. fold N gv in A. fold G in A. fold P a th M in A. fold om in A. eapply Rle_trans; [exact A|]. pose proof q_th. pose proof l0. pose proof q_om. apply Rmult_le_compat_r; [apply Rmult_le_pos; lra|]. apply Rmult_le_compat; lra.
Qed.
Lemma q_pf i : (i < n)%nat -> Rabs (val (pf i) - p i) <= a. Proof. exact (pf_close lm n e g lam Lam X He Hg Ht i). Qed.
Lemma q_sym : sym n M. Proof. exact (t_sym _ _ _ _ _ He). Qed.
Lemma q_lam z : lam * dot n z z <= quad n M z. Proof. apply (t_lam _ _ _ _ _ He). Qed.
Lemma entry_ok' i j : (i < n)%nat -> (j < n)%nat ->
  let v : f64 := fsub (mget n (adata (e_mq e)) i j) (fmul (fmul st (pf i)) (pf j)) in
  fin v = true /\ Rabs (val v - (M i j - val st * val (pf i) * val (pf j))) <= bm.
Proof.
  intros Hi Hj v. pose proof (st_pf' i j Hi Hj) as A. pose proof uu_s as U. pose proof L0 as L. pose proof (Lam_b lm n e lam Lam X He) as [L1 L2]. pose proof (ee_small Lam L1) as E. assert (UL : 0 < uu * Lam) by (apply Rmult_lt_0_compat; lra). assert (UL2 : uu * Lam <= 1 / 1000000 * Lam) by (apply Rmult_le_compat_r; lra).
  pose proof (pb2 i Hi) as Pi. pose proof (pb2 j Hj) as Pj. pose proof (mul_size _ _ _ _ st_b' Pi) as S1.
  destruct (fmul_fin st (pf i)) as [E1 F1]; [apply st_ok'|apply pfin; auto|apply rnd_ok; eapply Rle_trans; [exact S1|apply b_le; lia]|].
  set (q := fmul st (pf i)) in *. set (x1 := val st * val (pf i)) in *. set (y := val (pf j)) in *.
  pose proof (rnd_err x1) as R1. rewrite <- E1 in R1.
  assert (EP : ee * Rabs y <= uu * Lam / 1000).
  { apply Rle_trans with (ee * bpow radix2 327); [apply Rmult_le_compat_l; [apply bpow_ge_0|exact Pj]|]. rewrite <- bpow_plus. assert (bpow radix2 (-1075 + 327) <= uu * bpow radix2 (-200)) by (rewrite <- bpow_plus; apply b_le; lia).
    assert (bpow radix2 (-200) <= bpow radix2 (-100) * bpow radix2 (-20)) by (rewrite <- bpow_plus; apply b_le; lia). change (bpow radix2 (-20)) with (/ 1048576) in *.
    assert (uu * bpow radix2 (-200) <= uu * (Lam / 1000)) by (apply Rmult_le_compat_l; [lra|]; pose proof (bpow_gt_0 radix2 (-100)); lra). lra. }
  assert (D1 : Rabs ((val q - x1) * y) <= 102 / 100 * (uu * Lam)).
  { rewrite Rabs_mult. apply Rle_trans with ((uu * Rabs x1 + ee) * Rabs y); [apply Rmult_le_compat_r; [apply Rabs_pos|exact R1]|].
    replace ((uu * Rabs x1 + ee) * Rabs y) with (uu * (Rabs x1 * Rabs y) + ee * Rabs y) by ring. assert (uu * (Rabs x1 * Rabs y) <= uu * (101 / 100 * Lam)) by (apply Rmult_le_compat_l; [lra|exact A]). lra. }
  rewrite <- Rabs_mult in A. assert (S2 : Rabs (val q * y) <= 102 / 100 * Lam).
  { replace (val q * y) with (x1 * y + (val q - x1) * y) by ring. eapply Rle_trans; [apply Rabs_triang|]. lra. }
  destruct (fmul_fin q (pf j)) as [E2 F2]; [exact F1|apply pfin; auto|apply rnd_ok; fold y; eapply Rle_trans; [exact S2|]; apply Rle_trans with (bpow radix2 101); [rewrite b101; lra|apply b_le; lia]|].
  fold y in E2. set (s := fmul q (pf j)) in *. pose proof (rnd_err (val q * y)) as R2. rewrite <- E2 in R2.
  assert (Q2 : uu * Rabs (val q * y) <= uu * (102 / 100 * Lam)) by (apply Rmult_le_compat_l; [lra|exact S2]).
  assert (D2 : Rabs (val s - x1 * y) <= 205 / 100 * (uu * Lam)). { replace (val s - x1 * y) with ((val s - val q * y) + (val q - x1) * y) by ring. eapply Rle_trans; [apply Rabs_triang|]. lra. }
  assert (S3 : Rabs (val s) <= 102 / 100 * Lam). { replace (val s) with (x1 * y + (val s - x1 * y)) by ring. eapply Rle_trans; [apply Rabs_triang|]. lra. }
  pose proof (StepAcc.M_b lm n e lam Lam X He i j Hi Hj) as MB. fold M in MB. assert (S4 : Rabs (M i j - val s) <= 202 / 100 * Lam). { unfold Rminus. eapply Rle_trans; [apply Rabs_triang|]. rewrite Rabs_Ropp. lra. }
  destruct (fsub_fin (mget n (adata (e_mq e)) i j : f64) s) as [E3 F3]; [exact (mq_fin lm n e lam Lam X He i j Hi Hj)|exact F2| |].
  { apply rnd_ok. change (val (mget n (adata (e_mq e)) i j : f64)) with (M i j). eapply Rle_trans; [exact S4|]. apply Rle_trans with (bpow radix2 102); [|apply b_le; lia]. rewrite b102. lra. }
  split; [exact F3|]. unfold v. rewrite E3. change (val (mget n (adata (e_mq e)) i j : f64)) with (M i j). pose proof (rnd_err (M i j - val s)) as R3.
  assert (Q3 : uu * Rabs (M i j - val s) <= uu * (202 / 100 * Lam)) by (apply Rmult_le_compat_l; [lra|exact S4]).
  replace (rnd (M i j - val s) - (M i j - x1 * y)) with ((rnd (M i j - val s) - (M i j - val s)) - (val s - x1 * y)) by ring.
  unfold Rminus at 1. eapply Rle_trans; [apply Rabs_triang|]. rewrite Rabs_Ropp. unfold bm. lra.
Qed.

(** the state after the step *)
Variable e' : Ell F.
Hypothesis We : ell_wf n e'.
Hypothesis Ex : forall i, (i < n)%nat -> vget (e_xc e') i = xt i.
Hypothesis Ek : e_kappa e' = kt.
Hypothesis Em : forall i j, (i < n)%nat -> (j < n)%nat -> mget n (adata (e_mq e')) i j = shrunk (N := F) (mget n (adata (e_mq e))) st (gt e g n) i j.
Let Mt := fshape n e'.
Lemma Mt_ok' i j : (i < n)%nat -> (j < n)%nat -> fin (mget n (adata (e_mq e')) i j : f64) = true /\ Rabs (Mt i j - (M i j - val st * val (pf i) * val (pf j))) <= bm.
Proof.
  intros Hi Hj. change (Mt i j) with (val (mget n (adata (e_mq e')) i j : f64)). rewrite (Em i j Hi Hj). unfold shrunk. destruct (j <=? i).
  - exact (entry_ok' i j Hi Hj).
  - rewrite (q_sym i j Hi Hj). replace (val st * val (pf i) * val (pf j)) with (val st * val (pf j) * val (pf i)) by ring. exact (entry_ok' j i Hj Hi).
Qed.
Lemma Mt_sym' : sym n Mt. Proof. exact (Mt_sym lm n e g sf e' Em). Qed.
Lemma nu_b' : 0 <= 16 * th /\ r * (16 * th) <= 1 / 1000. Proof. pose proof q_b as (A & B & C & D). pose proof q_th0. lra. Qed.
Lemma p_low z : (1 - 50 * (r * (16 * th))) * quad n (rank1 M (sigma / om) p) z <= quad n Mt z.
Proof.
  exact (gmt_low n M gv sigma lam (16 * th) r (fun i => val (pf i)) Mt a bm (val st) q_sym l0 q_lam q_om Hr s_flat (proj1 nu_b') (proj2 nu_b') q_a0 q_pf q_a (rel_abs' _ _ _ st_rel') (proj1 q_bm) (fun i j Hi Hj => proj2 (Mt_ok' i j Hi Hj)) (proj2 q_bm) z).
Qed.
Lemma p_up z : quad n Mt z <= (1 + 50 * (r * (16 * th))) * quad n (rank1 M (sigma / om) p) z.
Proof.
  exact (gmt_up n M gv sigma lam (16 * th) r (fun i => val (pf i)) Mt a bm (val st) q_sym l0 q_lam q_om Hr s_flat (proj1 nu_b') (proj2 nu_b') q_a0 q_pf q_a (rel_abs' _ _ _ st_rel') (proj1 q_bm) (fun i j Hi Hj => proj2 (Mt_ok' i j Hi Hj)) (proj2 q_bm) z).
Qed.
Lemma p_new_low z : lam / (11 * r) * dot n z z <= quad n Mt z.
Proof.
  pose proof (p_low z) as A. pose proof (gm1_low n M gv sigma lam r q_sym l0 q_lam q_om Hr s_flat z) as B. change (mulmv n M gv) with p in B. change (quad n M gv) with om in B.
  pose proof (q_lam z) as L. pose proof nu_b' as [U1 U2]. set (q1 := quad n (rank1 M (sigma / om) p) z) in *. pose proof l0 as LL.
  assert (D0 : 0 <= lam * dot n z z). { apply Rmult_le_pos; [lra|]. unfold dot. apply Rsum_nonneg. intros; apply Rle_0_sqr. }
  assert (I : 0 < / r) by (apply Rinv_0_lt_compat; lra). assert (E : / (10 * r) = / 10 * / r) by (field; lra). rewrite E in B.
  assert (K : / r * (lam * dot n z z) <= / r * quad n M z) by (apply Rmult_le_compat_l; lra). assert (0 <= / r * (lam * dot n z z)) by (apply Rmult_le_pos; lra).
  replace (lam / (11 * r) * dot n z z) with (/ 11 * (/ r * (lam * dot n z z))) by (field; lra).
  assert (0 <= q1) by lra. assert (95 / 100 * q1 <= (1 - 50 * (r * (16 * th))) * q1) by (apply Rmult_le_compat_r; lra). lra.
Qed.
Lemma p_new_fin : all_finite (e_mq e') /\ all_finite (e_xc e') /\ fin (e_kappa e' : f64) = true.
Proof.
  destruct We as (_ & (L & _) & Lx). repeat split; [| |rewrite Ek; apply kt_ok'].
  - apply Forall_forall. intros v Hv. destruct (In_nth _ _ (n0 (N := F)) Hv) as (k & Hk & <-). rewrite L in Hk. pose proof (npos lm n e lam Lam X He) as N0.
    replace k with (k / n * n + k mod n)%nat by (rewrite (Nat.div_mod k n) at 3 by lia; lia). apply (Mt_ok' (k / n) (k mod n)); [apply Nat.div_lt_upper_bound; lia|apply Nat.mod_upper_bound; lia].
  - apply Forall_forall. intros v Hv. destruct (In_nth _ _ (n0 (N := F)) Hv) as (k & Hk & <-). rewrite Lx in Hk. change (fin (vget (e_xc e') k : f64) = true). rewrite (Ex k Hk). apply xt_ok'; auto.
Qed.
Lemma p_new_holds eps z : 0 <= eps -> fpts n e (1 + eps) z -> along n gv z cv + b0 <= 0 -> 0 <= along n gv z cv + b1 ->
  fpts n e' ((1 + 4 / 3 * eps) * (1 + pair_slack n lam Lam X kap r)) z.
Proof.
  intros Heps Hz C0 C1. pose proof q_om as O. pose proof kp_pos as KP. pose proof q_kap as K. pose proof q_th as T. pose proof s_delta as D.
  set (eps2 := eps + 12 / 10 * th * (1 + eps)). assert (E2 : 0 <= eps2) by (unfold eps2; assert (0 <= 12 / 10 * th * (1 + eps)) by (apply Rmult_le_pos; lra); lra).
  assert (KK : kap * (1 + eps) <= kp * (1 + eps2)).
  { replace (kp * (1 + eps2)) with (kp * (1 + 12 / 10 * th) * (1 + eps)) by (unfold eps2; ring). apply Rmult_le_compat_r; [lra|]. pose proof kp_rel as [A _].
    apply Rle_trans with (kap * (1 - 11 / 10 * th) * (1 + 12 / 10 * th)); [|apply Rmult_le_compat_r; lra]. rewrite Rmult_assoc. rewrite <- (Rmult_1_r kap) at 1. apply Rmult_le_compat_l; [lra|]. nra. }
  assert (Hz2 : in_ell n M (kp * (1 + eps2)) cv z). { destruct Hz as (y & Y1' & Y2'). exists y. split; [exact Y1'|]. eapply Rle_trans; [exact Y2'|exact KK]. }
  pose proof (pg_grow N (val tt) b0 b1 q_N2 q_T H0 Hq H01 H1 (along n gv z cv) eps2 E2 C0 C1) as DG.
  change (keeps (val tt * (1 + eps2)) rho sigma (delta * (1 + 4 / 3 * eps2) / (1 + eps2)) (along n gv z cv)) in DG.
  set (G1 := 1 + 4 / 3 * eps2) in *. assert (G0 : 1 <= G1) by (unfold G1; lra).
  pose proof (cut_contains n M (kp * (1 + eps2)) cv gv q_sym rho sigma (delta * G1 / (1 + eps2)) z O Hz2) as CC. fold om p in CC.
  replace (kp * (1 + eps2) * om) with (kp * om * (1 + eps2)) in CC by ring. rewrite kp_om in CC. specialize (CC DG).
  replace (kp * (1 + eps2) * (delta * G1 / (1 + eps2))) with (kp * (delta * G1)) in CC by (field; lra).
  assert (D1 : 1 / 2 <= delta * G1). { apply Rle_trans with (delta * 1); [lra|]. apply Rmult_le_compat_l; lra. }
  assert (KT : kp * (delta * G1) * (1 - 16 * th) <= val kt * G1). { pose proof kt_low' as R. replace (kp * (delta * G1) * (1 - 16 * th)) with (kp * delta * (1 - 16 * th) * G1) by ring. apply Rmult_le_compat_r; lra. }
  pose proof (gstep_holds n M gv cv kp rho sigma (delta * G1) lam (16 * th) ze r (fun i => val (pf i)) (fun i => val (xt i)) Mt a bm eta (val rt) (val st) (val kt * G1)
    q_sym l0 q_lam O KP (proj1 s_rho) (proj2 s_rho) Hr s_flat D1 (proj1 nu_b') (proj2 nu_b') (proj1 ze_b') (proj2 ze_b') q_a0 q_pf q_a (rel_abs' _ _ _ rt_rel') (rel_abs' _ _ _ st_rel')
    q_eta0 (fun i Hi => proj2 (xt_ok' i Hi)) q_eta (proj1 q_bm) (fun i j Hi Hj => proj2 (Mt_ok' i j Hi Hj)) (proj2 q_bm) Mt_sym' KT z CC) as (y & Y1' & Y2').
  exists y. split.
  - intros i Hi. specialize (Y1' i Hi). cbv beta in Y1'. change (fshape n e') with Mt. rewrite <- Y1'. change (fcoords (e_xc e') i) with (val (vget (e_xc e') i : f64)). rewrite (Ex i Hi). reflexivity.
  - change (fshape n e') with Mt. eapply Rle_trans; [exact Y2'|]. unfold fkap. rewrite Ek. change (B2R kt) with (val kt). rewrite Rmult_assoc. apply Rmult_le_compat_l.
    + pose proof kt_low' as A. assert (0 <= kp * delta * (1 - 16 * th)) by (apply Rmult_le_pos; [apply Rmult_le_pos|]; lra). lra.
    + rewrite q_ps. pose proof q_b as (B1 & B2 & B3 & B4).
      assert (GG : G1 <= (1 + 4 / 3 * eps) * (1 + 16 / 10 * th)). { unfold G1, eps2. assert (0 <= th * eps) by (apply Rmult_le_pos; lra). lra. }
      set (s1 := 1 + (80 * (r * (16 * th)) + 20 * (r * ze))). assert (S1 : 0 <= s1) by (unfold s1; pose proof ze_b' as [Z1 _]; assert (0 <= r * ze) by (apply Rmult_le_pos; lra); lra).
      apply Rle_trans with ((1 + 4 / 3 * eps) * (1 + 16 / 10 * th) * s1); [apply Rmult_le_compat_r; lra|]. rewrite Rmult_assoc. apply Rmult_le_compat_l; [lra|].
      unfold s1, ze. replace (r * (101 / 100 * (ze0 + 4 * th))) with (101 / 100 * (r * ze0 + 4 * (r * th))) by ring. replace (r * (16 * th)) with (16 * (r * th)) by ring.
      set (x := r * th) in *. set (y0 := r * ze0) in *. clear - B1 B2 B3 T. clearbody x y0 th. assert (th * x <= x / 16000) by nra. assert (th * y0 <= y0 / 16000) by nra. lra.
Qed.

(** the volume *)
Lemma p_pd : pd n Mt.
Proof.
  intros z (i & Hi & Hz). eapply Rlt_le_trans; [|apply p_new_low]. apply Rmult_lt_0_compat; [pose proof l0; apply Rdiv_lt_0_compat; lra|].
  destruct (Rle_lt_or_eq_dec 0 (dot n z z) (dot_self_nonneg _ _)) as [|E]; auto. exfalso. apply Hz. eapply dot_self_zero; eauto.
Qed.
Lemma p_new_vol : pair_shrinks n e lam Lam X r e'.
Proof.
  unfold pair_shrinks, fvol2. unfold fkap at 1 2. rewrite Ek. change (B2R kt) with (val kt). change (fshape n e') with Mt. change (fshape n e) with M. change (fkap e) with kap.
  pose proof kt_rel' as [K0 K1']. pose proof (det_pos n Mt Mt_sym' p_pd) as DT. pose proof (StepAcc.M_pd lm n e lam Lam X He) as MP. fold M in MP. pose proof (det_pos n M q_sym MP) as DM. pose proof q_kap as KP. pose proof s_delta as DL. pose proof q_th as T. pose proof q_om as O. pose proof s_sigma as SG.
  set (M1 := rank1 M (sigma / om) p). set (cc := 1 + 50 * (r * (16 * th))). pose proof q_b as (B1 & B2 & B3 & B4).
  assert (KD0 : 0 < kap * delta) by (apply Rmult_lt_0_compat; lra). assert (KT0 : 0 < val kt). { eapply Rlt_le_trans; [|exact K0]. apply Rmult_lt_0_compat; lra. }
  split; [apply Rmult_lt_0_compat; [now apply pow_lt|exact DT]|].
  assert (SC : sigma / om * om = sigma) by (field; lra).
  assert (D1 : det n M1 = (1 - sigma) * det n M). { unfold M1. pose proof (det_rank1 n M gv (sigma / om) q_sym MP) as DR. change (mulmv n M gv) with p in DR. change (quad n M gv) with om in DR. rewrite SC in DR. apply DR. lra. }
  assert (S1 : sym n (fun i j => M1 i j * cc)). { intros i j Hi Hj. f_equal. unfold M1, rank1. rewrite (q_sym i j Hi Hj). ring. }
  assert (D2 : det n Mt <= cc ^ n * det n M1). { rewrite <- det_scale. apply det_mono; [exact Mt_sym'|exact S1|exact p_pd|]. intros z. rewrite quad_scale. exact (p_up z). }
  assert (CC : 0 < cc) by (unfold cc; lra).
  assert (KD : (val kt) ^ n <= (kap * delta * (1 + 101 / 10 * th)) ^ n) by (apply pow_incr; lra).
  assert (BS : - sqrt (val tt) < b1 < sqrt (val tt)).
  { pose proof q_T as T0. pose proof (sqrt_lt_R0 _ T0) as Q0. split; [lra|]. rewrite <- (sqrt_square b1) by lra. apply sqrt_lt_1_alt. split; [apply Rle_0_sqr|exact H1]. }
  assert (DV : delta ^ n * (1 - sigma) <= exp (- / (N + 1))) by exact (par_vol_exp n (val tt) b0 b1 (proj1 (t_dim _ _ _ _ _ He)) q_T H01 (Rlt_le _ _ (pg_eta N (val tt) b0 b1 q_N2 q_T H0 H01)) (proj1 BS) (proj2 BS) H0).
  assert (SL : cc * (1 + 101 / 10 * th) <= 1 + pair_slack n lam Lam X kap r).
  { rewrite q_ps. unfold cc. replace (r * (16 * th)) with (16 * (r * th)) by ring. set (x := r * th) in *. clear - B1 B2 B3 T. clearbody x th. assert (th * x <= x / 16000) by nra. lra. }
  apply Rle_trans with ((kap * delta * (1 + 101 / 10 * th)) ^ n * (cc ^ n * det n M1)).
  { apply Rmult_le_compat; [apply pow_le; lra|lra|exact KD|exact D2]. }
  rewrite D1. rewrite !Rpow_mult_distr. replace (kap ^ n * delta ^ n * (1 + 101 / 10 * th) ^ n * (cc ^ n * ((1 - sigma) * det n M))) with ((cc ^ n * (1 + 101 / 10 * th) ^ n) * (delta ^ n * (1 - sigma)) * (kap ^ n * det n M)) by ring.
  assert (V0' : 0 < kap ^ n * det n M) by (apply Rmult_lt_0_compat; [now apply pow_lt|exact DM]).
  apply Rmult_le_compat_r; [lra|]. rewrite <- Rpow_mult_distr. apply Rmult_le_compat; [apply pow_le; apply Rmult_le_pos; lra| | |exact DV].
  - apply Rmult_le_pos; [apply pow_le|]; lra.
  - apply pow_incr. split; [apply Rmult_le_pos; lra|exact SL].
Qed.
End Step.
