(** The three kinds of single cuts in binary64, from the general step (C101). *)
From Coq Require Import ZArith Reals Lra Lia Bool Psatz Arith List.
From Flocq Require Import Core IEEE754.BinarySingleNaN.
From Verif Require Import Num Res Arr CuttingPlane EllCalc Ell ArrLemmas EllLemmas Spec RealLin EllReal FloatLemmas AccSpec FloatRel AccProofs FloatErr StepErr StepRel StepAccSpec StepAcc.
Local Open Scope R_scope.
#[local] Opaque fadd fsub fmul fdiv fsqrt fofZ.

Section S.
Variable lm : Libm.
Notation F := (FNum lm).
Lemma core_sound n (e : Ell F) (g : Arr F) lam Lam X (beta : R) (strategy : F -> cutres F) (e' : Ell F) (rf sf df : f64) :
  tame n e lam Lam X -> grad_ok n g -> slack n lam Lam X (fkap e) <= 1 / 10 -> 0 <= beta ->
  let th := 8 * (INR n * INR n) * uu * (Lam / lam) in
  let t : f64 := e_tsq e' in
  let tau := sqrt (val t) in
  moderate t -> 2 * beta <= tau ->
  strategy t = (Success, (rf, sf, df)) ->
  rel (th / 4) (val rf) ((tau + INR n * beta) / (INR n + 1)) ->
  rel (th / 2) (val sf) (2 * ((tau + INR n * beta) / (INR n + 1)) / (tau + beta)) ->
  Rabs (val df - INR n * INR n / (INR n * INR n - 1) * (1 - beta / tau * (beta / tau))) <= 3 / 4 * th ->
  fin rf = true -> fin sf = true -> fin df = true ->
  forall st, ell_update_core e g strategy = Ok (e', st) -> st = Success /\ (step_sound n e g beta lam Lam X e' /\ step_shrinks n e lam Lam X e').
Proof.
  intros He Hg Hs Hb th t tau Ht Hbt Es R1 R2 R3 F1 F2 F3 st E.
  destruct (ell_update_core_ok n e g strategy (ewf lm n e lam Lam X He) (gvec lm n g Hg)) as (e1 & st1 & rho & sigma & delta & S1 & S2 & W & T1 & _ & _ & _ & _ & _ & K).
  rewrite S2 in E. inversion E. subst e1 st1. clear E. assert (Et : t = fmul (e_kappa e) (omega e g n)) by exact T1. rewrite <- T1 in S1. change (e_tsq e') with t in S1. rewrite S1 in Es. inversion Es. subst st rho sigma delta. split; [reflexivity|].
  destruct (K eq_refl) as (Kx & Kk & Km). rewrite (t_defer _ _ _ _ _ He) in Kk, Km. cbn iota in Kk, Km.
  unfold tau in *. clearbody t. subst t.
  pose proof (new_fin lm n e g lam Lam X He Hg Ht Hs beta rf sf df Hb Hbt R1 R2 R3 F1 F2 F3 e' W Kx Kk Km) as (A1 & A2 & A3).
  split; [|exact (new_vol lm n e g lam Lam X He Hg Ht Hs beta sf df Hb Hbt R2 R3 F2 F3 e' Kk Km)].
  split; [exact A1|]. split; [exact A2|]. split; [exact A3|]. split; [exact (Mt_sym lm n e g sf e' Km)|]. split.
  - exact (new_low lm n e g lam Lam X He Hg Ht Hs beta sf Hb Hbt R2 F2 e' Km).
  - exact (new_holds lm n e g lam Lam X He Hg Ht Hs beta rf sf df Hb Hbt R1 R2 R3 F1 F2 F3 e' Kx Kk Km).
Qed.
Lemma close_rel k x X ex : close k x X -> (k <= 200)%nat -> 2 * INR k * uu <= ex -> rel ex (val x) X.
Proof.
  intros C Hk H. pose proof (close_abs k x X C Hk) as A. destruct C as (_ & P & _). apply rel_abs. eapply Rle_trans; [exact A|]. rewrite Rmult_comm, (Rmult_comm ex). apply Rmult_le_compat_l; [exact P|exact H].
Qed.
Lemma th_uu n (e : Ell F) lam Lam X : tame n e lam Lam X -> 32 * uu <= 8 * (INR n * INR n) * uu * (Lam / lam).
Proof. intros He. exact (uu_th lm n e lam Lam X He). Qed.

Lemma central_both n (e : Ell F) (g : Arr F) (b : SingleCut F) lam Lam X (e' : Ell F) st :
  tame n e lam Lam X -> grad_ok n g -> slack n lam Lam X (fkap e) <= 1 / 10 ->
  ell_update_central single_cut e (g, b) = Ok (e', st) -> moderate (e_tsq e') ->
  st = Success /\ (step_sound n e g 0 lam Lam X e' /\ step_shrinks n e lam Lam X e').
Proof.
  intros He Hg Hs E Ht. pose proof (t_dim _ _ _ _ _ He) as [D1 D2]. pose proof (th_uu n e lam Lam X He) as U. pose proof (bpow_gt_0 radix2 (-53)) as U0. set (t := e_tsq e') in *. destruct Ht as [Tf Tb].
  destruct (calc_central_cut (N := F) (calc_new n) t) as [s [[rf sf] df]] eqn:Q. assert (s = Success) by (pose proof (f_equal fst Q) as Z; cbn in Z; congruence). subst s.
  destruct (central_close lm n D1 D2 t Tf Tb rf sf df Q) as (C1' & C2' & C3'). assert (T0 : 0 < sqrt (val t)) by (apply sqrt_lt_R0; exact (rng_pos _ _ _ Tb)).
  assert (N2 : 2 <= INR n) by (apply (le_INR 2 n) in D1; simpl in D1; lra).
  pose proof (close_abs 1 _ _ C3' ltac:(lia)) as D3. pose proof (AccProofs.C1_b n D1) as CB.
  apply (core_sound n e g lam Lam X 0 (fun tsq => call_central single_cut (e_helper e) b tsq) e' rf sf df He Hg Hs (Rle_refl 0)); fold t.
  - split; auto.
  - lra.
  - rewrite (t_calc _ _ _ _ _ He). exact Q.
  - rewrite Rmult_0_r, Rplus_0_r. apply (close_rel 2); [exact C1'|lia|]. cbn [INR]. lra.
  - replace (2 * ((sqrt (val t) + INR n * 0) / (INR n + 1)) / (sqrt (val t) + 0)) with (2 / (INR n + 1)) by (field; lra). apply (close_rel 2); [exact C2'|lia|]. cbn [INR]. lra.
  - replace (0 / sqrt (val t) * (0 / sqrt (val t))) with 0 by (unfold Rdiv; ring). rewrite Rminus_0_r, Rmult_1_r. eapply Rle_trans; [exact D3|]. cbn [INR].
    apply Rle_trans with (2 * 1 * uu * (4 / 3)); [|lra]. apply Rmult_le_compat_l; [lra|apply (CB D2)].
  - apply C1'.
  - apply C2'.
  - apply C3'.
  - exact E.
Qed.
Lemma from_bias n (e : Ell F) (g : Arr F) lam Lam X (b : f64) (strategy : F -> cutres F) (e' : Ell F) st (rf sf df : f64) :
  tame n e lam Lam X -> grad_ok n g -> slack n lam Lam X (fkap e) <= 1 / 10 -> moderate_or_zero b ->
  let t : f64 := e_tsq e' in moderate t -> 2 * val b <= sqrt (val t) ->
  strategy t = (Success, (rf, sf, df)) ->
  close 3 rf ((sqrt (val t) + INR n * val b) / (INR n + 1)) ->
  close 7 sf (2 * ((sqrt (val t) + INR n * val b) / (INR n + 1)) / (sqrt (val t) + val b)) ->
  fin df = true -> Rabs (val df - INR n * INR n / (INR n * INR n - 1) * (1 - val b / sqrt (val t) * (val b / sqrt (val t)))) <= 24 * uu ->
  ell_update_core e g strategy = Ok (e', st) -> st = Success /\ (step_sound n e g (val b) lam Lam X e' /\ step_shrinks n e lam Lam X e').
Proof.
  intros He Hg Hs Hb t Ht Hbt Q C1' C2' Fd D E. pose proof (th_uu n e lam Lam X He) as U. pose proof (bpow_gt_0 radix2 (-53)) as U0.
  assert (B0 : 0 <= val b). { destruct Hb as [_ [Z|[Z _]]]; [rewrite Z; lra|]. pose proof (bpow_gt_0 radix2 (-100)). lra. }
  apply (core_sound n e g lam Lam X (val b) strategy e' rf sf df He Hg Hs B0); fold t; auto.
  - apply (close_rel 3); [exact C1'|lia|]. simpl INR. lra.
  - apply (close_rel 7); [exact C2'|lia|]. simpl INR. lra.
  - eapply Rle_trans; [exact D|]. lra.
  - apply C1'.
  - apply C2'.
Qed.
Lemma bias_both n (e : Ell F) (g : Arr F) (b : f64) lam Lam X (e' : Ell F) st :
  tame n e lam Lam X -> grad_ok n g -> slack n lam Lam X (fkap e) <= 1 / 10 -> moderate_or_zero b ->
  ell_update_bias single_cut e (g, mkSingle (N := F) b) = Ok (e', st) -> moderate (e_tsq e') -> 2 * val b <= sqrt (val (e_tsq e' : f64)) ->
  st = Success /\ (step_sound n e g (val b) lam Lam X e' /\ step_shrinks n e lam Lam X e').
Proof.
  intros He Hg Hs Hb E Ht Hbt. pose proof (t_dim _ _ _ _ _ He) as [D1 D2]. pose proof Ht as [Tf Tb]. pose proof Hb as [Bf Bb].
  destruct (calc_bias_cut (N := F) (calc_new n) b (e_tsq e')) as [s [[rf sf] df]] eqn:Q.
  assert (s = Success).
  { destruct s; auto; exfalso.
    - pose proof (bias_nosoln lm _ _ _ _ Bf Tf Q) as L. assert (B0 : 0 <= val b). { destruct Bb as [Z|[Z _]]; [rewrite Z; lra|]. pose proof (bpow_gt_0 radix2 (-100)). lra. }
      assert (T0 : 0 <= val (e_tsq e' : f64)) by (left; exact (rng_pos _ _ _ Tb)). pose proof (sqrt_sqrt _ T0). pose proof (sqrt_pos (val (e_tsq e' : f64))). nra.
    - unfold calc_bias_cut in Q. destruct (nltb (n := F) _ _) in Q; discriminate.
    - unfold calc_bias_cut in Q. destruct (nltb (n := F) _ _) in Q; discriminate. }
  subst s. destruct (bias_close lm n D1 D2 _ Tf Tb b Bf Bb rf sf df Q) as (C1' & C2' & C3' & C4').
  apply (from_bias n e g lam Lam X b (fun tsq => call_bias single_cut (e_helper e) (mkSingle (N := F) b) tsq) e' st rf sf df He Hg Hs Hb Ht Hbt); auto.
  rewrite (t_calc _ _ _ _ _ He). exact Q.
Qed.
Lemma q_both n (e : Ell F) (g : Arr F) (b : f64) lam Lam X (e' : Ell F) :
  tame n e lam Lam X -> grad_ok n g -> slack n lam Lam X (fkap e) <= 1 / 10 -> moderate_or_zero b ->
  ell_update_q single_cut e (g, mkSingle (N := F) b) = Ok (e', Success) -> moderate (e_tsq e') -> 2 * val b <= sqrt (val (e_tsq e' : f64)) ->
  (step_sound n e g (val b) lam Lam X e' /\ step_shrinks n e lam Lam X e').
Proof.
  intros He Hg Hs Hb E Ht Hbt. pose proof (t_dim _ _ _ _ _ He) as [D1 D2]. pose proof Ht as [Tf Tb]. pose proof Hb as [Bf Bb].
  destruct (calc_bias_cut_q (N := F) (calc_new n) b (e_tsq e')) as [s [[rf sf] df]] eqn:Q.
  assert (s = Success).
  { destruct (ell_update_core_ok n e g (fun tsq => call_q single_cut (e_helper e) (mkSingle (N := F) b) tsq) (ewf lm n e lam Lam X He) (gvec lm n g Hg)) as (e1 & st1 & rho & sigma & delta & S1 & S2 & _ & T1 & _).
    unfold ell_update_q in E. cbn [fst snd] in E. rewrite S2 in E. inversion E. subst e1 st1. rewrite <- T1 in S1. rewrite (t_calc _ _ _ _ _ He) in S1. change (calc_bias_cut_q (N := F) (calc_new n) b (e_tsq e') = (Success, (rho, sigma, delta))) in S1. rewrite Q in S1. congruence. }
  subst s. destruct (bias_q_close lm n D1 D2 _ Tf Tb b Bf Bb rf sf df Q) as (C1' & C2' & C3' & C4').
  refine (proj2 (from_bias n e g lam Lam X b (fun tsq => call_q single_cut (e_helper e) (mkSingle (N := F) b) tsq) e' Success rf sf df He Hg Hs Hb Ht Hbt _ _ _ _ _ _)); auto.
  rewrite (t_calc _ _ _ _ _ He). exact Q.
Qed.
Lemma central_sound n (e : Ell F) (g : Arr F) (b : SingleCut F) lam Lam X (e' : Ell F) st :
  tame n e lam Lam X -> grad_ok n g -> slack n lam Lam X (fkap e) <= 1 / 10 ->
  ell_update_central single_cut e (g, b) = Ok (e', st) -> moderate (e_tsq e') -> st = Success /\ step_sound n e g 0 lam Lam X e'.
Proof. intros A B C D E. destruct (central_both n e g b lam Lam X e' st A B C D E) as (P & Q & _). auto. Qed.
Lemma central_shrinks n (e : Ell F) (g : Arr F) (b : SingleCut F) lam Lam X (e' : Ell F) st :
  tame n e lam Lam X -> grad_ok n g -> slack n lam Lam X (fkap e) <= 1 / 10 ->
  ell_update_central single_cut e (g, b) = Ok (e', st) -> moderate (e_tsq e') -> step_shrinks n e lam Lam X e'.
Proof. intros A B C D E. destruct (central_both n e g b lam Lam X e' st A B C D E) as (_ & _ & P). auto. Qed.
Lemma bias_sound n (e : Ell F) (g : Arr F) (b : f64) lam Lam X (e' : Ell F) st :
  tame n e lam Lam X -> grad_ok n g -> slack n lam Lam X (fkap e) <= 1 / 10 -> moderate_or_zero b ->
  ell_update_bias single_cut e (g, mkSingle (N := F) b) = Ok (e', st) -> moderate (e_tsq e') -> 2 * val b <= sqrt (val (e_tsq e' : f64)) ->
  st = Success /\ step_sound n e g (val b) lam Lam X e'.
Proof. intros A B C D E G H. destruct (bias_both n e g b lam Lam X e' st A B C D E G H) as (P & Q & _). auto. Qed.
Lemma bias_shrinks n (e : Ell F) (g : Arr F) (b : f64) lam Lam X (e' : Ell F) st :
  tame n e lam Lam X -> grad_ok n g -> slack n lam Lam X (fkap e) <= 1 / 10 -> moderate_or_zero b ->
  ell_update_bias single_cut e (g, mkSingle (N := F) b) = Ok (e', st) -> moderate (e_tsq e') -> 2 * val b <= sqrt (val (e_tsq e' : f64)) ->
  step_shrinks n e lam Lam X e'.
Proof. intros A B C D E G H. destruct (bias_both n e g b lam Lam X e' st A B C D E G H) as (_ & _ & P). auto. Qed.
Lemma q_sound n (e : Ell F) (g : Arr F) (b : f64) lam Lam X (e' : Ell F) :
  tame n e lam Lam X -> grad_ok n g -> slack n lam Lam X (fkap e) <= 1 / 10 -> moderate_or_zero b ->
  ell_update_q single_cut e (g, mkSingle (N := F) b) = Ok (e', Success) -> moderate (e_tsq e') -> 2 * val b <= sqrt (val (e_tsq e' : f64)) ->
  step_sound n e g (val b) lam Lam X e'.
Proof. intros A B C D E G H. apply (q_both n e g b lam Lam X e' A B C D E G H). Qed.
Lemma q_shrinks n (e : Ell F) (g : Arr F) (b : f64) lam Lam X (e' : Ell F) :
  tame n e lam Lam X -> grad_ok n g -> slack n lam Lam X (fkap e) <= 1 / 10 -> moderate_or_zero b ->
  ell_update_q single_cut e (g, mkSingle (N := F) b) = Ok (e', Success) -> moderate (e_tsq e') -> 2 * val b <= sqrt (val (e_tsq e' : f64)) ->
  step_shrinks n e lam Lam X e'.
Proof. intros A B C D E G H. apply (q_both n e g b lam Lam X e' A B C D E G H). Qed.
End S.
