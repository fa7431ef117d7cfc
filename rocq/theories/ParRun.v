(** Sequences of pairs of parallel cuts in binary64, and the drivers on them (C110). *)
From Coq Require Import ZArith Reals Lra Lia Bool Psatz Arith List.
From Flocq Require Import Core IEEE754.BinarySingleNaN.
From Verif Require Import Num Res Arr CuttingPlane EllCalc Ell EllRun Spec RealLin Det DetLemmas FloatLemmas AccSpec StepAccSpec StepAcc StepCuts StepRunSpec StepRun RunSpec RunProofs ParAccSpec ParCuts ParRunSpec.
Import ListNotations.
Local Open Scope R_scope.
#[local] Opaque fadd fsub fmul fdiv fsqrt fofZ.

Section R.
Variable lm : Libm.
Notation F := (FNum lm).
Notation pair := (parallel_cut (N := F)).
(** what one step does, whichever kind it is *)
Lemma pair_step n s G (e : Ell F) m (g : Arr F) (b : ParallelCut F) (e' : Ell F) : s <= 1 / 10 -> grad_ok n g -> (m = Central \/ moderate_or_zero (pc_beta0 b)) ->
  apply_cut pair m e (g, b) = Ok (e', Success) -> moderate (e_tsq e') -> 2 * poff m b <= sqrt (B2R (e_tsq e' : f64)) ->
  slab_step n s G e m b e' \/ half_step n s G e m g b e' ->
  0 <= s /\ 0 <= G /\ (exists lam Lam X, tame n e lam Lam X) /\
  (forall d z, 0 <= d -> fpts n e (1 + d) z -> in_slab n m g b z (fcoords (e_xc e)) -> 0 <= fkap e' -> fpts n e' ((1 + d * G) * (1 + s)) z) /\
  0 < fvol2 n e' <= (1 + s) ^ n * exp (- / (INR n + 1)) * fvol2 n e.
Proof.
  intros Hs Hg Hb E Ht Hq [K|K].
  - destruct K as (b1 & lam & Lam & X & r & Eb & H1 & H01 & Hin & Hth & T & Sl & HG). destruct b as [b0 b1']. cbn [pc_beta1 pc_beta0] in *. subst b1'.
    assert (S' : pair_slack n lam Lam X (fkap e) r <= 1 / 10) by lra.
    assert (P : pair_sound n e g (poff m (mkParallel (N := F) b0 (Some b1))) (B2R b1) lam Lam X r e' /\ pair_shrinks n e lam Lam X r e').
    { destruct m; cbn [apply_cut poff pc_beta0] in *.
      - destruct Hb as [|Hb]; [discriminate|]. exact (proj2 (par_bias lm n e g b0 b1 lam Lam X r e' Success T Hg S' Hb H1 E Ht H01 Hq Hth Hin)).
      - exact (proj2 (par_central lm n e g b0 b1 lam Lam X r e' Success T Hg S' H1 E Ht Hth Hin)).
      - destruct Hb as [|Hb]; [discriminate|]. exact (proj2 (par_q lm n e g b0 b1 lam Lam X r e' Success T Hg S' Hb H1 E Ht H01 Hq Hth Hin)). }
    destruct P as [(_ & _ & _ & _ & _ & P) [V1 V2]]. pose proof (slack_nonneg lm n e lam Lam X T) as S0.
    assert (S1 : 0 <= pair_slack n lam Lam X (fkap e) r). { unfold pair_slack. destruct Hth as [R1 _]. apply Rmult_le_pos; [lra|exact S0]. }
    split; [lra|]. split; [lra|]. split; [eauto|]. split.
    + intros d z Hd Hz [A B] K'. specialize (P d z Hd Hz A (B b1 eq_refl)). eapply fpts_mono; [exact K'| |exact P]. assert (d * (4 / 3) <= d * G) by (apply Rmult_le_compat_l; lra). assert (0 <= d * (4 / 3)) by (apply Rmult_le_pos; lra). apply Rmult_le_compat; lra.
    + split; [exact V1|]. eapply Rle_trans; [exact V2|]. destruct (tame_pd lm _ _ _ _ _ T) as [_ V]. apply Rmult_le_compat_r; [lra|]. apply Rmult_le_compat_r; [left; apply exp_pos|]. apply pow_incr. lra.
  - destruct K as (lam & Lam & X & T & Sl & HG & HB). destruct b as [b0 b1]. cbn [pc_beta1 pc_beta0] in *. assert (S' : slack n lam Lam X (fkap e) <= 1 / 10) by lra.
    assert (P : step_sound n e g (poff m (mkParallel (N := F) b0 b1)) lam Lam X e' /\ step_shrinks n e lam Lam X e').
    { destruct m; cbn [apply_cut poff pc_beta0] in *.
      - destruct Hb as [|Hb]; [discriminate|]. exact (proj2 (single_bias lm n e g b0 b1 lam Lam X e' Success T Hg S' Hb E Ht Hq HB)).
      - refine (proj2 (single_central lm n e g b0 b1 lam Lam X e' Success T Hg S' E Ht _)). intros c Hc. destruct (HB c Hc) as (A & _ & B). auto.
      - destruct Hb as [|Hb]; [discriminate|]. exact (single_q lm n e g b0 b1 lam Lam X e' T Hg S' Hb E Ht Hq HB). }
    destruct P as [(_ & _ & _ & _ & _ & P) [V1 V2]]. pose proof (slack_nonneg lm n e lam Lam X T) as S0.
    match type of HG with grow n ?al <= G => pose proof (grow_nonneg n al) as G0 end.
    split; [lra|]. split; [lra|]. split; [eauto|]. split.
    + intros d z Hd Hz [A B] K'. specialize (P d z Hd Hz A). eapply fpts_mono; [exact K'| |exact P].
      match goal with |- (1 + d * ?gr) * _ <= _ => assert (d * gr <= d * G) by (apply Rmult_le_compat_l; lra); assert (0 <= d * gr) by (apply Rmult_le_pos; lra) end. apply Rmult_le_compat; lra.
    + split; [exact V1|]. eapply Rle_trans; [exact V2|]. destruct (tame_pd lm _ _ _ _ _ T) as [_ V]. apply Rmult_le_compat_r; [lra|]. apply Rmult_le_compat_r; [left; apply exp_pos|]. apply pow_incr. lra.
Qed.
Lemma pairs_first n s G (e : Ell F) cuts : s <= 1 / 10 -> pair_run n s G e cuts -> exists lam Lam X, tame n e lam Lam X.
Proof. intros Hs. destruct cuts as [|[m [g b]] rest]; cbn; [auto|]. intros (A & B & e' & C & D & H & K & _). apply (pair_step n s G e m g b e' Hs A B C D H K). Qed.
Lemma pairs_last n s G cuts : s <= 1 / 10 -> forall (e e' : Ell F) log, run_cuts pair e cuts = Ok (e', log) -> pair_run n s G e cuts -> exists lam Lam X, tame n e' lam Lam X.
Proof.
  intros Hs. induction cuts as [|[m [g b]] rest IH]; intros e e' log E T; cbn [run_cuts] in *.
  - inversion E; subst. exact T.
  - destruct T as (_ & _ & ea & A & _ & _ & _ & T). rewrite A in E. cbn [bind fst snd] in E. destruct (run_cuts pair ea rest) as [[ec lc]|] eqn:E2; cbn in E; [|discriminate]. inversion E; subst. eapply IH; eauto.
Qed.
Theorem pairs_keep n s G cuts : s <= 1 / 10 -> forall (e e' : Ell F) log d z, run_cuts pair e cuts = Ok (e', log) -> pair_run n s G e cuts -> in_slabs n z e cuts ->
  0 <= d -> fpts n e (1 + d) z -> fpts n e' (1 + ((G * (1 + s)) ^ length cuts * d + excess s G (length cuts))) z.
Proof.
  intros Hs. unfold excess. set (q := G * (1 + s)). induction cuts as [|[m [g b]] rest IH]; intros e e' log d z E T S Hd Hz; cbn [run_cuts length] in *.
  - inversion E; subst. cbn [Rsum pow]. replace (1 + (1 * d + s * 0)) with (1 + d) by ring. exact Hz.
  - destruct T as (T1 & T2 & ea & A & B & D & K & T6). destruct S as [S1 S2]. rewrite A in E. cbn [bind fst snd] in E.
    destruct (run_cuts pair ea rest) as [[eb lg]|] eqn:E1; cbn in E; [|discriminate]. inversion E; subst eb log. clear E.
    destruct (pair_step n s G e m g b ea Hs T1 T2 A B D K) as (Z1 & Z2 & _ & P & _). specialize (S2 _ _ A).
    destruct (pairs_first _ _ _ _ _ Hs T6) as (la & La & Xa & Ta). pose proof (tame_kap _ _ _ _ _ _ Ta) as Ka. specialize (P d z Hd Hz S1 ltac:(lra)).
    assert (Q : fpts n ea (1 + (s + q * d)) z) by (replace (1 + (s + q * d)) with ((1 + d * G) * (1 + s)) by (unfold q; ring); exact P).
    assert (0 <= q) by (unfold q; apply Rmult_le_pos; lra). assert (0 <= q * d) by (apply Rmult_le_pos; auto).
    specialize (IH ea e' lg (s + q * d) z E1 T6 S2 ltac:(lra) Q). destruct (pairs_last _ _ _ _ Hs _ _ _ E1 T6) as (lb & Lb & Xb & Tb). eapply fpts_mono; [left; exact (tame_kap _ _ _ _ _ _ Tb)| |exact IH].
    cbn [Rsum pow]. apply Req_le. ring.
Qed.
Theorem pairs_shrink n s G cuts : s <= 1 / 10 -> forall (e e' : Ell F) log, run_cuts pair e cuts = Ok (e', log) -> pair_run n s G e cuts ->
  0 < fvol2 n e' <= ((1 + s) ^ n * exp (- / (INR n + 1))) ^ length cuts * fvol2 n e.
Proof.
  intros Hs. induction cuts as [|[m [g b]] rest IH]; intros e e' log E T; cbn [run_cuts length] in *.
  - inversion E; subst. destruct T as (la & La & X & T). destruct (tame_pd _ _ _ _ _ _ T). cbn [pow]. lra.
  - destruct T as (T1 & T2 & ea & A & B & D & K & T6). rewrite A in E. cbn [bind fst snd] in E.
    destruct (run_cuts pair ea rest) as [[eb lg]|] eqn:E1; cbn in E; [|discriminate]. inversion E; subst eb log. clear E.
    destruct (pair_step n s G e m g b ea Hs T1 T2 A B D K) as (Z1 & Z2 & _ & _ & P1 & P2). destruct (IH _ _ _ E1 T6) as [Q1 Q2]. split; [exact Q1|].
    pose proof (exp_pos (- / (INR n + 1))) as X0.
    set (c := (1 + s) ^ n * exp (- / (INR n + 1))) in *. assert (C : 0 < c) by (apply Rmult_lt_0_compat; auto; apply pow_lt; lra).
    eapply Rle_trans; [exact Q2|]. cbn [pow]. replace (c * c ^ length rest * fvol2 n e) with (c ^ length rest * (c * fvol2 n e)) by ring.
    apply Rmult_le_compat_l; [apply Rlt_le, pow_lt; exact C|]. exact P2.
Qed.
Theorem pairs_count n s G cuts (e e' : Ell F) log z r : s <= 1 / 10 -> run_cuts pair e cuts = Ok (e', log) -> pair_run n s G e cuts -> 0 < r ->
  (forall x, ball n z r x -> fpts n e 1 x /\ in_slabs n x e cuts) ->
  (r * r) ^ n <= ((1 + excess s G (length cuts)) ^ n * ((1 + s) ^ n * exp (- / (INR n + 1))) ^ length cuts) * fvol2 n e.
Proof.
  intros Hs E T Hr HB. destruct (pairs_last _ _ _ _ Hs _ _ _ E T) as (la & La & X & TL). destruct (tame_pd _ _ _ _ _ _ TL) as [P _]. pose proof (tame_kap _ _ _ _ _ _ TL) as K.
  destruct (pairs_shrink _ _ _ _ Hs _ _ _ E T) as [V1 V2]. set (D := excess s G (length cuts)).
  assert (D0 : 0 <= D).
  { unfold D. destruct cuts as [|[m [g b]] rest]; [unfold excess; cbn [Rsum length]; lra|]. destruct T as (T1 & T2 & ea & A & B & C & H & _). destruct (pair_step n s G e m g b ea Hs T1 T2 A B C H) as (Z1 & Z2 & _). apply excess_nonneg; auto. }
  assert (B : (r * r) ^ n <= (fkap e' * (1 + D)) ^ n * det n (fshape n e')).
  { apply (ball_det n _ _ (fcoords (e_xc e')) z r); [pose proof (t_dim _ _ _ _ _ TL); lia|apply TL|exact P|apply Rmult_lt_0_compat; lra|exact Hr|].
    intros x Hx. destruct (HB x Hx) as [H1 H2]. pose proof (pairs_keep n s G cuts Hs e e' log 0 x E T H2 ltac:(lra)) as R. rewrite Rmult_0_r, Rplus_0_l, Rplus_0_r in R. apply R. exact H1. }
  eapply Rle_trans; [exact B|]. rewrite Rpow_mult_distr. replace (fkap e' ^ n * (1 + D) ^ n * det n (fshape n e')) with ((1 + D) ^ n * fvol2 n e') by (unfold fvol2; ring).
  rewrite Rmult_assoc. apply Rmult_le_compat_l; [apply pow_le; lra|exact V2].
Qed.
(** the pairs of a valid oracle *)
Lemma asked_slabs {O} n ok K tol (ora : OracleFeas F (Arr F) (ParallelCut F) O) limit o (e : Ell F) l o1 e1 z :
  feas_pairs n ok K ora -> (forall l o1 e1, asked pair tol ora o e l o1 e1 -> (length l < limit)%nat -> ok o1 (e_xc e1)) -> asked pair tol ora o e l o1 e1 -> (length l <= limit)%nat -> K z -> in_slabs n z e l.
Proof.
  intros V HO A HL Hz. revert limit HO HL. induction A as [|o e oa [g b] ea st rest o2 e2 A B C D IH]; intros limit HO HL; cbn [in_slabs]; [exact I|]. cbn [length] in HL. split; [refine (V _ _ _ _ _ _ A z Hz); apply (HO []); [constructor|cbn; lia]|].
  intros e' st' E. rewrite B in E. inversion E; subst. apply (IH (Nat.pred limit)); [|lia]. intros l o3 e3 A3 L3. apply (HO ((Bias, (g, b)) :: l)); [econstructor; eauto|cbn; lia].
Qed.
Lemma asked_opt_slabs {O} n ok beats tol (ora : OracleOptim F (Arr F) (ParallelCut F) O) limit o (e : Ell F) ga xb l o1 e1 ga1 xb1 z :
  opt_pairs n ok beats ora -> (forall l o1 e1 ga1 xb1, asked_opt pair tol ora o e ga xb l o1 e1 ga1 xb1 -> (length l < limit)%nat -> ok o1 (e_xc e1) ga1) ->
  asked_opt pair tol ora o e ga xb l o1 e1 ga1 xb1 -> (length l <= limit)%nat -> beats z ga1 -> beats z ga /\ in_slabs n z e l.
Proof.
  intros V HO A HL Hz. revert limit HO HL. induction A as [|o e ga xb oa gaa [g b] sh ea st rest o2 e2 ga2 xb2 A B C D IH]; intros limit HO HL; cbn [in_slabs]; [auto|]. cbn [length] in HL.
  destruct (IH Hz (Nat.pred limit)) as [I1 I2]; [|lia|]. { intros l o3 e3 ga3 xb3 A3 L3. apply (HO ((cut_mode sh, (g, b)) :: l) o3 e3 ga3 xb3); [econstructor; eauto|cbn; lia]. }
  assert (OK0 : ok o (e_xc e) ga). { apply (HO [] o e ga xb); [constructor|cbn; lia]. }
  destruct (V _ _ _ _ _ _ _ _ OK0 A) as [V1 V2]. split; [auto|]. split; [apply V2; exact I1|].
  intros e' st' E. rewrite B in E. inversion E; subst. exact I2.
Qed.
Theorem feas_pairs_run {O} n ok K s G (ora : OracleFeas F (Arr F) (ParallelCut F) O) opt o (e : Ell F) o' e' ans k :
  s <= 1 / 10 -> feas_pairs n ok K ora ->
  (forall l o1 e1, asked pair (tolerance opt) ora o e l o1 e1 -> (length l <= max_iters opt)%nat -> pair_run n s G e l /\ ((length l < max_iters opt)%nat -> ok o1 (e_xc e1))) ->
  cutting_plane_feas ora (ell_space pair) opt o e = Ok (o', e', (ans, k)) ->
  (ans <> None \/ k = max_iters opt -> forall z, K z -> fpts n e 1 z -> fpts n e' (1 + excess s G k) z) /\
  (forall z r, 0 < r -> (forall x, ball n z r x -> K x /\ fpts n e 1 x) ->
    (r * r) ^ n <= ((1 + excess s G k) ^ n * ((1 + s) ^ n * exp (- / (INR n + 1))) ^ k) * fvol2 n e).
Proof.
  intros Hs V HT E. apply (feas_asked pair (tolerance opt)) in E; [|reflexivity].
  assert (HO : forall l o1 e1, asked pair (tolerance opt) ora o e l o1 e1 -> (length l < max_iters opt)%nat -> ok o1 (e_xc e1)) by (intros l o1 e1 A L; apply (HT l o1 e1 A); lia).
  assert (KP : forall l o1 e1, asked pair (tolerance opt) ora o e l o1 e1 -> (length l <= max_iters opt)%nat -> forall z, K z -> fpts n e 1 z -> fpts n e1 (1 + excess s G (length l)) z).
  { intros l o1 e1 A HL z Hz Hp. destruct (asked_run pair _ _ _ _ _ _ _ A) as [log R]. pose proof (pairs_keep n s G l Hs e e1 log 0 z R (proj1 (HT _ _ _ A HL)) (asked_slabs _ _ _ _ _ _ _ _ _ _ _ _ V HO A HL Hz) ltac:(lra)) as Q.
    rewrite Rmult_0_r, Rplus_0_l, Rplus_0_r in Q. apply Q. exact Hp. }
  assert (CP : forall l o1 e1, asked pair (tolerance opt) ora o e l o1 e1 -> (length l <= max_iters opt)%nat -> forall z r, 0 < r -> (forall x, ball n z r x -> K x /\ fpts n e 1 x) ->
    (r * r) ^ n <= ((1 + excess s G (length l)) ^ n * ((1 + s) ^ n * exp (- / (INR n + 1))) ^ length l) * fvol2 n e).
  { intros l o1 e1 A HL z r Hr HB. destruct (asked_run pair _ _ _ _ _ _ _ A) as [log R]. apply (pairs_count n s G l e e1 log z r Hs R (proj1 (HT _ _ _ A HL)) Hr). intros x Hx. destruct (HB x Hx). split; auto. eapply asked_slabs; eauto. }
  inversion E; subst.
  - split; [intros _|]; [eapply KP|eapply CP]; eauto; lia.
  - split; [intros [H'|H']; [congruence|lia]|]. eapply CP; eauto; lia.
  - match goal with H : length _ = max_iters _ |- _ => rewrite <- H end. split; [intros _|]; [eapply KP|eapply CP]; eauto; lia.
Qed.
Theorem optim_pairs_run {O} n ok beats s G (ora : OracleOptim F (Arr F) (ParallelCut F) O) opt o (e : Ell F) (ga : F) o' e' ga' ans k :
  s <= 1 / 10 -> opt_pairs n ok beats ora ->
  (forall l o1 e1 ga1 xb1, asked_opt pair (tolerance opt) ora o e ga None l o1 e1 ga1 xb1 -> (length l <= max_iters opt)%nat -> pair_run n s G e l /\ ((length l < max_iters opt)%nat -> ok o1 (e_xc e1) ga1)) ->
  cutting_plane_optim ora (ell_space pair) opt o e ga = Ok (o', e', ga', (ans, k)) ->
  (k = max_iters opt -> forall z, beats z ga' -> fpts n e 1 z -> fpts n e' (1 + excess s G k) z) /\
  (forall z r, 0 < r -> (forall x, ball n z r x -> beats x ga' /\ fpts n e 1 x) ->
    (r * r) ^ n <= ((1 + excess s G k) ^ n * ((1 + s) ^ n * exp (- / (INR n + 1))) ^ k) * fvol2 n e).
Proof.
  intros Hs V HT E. apply (optim_asked pair (tolerance opt)) in E; [|reflexivity].
  assert (HO : forall l o1 e1 ga1 xb1, asked_opt pair (tolerance opt) ora o e ga None l o1 e1 ga1 xb1 -> (length l < max_iters opt)%nat -> ok o1 (e_xc e1) ga1) by (intros l o1 e1 ga1 xb1 A L; apply (HT l o1 e1 ga1 xb1 A); lia).
  assert (KP : forall l o1 e1 ga1 xb1, asked_opt pair (tolerance opt) ora o e ga None l o1 e1 ga1 xb1 -> (length l <= max_iters opt)%nat -> forall z, beats z ga1 -> fpts n e 1 z -> fpts n e1 (1 + excess s G (length l)) z).
  { intros l o1 e1 ga1 xb1 A HL z Hz Hp. destruct (asked_opt_run pair _ _ _ _ _ _ _ _ _ _ _ A) as [log R]. pose proof (pairs_keep n s G l Hs e e1 log 0 z R (proj1 (HT _ _ _ _ _ A HL)) (proj2 (asked_opt_slabs _ _ _ _ _ _ _ _ _ _ _ _ _ _ _ _ V HO A HL Hz)) ltac:(lra)) as Q.
    rewrite Rmult_0_r, Rplus_0_l, Rplus_0_r in Q. apply Q. exact Hp. }
  assert (CP : forall l o1 e1 ga1 xb1, asked_opt pair (tolerance opt) ora o e ga None l o1 e1 ga1 xb1 -> (length l <= max_iters opt)%nat -> forall z r, 0 < r -> (forall x, ball n z r x -> beats x ga1 /\ fpts n e 1 x) ->
    (r * r) ^ n <= ((1 + excess s G (length l)) ^ n * ((1 + s) ^ n * exp (- / (INR n + 1))) ^ length l) * fvol2 n e).
  { intros l o1 e1 ga1 xb1 A HL z r Hr HB. destruct (asked_opt_run pair _ _ _ _ _ _ _ _ _ _ _ A) as [log R]. apply (pairs_count n s G l e e1 log z r Hs R (proj1 (HT _ _ _ _ _ A HL)) Hr). intros x Hx. destruct (HB x Hx). split; auto. eapply asked_opt_slabs; eauto. }
  inversion E; subst.
  - split; [intros H'; lia|]. intros z r Hr HB. eapply CP; eauto; [lia|]. intros x Hx. destruct (HB x Hx). split; auto. destruct cut as [g b].
    match goal with A : asked_opt _ _ _ _ _ _ _ l _ _ _ _ |- _ => assert (OK1 := HO _ _ _ _ _ A ltac:(assumption)) end.
    match goal with Q : ora _ _ _ = Ok _, B : beats x ga' |- _ => exact (proj1 (V _ _ _ _ _ _ _ _ OK1 Q) _ B) end.
  - match goal with H : length _ = max_iters _ |- _ => rewrite <- H end. split; [intros _|]; [eapply KP|eapply CP]; eauto; lia.
Qed.
End R.
