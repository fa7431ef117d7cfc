(** Sequences of cuts in binary64 (C104) and what the drivers do with an oracle (C103). *)
From Coq Require Import ZArith Reals Lra Lia Bool Psatz Arith List.
From Flocq Require Import Core IEEE754.BinarySingleNaN.
From Verif Require Import Num Res Arr CuttingPlane EllCalc Ell EllRun Spec RealLin Det DetLemmas FloatLemmas AccSpec StepAccSpec StepAcc StepCuts StepRunSpec RunSpec RunProofs.
Import ListNotations.
Local Open Scope R_scope.
#[local] Opaque fadd fsub fmul fdiv fsqrt fofZ.

(** *** drivers *)
Section D.
Context {N : Num} {C O : Type} (ct : CutType N C) (tol : N).
Notation asked := (asked ct tol). Notation asked_opt := (asked_opt ct tol).
Lemma asked_snoc ora (o : O) (e : Ell N) l o1 e1 o2 cut e2 st : asked ora o e l o1 e1 -> of_assess ora o1 (e_xc e1) = Ok (o2, Some cut) ->
  apply_cut ct Bias e1 cut = Ok (e2, st) -> goes_on tol st e2 -> asked ora o e (l ++ [(Bias, cut)]) o2 e2.
Proof. induction 1; intros A B G; cbn [app]; econstructor; eauto. constructor. Qed.
Lemma asked_opt_snoc ora (o : O) (e : Ell N) ga xb l o1 e1 ga1 xb1 o2 ga2 cut (sh : bool) e2 st : asked_opt ora o e ga xb l o1 e1 ga1 xb1 -> ora o1 (e_xc e1) ga1 = Ok (o2, ga2, (cut, sh)) ->
  apply_cut ct (cut_mode sh) e1 cut = Ok (e2, st) -> goes_on tol st e2 ->
  asked_opt ora o e ga xb (l ++ [(cut_mode sh, cut)]) o2 e2 ga2 (if sh then Some (e_xc e1) else xb1).
Proof. induction 1; intros A B G; cbn [app]; econstructor; eauto. constructor. Qed.
Lemma goes_test (st : CutStatus) (e : Ell N) : (negb (is_success st) || (e_tsq e <?! tol)) = false <-> goes_on tol st e.
Proof. unfold goes_on. destruct st; cbn; split; intros H; try discriminate; try (now destruct H); split; auto. Qed.
Lemma feas_asked (ora : OracleFeas N (Arr N) C O) opt o (e : Ell N) o' e' ans k : tolerance opt = tol ->
  cutting_plane_feas ora (ell_space ct) opt o e = Ok (o', e', (ans, k)) -> feas_ends ct tol ora (max_iters opt) o e o' e' ans k.
Proof.
  intros HT. unfold cutting_plane_feas, loop_range. rewrite Nat.sub_0_r. rewrite HT. generalize (max_iters opt). intros K0.
  match goal with |- context [loop_up K0 0 ?b (o, e)] => set (body := b) end.
  pose (P := fun (i : nat) (t : O * Ell N) => exists l, asked ora o e l (fst t) (snd t) /\ length l = i).
  pose (Q := fun r : O * Ell N * (option (Arr N) * nat) => let '(o2, e2, (a, i)) := r in feas_ends ct tol ora K0 o e o2 e2 a i).
  pose proof (loop_part P Q body K0 0 (o, e)) as L.
  assert (H0 : P 0%nat (o, e)). { exists []. split; [constructor|reflexivity]. }
  assert (HN : forall i t t', (0 <= i < 0 + K0)%nat -> P i t -> body i t = Ok (Next t') -> P (S i) t').
  { intros i [o1 e1] t' Hi (l & A & B) E. unfold body in E. cbn [fst snd sp_xc ell_space] in *.
    destruct (of_assess ora o1 (e_xc e1)) as [[o2 [cut|]]|] eqn:E1; cbn in E; try discriminate.
    destruct (ell_update_bias ct e1 cut) as [[e2 st]|] eqn:E2; cbn in E; [|discriminate].
    destruct (_ || _) eqn:E3; [discriminate|]. apply goes_test in E3. inversion E; subst t'. exists (l ++ [(Bias, cut)]). split; [eapply asked_snoc; eauto|]. rewrite app_length, B. cbn. lia. }
  assert (HD : forall i t r, (0 <= i < 0 + K0)%nat -> P i t -> body i t = Ok (Done r) -> Q r).
  { intros i [o1 e1] r Hi (l & A & B) E. unfold body in E. cbn [fst snd sp_xc ell_space] in *.
    destruct (of_assess ora o1 (e_xc e1)) as [[o2 [cut|]]|] eqn:E1; cbn in E; try discriminate.
    - destruct (ell_update_bias ct e1 cut) as [[e2 st]|] eqn:E2; cbn in E; [|discriminate].
      destruct (_ || _) eqn:E3; [|discriminate]. inversion E; subst r i. red. eapply ends_stuck; eauto; [lia|]. intros G. apply goes_test in G. congruence.
    - inversion E; subst r i. eapply ends_found; eauto. lia. }
  specialize (L H0 HN HD). destruct (loop_up K0 0 body (o, e)) as [[[o2 e2]|r]|]; cbn; [| |discriminate]; intros E; inversion E; subst.
  - destruct L as (l & A & B). cbn [fst snd Nat.add] in *. eapply ends_limit; eauto.
  - exact L.
Qed.
Lemma optim_asked (ora : OracleOptim N (Arr N) C O) opt o (e : Ell N) ga o' e' ga' ans k : tolerance opt = tol ->
  cutting_plane_optim ora (ell_space ct) opt o e ga = Ok (o', e', ga', (ans, k)) -> opt_ends ct tol ora (max_iters opt) o e ga o' e' ga' ans k.
Proof.
  intros HT. unfold cutting_plane_optim, loop_range. rewrite Nat.sub_0_r. rewrite HT. generalize (max_iters opt). intros K0.
  match goal with |- context [loop_up K0 0 ?b _] => set (body := b) end.
  pose (P := fun (i : nat) (t : O * Ell N * N * option (Arr N)) => let '(o1, e1, ga1, xb1) := t in exists l, asked_opt ora o e ga None l o1 e1 ga1 xb1 /\ length l = i).
  pose (Q := fun r : O * Ell N * N * (option (Arr N) * nat) => let '(o2, e2, ga2, (a, i)) := r in opt_ends ct tol ora K0 o e ga o2 e2 ga2 a i).
  pose proof (loop_part P Q body K0 0 (o, e, ga, None)) as L.
  assert (H0 : P 0%nat (o, e, ga, None)). { exists []. split; [constructor|reflexivity]. }
  assert (HB : forall i o1 e1 ga1 xb1 c, body i (o1, e1, ga1, xb1) = Ok c -> exists o2 ga2 cut (sh : bool) e2 st, ora o1 (e_xc e1) ga1 = Ok (o2, ga2, (cut, sh)) /\
    apply_cut ct (cut_mode sh) e1 cut = Ok (e2, st) /\ c = if negb (is_success st) || (e_tsq e2 <?! tol) then Done (o2, e2, ga2, (if sh then Some (e_xc e1) else xb1, i)) else Next (o2, e2, ga2, if sh then Some (e_xc e1) else xb1)).
  { intros i o1 e1 ga1 xb1 c E. unfold body in E. cbn [sp_xc ell_space] in E.
    destruct (ora o1 (e_xc e1) ga1) as [[[o2 ga2] [cut sh]]|] eqn:E1; cbn in E; [|discriminate].
    exists o2, ga2, cut, sh. destruct sh.
    - destruct (ell_update_central ct e1 cut) as [[e2 st]|] eqn:E2; cbn in E; [|discriminate]. exists e2, st. split; [reflexivity|]. split; [exact E2|]. destruct (_ || _); congruence.
    - destruct (ell_update_bias ct e1 cut) as [[e2 st]|] eqn:E2; cbn in E; [|discriminate]. exists e2, st. split; [reflexivity|]. split; [exact E2|]. destruct (_ || _); congruence. }
  assert (HN : forall i t t', (0 <= i < 0 + K0)%nat -> P i t -> body i t = Ok (Next t') -> P (S i) t').
  { intros i [[[o1 e1] ga1] xb1] t' Hi (l & A & B) E. apply HB in E as (o2 & ga2 & cut & sh & e2 & st & E1 & E2 & E3).
    destruct (_ || _) eqn:E4; [discriminate|]. apply goes_test in E4. inversion E3; subst t'. exists (l ++ [(cut_mode sh, cut)]). split; [eapply asked_opt_snoc; eauto|]. rewrite app_length, B. cbn. lia. }
  assert (HD : forall i t r, (0 <= i < 0 + K0)%nat -> P i t -> body i t = Ok (Done r) -> Q r).
  { intros i [[[o1 e1] ga1] xb1] r Hi (l & A & B) E. apply HB in E as (o2 & ga2 & cut & sh & e2 & st & E1 & E2 & E3).
    destruct (_ || _) eqn:E4; [|discriminate]. inversion E3; subst r i. red. eapply opt_stuck; eauto; [lia|]. intros G. apply goes_test in G. congruence. }
  specialize (L H0 HN HD). destruct (loop_up K0 0 body _) as [[[[[o2 e2] ga2] xb2]|r]|]; cbn; [| |discriminate]; intros E; inversion E; subst.
  - destruct L as (l & A & B). cbn [Nat.add] in *. eapply opt_limit; eauto.
  - exact L.
Qed.
Lemma asked_q_snoc ora (o : O) (e : Ell N) ga xb r l o1 e1 ga1 xb1 r1 cut o2 e2 ga2 xb2 r2 : asked_q ct tol ora o e ga xb r l o1 e1 ga1 xb1 r1 ->
  q_step ct tol ora o1 e1 ga1 xb1 r1 cut o2 e2 ga2 xb2 (Some r2) -> asked_q ct tol ora o e ga xb r (l ++ [(Quantised, cut)]) o2 e2 ga2 xb2 r2.
Proof. induction 1; intros A; cbn [app]; econstructor; eauto. constructor. Qed.
Lemma q_asked (ora : OracleOptimQ N (Arr N) C O) opt o (e : Ell N) ga o' e' ga' ans k : tolerance opt = tol ->
  cutting_plane_optim_q ora (ell_space ct) opt o e ga = Ok (o', e', ga', (ans, k)) -> q_ends ct tol ora (max_iters opt) o e ga o' e' ga' ans k.
Proof.
  intros HT. unfold cutting_plane_optim_q, loop_range. rewrite Nat.sub_0_r. rewrite HT. generalize (max_iters opt). intros K0.
  match goal with |- context [loop_up K0 0 ?b _] => set (body := b) end.
  pose (P := fun (i : nat) (t : O * Ell N * N * option (Arr N) * bool) => let '(o1, e1, ga1, xb1, r1) := t in exists l, asked_q ct tol ora o e ga None false l o1 e1 ga1 xb1 r1 /\ length l = i).
  pose (Q := fun r : O * Ell N * N * (option (Arr N) * nat) => let '(o2, e2, ga2, (a, i)) := r in q_ends ct tol ora K0 o e ga o2 e2 ga2 a i).
  pose proof (loop_part P Q body K0 0 (o, e, ga, None, false)) as L.
  assert (H0 : P 0%nat (o, e, ga, None, false)). { exists []. split; [constructor|reflexivity]. }
  assert (HB : forall i o1 e1 ga1 xb1 r1 c, body i (o1, e1, ga1, xb1, r1) = Ok c -> exists cut o2 e2 ga2 xb2 next, q_step ct tol ora o1 e1 ga1 xb1 r1 cut o2 e2 ga2 xb2 next /\
    c = match next with None => Done (o2, e2, ga2, (xb2, i)) | Some r2 => Next (o2, e2, ga2, xb2, r2) end).
  { intros i o1 e1 ga1 xb1 r1 c E. unfold body in E. cbn [sp_xc sp_update_q sp_tsq ell_space] in E.
    destruct (ora o1 (e_xc e1) ga1 r1) as [[[o2 ga2] [[[cut sh] xq] more]]|] eqn:E1; cbn in E; [|discriminate].
    destruct (ell_update_q ct e1 cut) as [[e2 st]|] eqn:E2; cbn in E; [|destruct sh; discriminate].
    exists cut, o2, e2, ga2, (if sh then Some xq else xb1), (q_next tol st more (if sh then false else r1) e2).
    split; [exists sh, xq, more, st; auto|]. unfold q_next. destruct sh, st, more; cbn in E; destruct (e_tsq e2 <?! tol); inversion E; reflexivity. }
  assert (HN : forall i t t', (0 <= i < 0 + K0)%nat -> P i t -> body i t = Ok (Next t') -> P (S i) t').
  { intros i [[[[o1 e1] ga1] xb1] r1] t' Hi (l & A & B) E. apply HB in E as (cut & o2 & e2 & ga2 & xb2 & [r2|] & E1 & E2); [|discriminate].
    inversion E2; subst t'. exists (l ++ [(Quantised, cut)]). split; [eapply asked_q_snoc; eauto|]. rewrite app_length, B. cbn. lia. }
  assert (HD : forall i t r, (0 <= i < 0 + K0)%nat -> P i t -> body i t = Ok (Done r) -> Q r).
  { intros i [[[[o1 e1] ga1] xb1] r1] r Hi (l & A & B) E. apply HB in E as (cut & o2 & e2 & ga2 & xb2 & [r2|] & E1 & E2); [discriminate|].
    inversion E2; subst r i. red. eapply q_stuck; eauto; lia. }
  specialize (L H0 HN HD). destruct (loop_up K0 0 body _) as [[[[[[o2 e2] ga2] xb2] r2]|r]|]; cbn; [| |discriminate]; intros E; inversion E; subst.
  - destruct L as (l & A & B). cbn [Nat.add] in *. eapply q_limit; eauto.
  - exact L.
Qed.
Lemma asked_run ora (o : O) (e : Ell N) l o1 e1 : asked ora o e l o1 e1 -> exists log, run_cuts ct e l = Ok (e1, log).
Proof. induction 1 as [|o e oa cut ea st rest o2 e2 A B G _ [log IH]]; [exists []; reflexivity|]. cbn [run_cuts]. rewrite B. cbn. rewrite IH. cbn. eauto. Qed.
Lemma asked_opt_run ora (o : O) (e : Ell N) ga xb l o1 e1 ga1 xb1 : asked_opt ora o e ga xb l o1 e1 ga1 xb1 -> exists log, run_cuts ct e l = Ok (e1, log).
Proof. induction 1 as [|o e ga xb oa gaa cut sh ea st rest o2 e2 ga2 xb2 A B G _ [log IH]]; [exists []; reflexivity|]. cbn [run_cuts]. rewrite B. cbn. rewrite IH. cbn. eauto. Qed.
End D.

(** *** runs in binary64 *)
Section R.
Variable lm : Libm.
Notation F := (FNum lm).
Notation single := (single_cut (N := F)).
Lemma slack_nonneg n (e : Ell F) lam Lam X : tame n e lam Lam X -> 0 <= slack n lam Lam X (fkap e).
Proof.
  intros T. pose proof (t_dim _ _ _ _ _ T) as [HD _]. destruct (t_lam _ _ _ _ _ T) as [L1 _]. destruct (t_Lam _ _ _ _ _ T) as [_ L2]. destruct (t_X _ _ _ _ _ T) as [[X1 _] _]. pose proof (bpow_gt_0 radix2 (-100)).
  assert (0 <= Lam). { eapply Rle_trans; [apply Rabs_pos|]. apply (L2 0%nat 0%nat); lia. }
  unfold slack. pose proof (bpow_gt_0 radix2 (-53)). apply Rmult_le_pos; [lra|]. pose proof (sqrt_pos (INR n / (lam * fkap e))). pose proof (pos_INR n).
  apply Rplus_le_le_0_compat; repeat apply Rmult_le_pos; try lra. apply Rlt_le, Rinv_0_lt_compat. lra.
Qed.
Lemma grow_nonneg n al : 0 <= grow n al.
Proof. unfold grow. apply Rle_0_sqr. Qed.
Lemma fpts_mono n (e : Ell F) a b z : 0 <= fkap e -> a <= b -> fpts n e a z -> fpts n e b z.
Proof. intros K L (y & A & B). exists y. split; auto. eapply Rle_trans; [exact B|]. apply Rmult_le_compat_l; auto. Qed.

Lemma step_both n s (e : Ell F) m (g : Arr F) (b : SingleCut F) (e' : Ell F) lam Lam X : s <= 1 / 10 -> tame n e lam Lam X -> slack n lam Lam X (fkap e) <= s -> grad_ok n g ->
  (m = Central \/ moderate_or_zero (sc_beta b)) -> apply_cut single m e (g, b) = Ok (e', Success) -> moderate (e_tsq e') -> 2 * foff m b <= sqrt (B2R (e_tsq e' : f64)) ->
  step_sound n e g (foff m b) lam Lam X e' /\ step_shrinks n e lam Lam X e'.
Proof.
  intros Hs T S HG Hb E M B. assert (S' : slack n lam Lam X (fkap e) <= 1 / 10) by lra. destruct b as [b]. destruct m; cbn [apply_cut foff] in *.
  - destruct Hb as [|Hb]; [discriminate|]. split; [eapply bias_sound; eauto|eapply bias_shrinks; eauto].
  - split; [eapply central_sound; eauto|eapply central_shrinks; eauto].
  - destruct Hb as [|Hb]; [discriminate|]. split; [eapply q_sound; eauto|eapply q_shrinks; eauto].
Qed.
Lemma tame_first n s G (e : Ell F) cuts : tame_run n s G e cuts -> exists lam Lam X, tame n e lam Lam X.
Proof. destruct cuts as [|[m [g b]] rest]; cbn; [auto|]. intros ((lam & Lam & X & T & _) & _). eauto. Qed.
Lemma tame_kap n (e : Ell F) lam Lam X : tame n e lam Lam X -> 0 < fkap e.
Proof. intros T. destruct (t_kap _ _ _ _ _ T) as [_ K]. unfold fkap. pose proof (bpow_gt_0 radix2 (-100)). lra. Qed.

Theorem run_keeps n s G cuts : s <= 1 / 10 -> forall (e e' : Ell F) log d z, run_cuts single e cuts = Ok (e', log) -> tame_run n s G e cuts -> satisfies n z e cuts ->
  0 <= d -> fpts n e (1 + d) z -> fpts n e' (1 + ((G * (1 + s)) ^ length cuts * d + excess s G (length cuts))) z.
Proof.
  intros Hs. unfold excess. set (q := G * (1 + s)). induction cuts as [|[m [g b]] rest IH]; intros e e' log d z E T S Hd Hz; cbn [run_cuts length] in *.
  - inversion E; subst. cbn [Rsum pow]. replace (1 + (1 * d + s * 0)) with (1 + d) by ring. exact Hz.
  - destruct T as ((lam & Lam & X & T1 & T2) & T3 & T4 & T5 & ea & A & B & D & T6). destruct S as [S1 S2]. rewrite A in E. cbn [bind fst snd] in E.
    destruct (run_cuts single ea rest) as [[eb lg]|] eqn:E1; cbn in E; [|discriminate]. inversion E; subst eb log. clear E.
    destruct (step_both n s e m g b ea lam Lam X Hs T1 T2 T3 T5 A B D) as [(_ & _ & _ & _ & _ & P) _].
    specialize (P d z Hd Hz S1). specialize (S2 _ _ A). pose proof (slack_nonneg n e lam Lam X T1) as T0. set (sl := slack n lam Lam X (fkap e)) in *.
    pose proof (grow_nonneg n (depth n e g (foff m b))) as G0. set (gr := grow n (depth n e g (foff m b))) in *. destruct (tame_first _ _ _ _ _ T6) as (la & La & Xa & Ta). pose proof (tame_kap _ _ _ _ _ Ta) as Ka.
    assert (Q : fpts n ea (1 + (s + q * d)) z).
    { eapply fpts_mono; [lra| |exact P]. replace (1 + (s + q * d)) with ((1 + d * G) * (1 + s)) by (unfold q; ring). assert (0 <= d * gr) by (apply Rmult_le_pos; auto). assert (d * gr <= d * G) by (apply Rmult_le_compat_l; auto). apply Rmult_le_compat; lra. }
    assert (0 <= q) by (unfold q; apply Rmult_le_pos; lra). assert (0 <= q * d) by (apply Rmult_le_pos; auto).
    specialize (IH ea e' lg (s + q * d) z E1 T6 S2 ltac:(lra) Q). eapply fpts_mono; [| |exact IH].
    + clear - E1 T6 Hs. revert ea e' lg E1 T6. induction rest as [|[m [g b]] rest IH]; intros ea e' lg E1 T6; cbn [run_cuts] in *.
      * inversion E1; subst. destruct T6 as (la & La & Xa & Ta). apply Rlt_le. eapply tame_kap; eauto.
      * destruct T6 as (_ & _ & _ & _ & eb & A & _ & _ & T). rewrite A in E1. cbn [bind fst snd] in E1. destruct (run_cuts single eb rest) as [[ec lc]|] eqn:E2; cbn in E1; [|discriminate]. inversion E1; subst. eapply IH; eauto.
    + cbn [Rsum pow]. apply Req_le. ring.
Qed.
Lemma run_last n s G cuts : forall (e e' : Ell F) log, run_cuts single e cuts = Ok (e', log) -> tame_run n s G e cuts -> exists lam Lam X, tame n e' lam Lam X.
Proof.
  induction cuts as [|[m [g b]] rest IH]; intros e e' log E T; cbn [run_cuts] in *.
  - inversion E; subst. exact T.
  - destruct T as (_ & _ & _ & _ & ea & A & _ & _ & T). rewrite A in E. cbn [bind fst snd] in E. destruct (run_cuts single ea rest) as [[ec lc]|] eqn:E2; cbn in E; [|discriminate]. inversion E; subst. eapply IH; eauto.
Qed.
Lemma tame_pd n (e : Ell F) lam Lam X : tame n e lam Lam X -> pd n (fshape n e) /\ 0 < fvol2 n e.
Proof.
  intros T. pose proof (tame_kap _ _ _ _ _ T) as K. destruct (t_lam _ _ _ _ _ T) as [L0 L1]. pose proof (t_sym _ _ _ _ _ T). pose proof (bpow_gt_0 radix2 (-100)). assert (P : pd n (fshape n e)).
  { intros z (i & Hi & Hz). eapply Rlt_le_trans; [|apply L1]. apply Rmult_lt_0_compat; [lra|].
    destruct (Rle_lt_or_eq_dec 0 (dot n z z) (dot_self_nonneg _ _)) as [|E]; auto. exfalso. apply Hz. eapply dot_self_zero; eauto. }
  split; [exact P|]. unfold fvol2. apply Rmult_lt_0_compat; [apply pow_lt; exact K|]. apply det_pos; auto.
Qed.
Theorem run_shrinks n s G cuts : s <= 1 / 10 -> forall (e e' : Ell F) log, run_cuts single e cuts = Ok (e', log) -> tame_run n s G e cuts ->
  0 < fvol2 n e' <= ((1 + s) ^ n * exp (- / (INR n + 1))) ^ length cuts * fvol2 n e.
Proof.
  intros Hs. induction cuts as [|[m [g b]] rest IH]; intros e e' log E T; cbn [run_cuts length] in *.
  - inversion E; subst. destruct T as (la & La & X & T). destruct (tame_pd _ _ _ _ _ T). cbn [pow]. lra.
  - destruct T as ((lam & Lam & X & T1 & T2) & T3 & T4 & T5 & ea & A & B & D & T6). rewrite A in E. cbn [bind fst snd] in E.
    destruct (run_cuts single ea rest) as [[eb lg]|] eqn:E1; cbn in E; [|discriminate]. inversion E; subst eb log. clear E.
    destruct (step_both n s e m g b ea lam Lam X Hs T1 T2 T3 T5 A B D) as [_ [P1 P2]]. destruct (IH _ _ _ E1 T6) as [Q1 Q2]. split; [exact Q1|].
    pose proof (slack_nonneg n e lam Lam X T1) as T0. pose proof (exp_pos (- / (INR n + 1))) as X0. destruct (tame_pd _ _ _ _ _ T1) as [_ V].
    set (c := (1 + s) ^ n * exp (- / (INR n + 1))) in *. assert (C : 0 < c) by (apply Rmult_lt_0_compat; auto; apply pow_lt; lra).
    eapply Rle_trans; [exact Q2|]. cbn [pow]. replace (c * c ^ length rest * fvol2 n e) with (c ^ length rest * (c * fvol2 n e)) by ring.
    apply Rmult_le_compat_l; [apply Rlt_le, pow_lt; exact C|]. eapply Rle_trans; [exact P2|]. apply Rmult_le_compat_r; [lra|]. unfold c. apply Rmult_le_compat_r; [lra|]. apply pow_incr. lra.
Qed.
(** an ellipsoid that holds a ball is at least as large *)
Lemma ball_det n M kap c z r : (1 <= n)%nat -> sym n M -> pd n M -> 0 < kap -> 0 < r -> (forall x, ball n z r x -> in_ell n M kap c x) -> (r * r) ^ n <= kap ^ n * det n M.
Proof.
  intros Hn HS HP Hk Hr HB. assert (PS : forall v, 0 <= quad n M v). { intros v. destruct (RunProofs.classic_nz n v) as [(i & Hi & Hv)|H0]; [apply Rlt_le, HP; eauto|]. unfold quad, dot. rewrite Rsum_zero; [lra|]. intros i Hi. rewrite H0 by auto. ring. }
  rewrite <- det_scale. apply det_lower; [nra| |].
  - intros i j Hi Hj. cbv beta. now rewrite (HS i j Hi Hj).
  - intros v. rewrite quad_smul. destruct (Rle_lt_or_eq_dec _ _ (dot_self_nonneg n v)) as [Hv|Hv]; [|rewrite <- Hv, Rmult_0_r; apply Rmult_le_pos; [lra|apply PS]].
    set (nv := sqrt (dot n v v)). assert (Hnv : 0 < nv) by (apply sqrt_lt_R0; auto). assert (Hsq : nv * nv = dot n v v) by (apply sqrt_sqrt; lra).
    set (s := r / nv). assert (Hss : s * s * dot n v v = r * r) by (rewrite <- Hsq; unfold s; field; lra).
    assert (B1 : ball n z r (fun i => z i - s * v i)).
    { unfold ball. right. rewrite (dot_ext n _ _ (fun i => (- s) * v i) (fun i => (- s) * v i)) by (intros; ring). rewrite dot_scal_l, dot_scal_r. lra. }
    assert (B2 : ball n z r (fun i => z i + s * v i)).
    { unfold ball. right. rewrite (dot_ext n _ _ (fun i => s * v i) (fun i => s * v i)) by (intros; ring). rewrite dot_scal_l, dot_scal_r. lra. }
    pose proof (width_bound n _ _ _ v HS PS _ (HB _ B1)) as W1. pose proof (width_bound n _ _ _ v HS PS _ (HB _ B2)) as W2.
    set (a := along n v z c).
    assert (E1 : along n v (fun i => z i - s * v i) c = a - r * nv).
    { unfold a, along. rewrite (dot_ext n v _ v (fun i => (z i - c i) - s * v i)) by (intros; ring). rewrite dot_minus_r, dot_scal_r. rewrite <- Hsq. unfold s. field. lra. }
    assert (E2 : along n v (fun i => z i + s * v i) c = a + r * nv).
    { unfold a, along. rewrite (dot_ext n v _ v (fun i => (z i - c i) + s * v i)) by (intros; ring). rewrite dot_plus_r, dot_scal_r. rewrite <- Hsq. unfold s. field. lra. }
    rewrite E1 in W1. rewrite E2 in W2. rewrite <- Hsq. assert (0 <= a * a) by apply Rle_0_sqr. unfold quad in *. lra.
Qed.
Lemma excess_nonneg s G k : 0 <= s -> 0 <= G -> 0 <= excess s G k.
Proof. intros A B. unfold excess. apply Rmult_le_pos; auto. apply Rsum_nonneg. intros i _. apply pow_le. apply Rmult_le_pos; lra. Qed.
Theorem run_count n s G cuts (e e' : Ell F) log z r : s <= 1 / 10 -> run_cuts single e cuts = Ok (e', log) -> tame_run n s G e cuts -> 0 < r ->
  (forall x, ball n z r x -> fpts n e 1 x /\ satisfies n x e cuts) ->
  (r * r) ^ n <= ((1 + excess s G (length cuts)) ^ n * ((1 + s) ^ n * exp (- / (INR n + 1))) ^ length cuts) * fvol2 n e.
Proof.
  intros Hs E T Hr HB. destruct (run_last _ _ _ _ _ _ _ E T) as (la & La & X & TL). destruct (tame_pd _ _ _ _ _ TL) as [P _]. pose proof (tame_kap _ _ _ _ _ TL) as K.
  destruct (run_shrinks _ _ _ _ Hs _ _ _ E T) as [V1 V2]. set (D := excess s G (length cuts)).
  assert (D0 : 0 <= D).
  { unfold D. destruct cuts as [|[m [g b]] rest]; [unfold excess; cbn [Rsum length]; lra|]. destruct T as ((l1 & L1 & X1 & T1 & T2) & _ & T4 & _). apply excess_nonneg; [pose proof (slack_nonneg _ _ _ _ _ T1); lra|].
    pose proof (grow_nonneg n (depth n e g (foff m b))). lra. }
  assert (B : (r * r) ^ n <= (fkap e' * (1 + D)) ^ n * det n (fshape n e')).
  { apply (ball_det n _ _ (fcoords (e_xc e')) z r); [pose proof (t_dim _ _ _ _ _ TL); lia|apply TL|exact P|apply Rmult_lt_0_compat; lra|exact Hr|].
    intros x Hx. destruct (HB x Hx) as [H1 H2]. pose proof (run_keeps n s G cuts Hs e e' log 0 x E T H2 ltac:(lra)) as R. rewrite Rmult_0_r, Rplus_0_l, Rplus_0_r in R. apply R. exact H1. }
  eapply Rle_trans; [exact B|]. rewrite Rpow_mult_distr. replace (fkap e' ^ n * (1 + D) ^ n * det n (fshape n e')) with ((1 + D) ^ n * fvol2 n e') by (unfold fvol2; ring).
  rewrite Rmult_assoc. apply Rmult_le_compat_l; [apply pow_le; lra|exact V2].
Qed.
(** the cuts of a valid oracle are satisfied *)
Lemma asked_satisfies {O} n K tol (ora : OracleFeas F (Arr F) (SingleCut F) O) o (e : Ell F) l o1 e1 z :
  feas_valid n K ora -> asked single tol ora o e l o1 e1 -> K z -> satisfies n z e l.
Proof.
  intros V A Hz. induction A as [|o e oa [g b] ea st rest o2 e2 A B C D IH]; cbn [satisfies]; [exact I|]. split; [exact (V _ _ _ _ _ A z Hz)|].
  intros e' st' E. rewrite B in E. inversion E; subst. exact IH.
Qed.
Lemma asked_opt_beats {O} n beats tol (ora : OracleOptim F (Arr F) (SingleCut F) O) o (e : Ell F) ga xb l o1 e1 ga1 xb1 z :
  opt_valid n beats ora -> asked_opt single tol ora o e ga xb l o1 e1 ga1 xb1 -> beats z ga1 -> beats z ga /\ satisfies n z e l.
Proof.
  intros V A Hz. induction A as [|o e ga xb oa gaa [g b] sh ea st rest o2 e2 ga2 xb2 A B C D IH]; cbn [satisfies]; [auto|]. destruct (IH Hz) as [I1 I2]. destruct (V _ _ _ _ _ _ _ _ A) as [V1 V2].
  split; [auto|]. split; [apply V2; exact I1|].
  intros e' st' E. rewrite B in E. inversion E; subst. exact I2.
Qed.
(** *** the drivers in binary64 *)
Theorem feas_run {O} n K s G (ora : OracleFeas F (Arr F) (SingleCut F) O) opt o (e : Ell F) o' e' ans k :
  s <= 1 / 10 -> feas_valid n K ora -> (forall l o1 e1, asked single (tolerance opt) ora o e l o1 e1 -> (length l <= max_iters opt)%nat -> tame_run n s G e l) ->
  cutting_plane_feas ora (ell_space single) opt o e = Ok (o', e', (ans, k)) ->
  (ans <> None \/ k = max_iters opt -> forall z, K z -> fpts n e 1 z -> fpts n e' (1 + excess s G k) z) /\
  (forall z r, 0 < r -> (forall x, ball n z r x -> K x /\ fpts n e 1 x) ->
    (r * r) ^ n <= ((1 + excess s G k) ^ n * ((1 + s) ^ n * exp (- / (INR n + 1))) ^ k) * fvol2 n e).
Proof.
  intros Hs V HT E. apply (feas_asked single (tolerance opt)) in E; [|reflexivity].
  assert (KP : forall l o1 e1, asked single (tolerance opt) ora o e l o1 e1 -> (length l <= max_iters opt)%nat -> forall z, K z -> fpts n e 1 z -> fpts n e1 (1 + excess s G (length l)) z).
  { intros l o1 e1 A HL z Hz Hp. destruct (asked_run single _ _ _ _ _ _ _ A) as [log R]. pose proof (run_keeps n s G l Hs e e1 log 0 z R (HT _ _ _ A HL) (asked_satisfies _ _ _ _ _ _ _ _ _ _ V A Hz) ltac:(lra)) as Q.
    rewrite Rmult_0_r, Rplus_0_l, Rplus_0_r in Q. apply Q. exact Hp. }
  assert (CP : forall l o1 e1, asked single (tolerance opt) ora o e l o1 e1 -> (length l <= max_iters opt)%nat -> forall z r, 0 < r -> (forall x, ball n z r x -> K x /\ fpts n e 1 x) ->
    (r * r) ^ n <= ((1 + excess s G (length l)) ^ n * ((1 + s) ^ n * exp (- / (INR n + 1))) ^ length l) * fvol2 n e).
  { intros l o1 e1 A HL z r Hr HB. destruct (asked_run single _ _ _ _ _ _ _ A) as [log R]. apply (run_count n s G l e e1 log z r Hs R (HT _ _ _ A HL) Hr). intros x Hx. destruct (HB x Hx). split; auto. eapply asked_satisfies; eauto. }
  inversion E; subst.
  - split; [intros _|]; [eapply KP|eapply CP]; eauto; lia.
  - split; [intros [H'|H']; [congruence|lia]|]. eapply CP; eauto; lia.
  - match goal with H : length _ = max_iters _ |- _ => rewrite <- H end. split; [intros _|]; [eapply KP|eapply CP]; eauto; lia.
Qed.
Theorem optim_run {O} n beats s G (ora : OracleOptim F (Arr F) (SingleCut F) O) opt o (e : Ell F) (ga : F) o' e' ga' ans k :
  s <= 1 / 10 -> opt_valid n beats ora -> (forall l o1 e1 ga1 xb1, asked_opt single (tolerance opt) ora o e ga None l o1 e1 ga1 xb1 -> (length l <= max_iters opt)%nat -> tame_run n s G e l) ->
  cutting_plane_optim ora (ell_space single) opt o e ga = Ok (o', e', ga', (ans, k)) ->
  (k = max_iters opt -> forall z, beats z ga' -> fpts n e 1 z -> fpts n e' (1 + excess s G k) z) /\
  (forall z r, 0 < r -> (forall x, ball n z r x -> beats x ga' /\ fpts n e 1 x) ->
    (r * r) ^ n <= ((1 + excess s G k) ^ n * ((1 + s) ^ n * exp (- / (INR n + 1))) ^ k) * fvol2 n e).
Proof.
  intros Hs V HT E. apply (optim_asked single (tolerance opt)) in E; [|reflexivity].
  assert (KP : forall l o1 e1 ga1 xb1, asked_opt single (tolerance opt) ora o e ga None l o1 e1 ga1 xb1 -> (length l <= max_iters opt)%nat -> forall z, beats z ga1 -> fpts n e 1 z -> fpts n e1 (1 + excess s G (length l)) z).
  { intros l o1 e1 ga1 xb1 A HL z Hz Hp. destruct (asked_opt_run single _ _ _ _ _ _ _ _ _ _ _ A) as [log R]. pose proof (run_keeps n s G l Hs e e1 log 0 z R (HT _ _ _ _ _ A HL) (proj2 (asked_opt_beats _ _ _ _ _ _ _ _ _ _ _ _ _ _ V A Hz)) ltac:(lra)) as Q.
    rewrite Rmult_0_r, Rplus_0_l, Rplus_0_r in Q. apply Q. exact Hp. }
  assert (CP : forall l o1 e1 ga1 xb1, asked_opt single (tolerance opt) ora o e ga None l o1 e1 ga1 xb1 -> (length l <= max_iters opt)%nat -> forall z r, 0 < r -> (forall x, ball n z r x -> beats x ga1 /\ fpts n e 1 x) ->
    (r * r) ^ n <= ((1 + excess s G (length l)) ^ n * ((1 + s) ^ n * exp (- / (INR n + 1))) ^ length l) * fvol2 n e).
  { intros l o1 e1 ga1 xb1 A HL z r Hr HB. destruct (asked_opt_run single _ _ _ _ _ _ _ _ _ _ _ A) as [log R]. apply (run_count n s G l e e1 log z r Hs R (HT _ _ _ _ _ A HL) Hr). intros x Hx. destruct (HB x Hx). split; auto. eapply asked_opt_beats; eauto. }
  inversion E; subst.
  - split; [intros H'; lia|]. intros z r Hr HB. eapply CP; eauto; [lia|]. intros x Hx. destruct (HB x Hx). split; auto. destruct cut as [g b]. eapply V; eauto.
  - match goal with H : length _ = max_iters _ |- _ => rewrite <- H end. split; [intros _|]; [eapply KP|eapply CP]; eauto; lia.
Qed.
End R.
