(** Runs on the oracle of quasicvx2_tests.rs in binary64 (C128). *)
From Coq Require Import ZArith Reals Lra Lia Bool Arith List.
From Flocq Require Import Core IEEE754.BinarySingleNaN.
From Verif Require Import Num Res Arr ArrLemmas CuttingPlane EllCalc Ell EllRun Spec RunSpec FloatLemmas FloatErr StepAccSpec StepRunSpec StepRun Examples ProfitSpec ProfAccSpec QcAccSpec Qcvx2 Qc2AccSpec Qc2Acc LevelRun.
Import ListNotations.
Local Open Scope R_scope.

Section R.
Variable lm : Libm.
Notation F := (FNum lm).
Notation single := (single_cut (N := F)).
Variables (dl X C r : R).
Hypotheses (HP : qc_platform lm dl X C) (Hr : / 1000000 <= r <= 1).
Definition seen (u : Arr F) : Prop := in_square X u /\ off_axis r u.
Notation mu := (qc2_margin dl X C r).
Notation drop := (qc_drop C).
Notation inbox := (fun z : vec => forall i, (i < 2)%nat -> Rabs (z i) <= X).
Definition q2state (o : Z) (ga : F) : Prop := (-1 <= o < 3)%Z /\ qc_level C (ga : f64).
Lemma q2_drop : 0 <= drop.
Proof. destruct HP as (_ & _ & HC & _). unfold qc_drop. apply Rmult_le_pos; [lra|apply bpow_ge_0]. Qed.
Lemma q2_mu : 0 <= mu.
Proof. exact (proj2 (proj2 (mu2_parts lm dl X C r HP Hr))). Qed.
Lemma reaches2_less t s z : s <= t -> reaches2 mu t z -> reaches2 mu s z.
Proof. intros A (B & D & E). split; [exact B|]. split; [exact D|]. pose proof (exp_pos (z 0%nat)). pose proof (Rmult_le_compat_r (z 1%nat) _ _ ltac:(pose proof q2_mu; lra) A). lra. Qed.
Lemma q2_step o (x : Arr F) (ga : F) o' (ga' : F) g b sh : q2state o ga -> seen x -> qc2_assess o x ga = Ok (o', ga', ((g, b), sh)) ->
  q2state o' ga' /\ (sh = true -> qc2_good dl (B2R (ga' : f64)) (fcoords x) /\ B2R (ga' : f64) <= 44 / 100) /\ (sh = false -> ga' = ga) /\ B2R (ga : f64) <= B2R (ga' : f64) + drop /\
  (forall z, inbox z /\ reaches2 mu (B2R (ga' : f64)) z -> along 2 (fcoords g) z (fcoords x) + foff (cut_mode sh) b <= 0).
Proof.
  intros [A B] Hx E. destruct (qc2_call lm dl X C r HP Hr o x ga A (proj1 Hx) (proj2 Hx) B) as (o1 & ga1 & g1 & b1 & sh1 & E1 & CG).
  assert (E2 := eq_trans (eq_sym E) E1). inversion E2; subst o1 ga1 g1 b sh1. clear E1 E2. destruct CG as (H1 & H2 & H3 & H4 & H5 & H6 & H7 & H8 & H9).
  split; [split; assumption|]. split; [intros Hs; destruct (H8 Hs) as (? & ? & _); auto|]. split; [intros Hs; exact (proj1 (H7 Hs))|]. split; [exact H6|].
  intros z [Bz Hz]. specialize (H9 z Bz Hz). destruct sh; cbn [cut_mode foff]; [destruct (H8 eq_refl) as (_ & _ & Q); rewrite Q in H9|]; exact H9.
Qed.
Lemma q2_level tol limit o (e : Ell F) (ga : F) xb l o1 e1 (ga1 : F) xb1 : asked_opt single tol qc2_assess o e ga xb l o1 e1 ga1 xb1 -> (length l <= limit)%nat ->
  (forall l o1 e1 (ga1 : F) xb1, asked_opt single tol qc2_assess o e ga xb l o1 e1 ga1 xb1 -> (length l < limit)%nat -> seen (e_xc e1)) ->
  q2state o ga -> q2state o1 ga1 /\ (44 / 100 + drop < B2R (ga : f64) -> ga1 = ga /\ xb1 = xb).
Proof.
  intros A. revert limit. induction A as [|o e ga xb oa gaa [g b] sh ea st rest o2 e2 ga2 xb2 A B D E IH]; intros limit HL HX Hs; [auto|]. cbn [length] in HL.
  pose proof (HX [] o e ga xb ltac:(constructor) ltac:(cbn; lia)) as X0. destruct (q2_step _ _ _ _ _ _ _ _ Hs X0 A) as (S1 & S2 & S3 & S4 & _).
  destruct (IH (Nat.pred limit) ltac:(lia)) as [I1 I2]; [|exact S1|].
  { intros l o3 e3 ga3 xb3 A3 L3. apply (HX ((cut_mode sh, (g, b)) :: l) o3 e3 ga3 xb3); [econstructor; eauto|cbn; lia]. }
  split; [exact I1|]. intros H. destruct sh; [destruct (S2 eq_refl) as [_ S2']; lra|]. rewrite (S3 eq_refl) in *. auto.
Qed.
Theorem qc2_run s G opt o (e : Ell F) (ga : F) o' e' (ga' : F) ans k : s <= 1 / 10 -> (-1 <= o < 3)%Z -> qc_level C (ga : f64) ->
  (forall l o1 e1 (ga1 : F) xb1, asked_opt single (tolerance opt) qc2_assess o e ga None l o1 e1 ga1 xb1 -> (length l <= max_iters opt)%nat ->
    tame_run 2 s G e l /\ ((length l < max_iters opt)%nat -> seen (e_xc e1))) ->
  cutting_plane_optim qc2_assess (ell_space single) opt o e ga = Ok (o', e', ga', (ans, k)) ->
  (forall x, ans = Some x -> qc2_good dl (B2R (ga' : f64)) (fcoords x) /\ B2R (ga' : f64) <= 44 / 100) /\
  (k = max_iters opt -> forall z, inbox z /\ reaches2 mu (B2R (ga' : f64) + INR (S k) * drop) z -> fpts 2 e 1 z -> fpts 2 e' (1 + excess s G k) z) /\
  (forall z rad, 0 < rad -> (forall x, ball 2 z rad x -> (inbox x /\ reaches2 mu (B2R (ga' : f64) + INR (S k) * drop) x) /\ fpts 2 e 1 x) ->
    (rad * rad) ^ 2 <= ((1 + excess s G k) ^ 2 * ((1 + s) ^ 2 * exp (- / (INR 2 + 1))) ^ k) * fvol2 2 e).
Proof.
  intros Hs Ho Hg HT E. assert (S0 : q2state o ga) by (split; assumption).
  refine (level_run lm 2 Z qc2_assess q2state (fun ga x => qc2_good dl (B2R (ga : f64)) (fcoords x) /\ B2R (ga : f64) <= 44 / 100) seen (fun t z => inbox z /\ reaches2 mu t z) drop q2_drop _ _ s G opt o e ga o' e' ga' ans k Hs S0 _ E).
  - intros a t z Ha [B1 B2]. split; [exact B1|]. exact (reaches2_less t a z Ha B2).
  - intros o1 x g1 o2 g2 g b sh HS _ Hx A. destruct (q2_step _ _ _ _ _ _ _ _ HS Hx A) as (Q1 & Q2 & Q3 & Q4 & Q5). repeat (split; [assumption|]). intros _ z Hz. exact (Q5 z Hz).
  - intros l o1 e1 ga1 xb1 A HL. destruct (HT _ _ _ _ _ A HL) as [T1 T2]. split; [exact T1|]. split; [|exact T2].
    destruct (q2_level (tolerance opt) (max_iters opt) o e ga None l o1 e1 ga1 xb1 A HL) as [[_ [_ Q]] _]; [|exact S0|exact (proj1 Q)]. intros l2 o2 e2 ga2 xb2 A2 H2. exact (proj2 (HT _ _ _ _ _ A2 (Nat.lt_le_incl _ _ H2)) H2).
Qed.
(** a level above the best value *)
Theorem qc2_too_high_f opt o (e : Ell F) (ga : F) o' e' (ga' : F) ans k : (-1 <= o < 3)%Z -> qc_level C (ga : f64) -> 44 / 100 + drop < B2R (ga : f64) ->
  (forall l o1 e1 (ga1 : F) xb1, asked_opt single (tolerance opt) qc2_assess o e ga None l o1 e1 ga1 xb1 -> (length l < max_iters opt)%nat -> seen (e_xc e1)) ->
  cutting_plane_optim qc2_assess (ell_space single) opt o e ga = Ok (o', e', ga', (ans, k)) -> ans = None /\ ga' = ga.
Proof.
  intros Ho Hg Hh HX E. assert (S0 : q2state o ga) by (split; assumption). apply (optim_asked single (tolerance opt)) in E; [|reflexivity]. inversion E; subst.
  - destruct (q2_level _ (max_iters opt) _ _ _ _ _ _ _ _ _ H ltac:(lia) HX S0) as [S1 S2]. destruct (S2 Hh) as [-> ->]. destruct cut as [g b]. destruct (q2_step _ _ _ _ _ _ _ _ S1 (HX _ _ _ _ _ H H0) H1) as (_ & Q2 & Q3 & Q4 & _).
    destruct sh; [destruct (Q2 eq_refl); lra|auto].
  - destruct (q2_level _ (max_iters opt) _ _ _ _ _ _ _ _ _ H ltac:(lia) HX S0) as [S1 S2]. destruct (S2 Hh) as [-> ->]. auto.
Qed.
End R.
