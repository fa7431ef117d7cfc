(** Runs with the lowpass oracle in binary64 (C111). *)
From Coq Require Import ZArith Reals Lra Lia Bool Arith List.
From Flocq Require Import Core IEEE754.BinarySingleNaN.
From Verif Require Import Num Res Arr ArrLemmas CuttingPlane EllCalc Ell EllRun Spec RunSpec FloatLemmas StepAccSpec StepRunSpec StepRun ParRunSpec ParRun Lowpass LowpassSpec LowAccSpec LowAcc.
Import ListNotations.
Local Open Scope R_scope.

Section R.
Variable lm : Libm.
Notation F := (FNum lm).
Notation pair := (parallel_cut (N := F)).
Variables (n : nat) (o0 : Lowpass F) (W X S : R).
Hypotheses (Hf : lw_fits n o0 W S) (Hq : (lw_nwstop o0 < Z.of_nat (length (lw_spectrum o0)))%Z).
Notation f := (lw_filter n o0).
Notation eps := (low_eps n W X S).
Lemma same_filter o : lw_same o0 o -> lw_filter n o = f.
Proof. intros (A & B & C & D & E). unfold lw_filter. now rewrite A, B, C, D, E. Qed.
Lemma same_fits o : lw_same o0 o -> lw_fits n o W S.
Proof. intros (A & B & C & D & E). destruct Hf. split; rewrite ?A, ?D, ?E; auto. Qed.
Lemma same_trans (o o' : Lowpass F) : lw_same o0 o -> lw_same o o' -> lw_same o0 o'.
Proof. intros (A & B & C & D & E) (A' & B' & C' & D' & E'). repeat split; congruence. Qed.
Definition good_state (o : Lowpass F) (ga : F) : Prop := lw_ok n o /\ lw_same o0 o /\ level_ok S ga.
Definition good_best (ga : F) (xb : option (Arr F)) : Prop := forall z, xb = Some z -> meets_by f (- eps) (B2R (ga : f64)) (fcoords z) /\ stop_level_by f eps (fcoords z) (B2R (ga : f64)).
Lemma good_step o (x : Arr F) ga xb o' ga' g c sh : good_state o ga -> good_best ga xb -> in_box n X x -> lowpass_assess o x ga = Ok (o', ga', ((g, c), sh)) ->
  good_state o' ga' /\ good_best ga' (if sh then Some x else xb) /\ B2R (ga' : f64) <= B2R (ga : f64) /\ forall y, meets_by f eps (B2R (ga' : f64)) y -> in_slab n (cut_mode sh) g c y (fcoords x).
Proof.
  intros (A & B & C) HB Hx E. assert (Hq' : (lw_nwstop o < Z.of_nat (length (lw_spectrum o)))%Z). { destruct B as (B1 & _ & B3 & _). rewrite B1, B3. exact Hq. }
  destruct (low_assess lm n o x ga W X S A (same_fits o B) Hx C Hq') as (o1 & ga1 & g1 & c1 & sh1 & E1 & O & Sm & L & M & P1 & P2 & P3).
  rewrite E in E1. inversion E1; subst o1 ga1 g1 c1 sh1. rewrite (same_filter o B) in *. split; [split; [exact O|split; [now apply same_trans with o|exact L]]|]. split; [|split; [exact M|exact P3]].
  destruct sh; intros z Hz; [injection Hz as <-; now apply P2|]. destruct (P1 eq_refl) as [-> _]. now apply HB.
Qed.
Lemma low_asked tol limit o (e : Ell F) ga xb l o1 e1 ga1 xb1 : asked_opt pair tol lowpass_assess o e ga xb l o1 e1 ga1 xb1 -> (length l <= limit)%nat ->
  (forall l o1 e1 ga1 xb1, asked_opt pair tol lowpass_assess o e ga xb l o1 e1 ga1 xb1 -> (length l < limit)%nat -> in_box n X (e_xc e1)) ->
  good_state o ga -> good_best ga xb -> good_state o1 ga1 /\ good_best ga1 xb1.
Proof.
  intros A. revert limit. induction A as [|o e ga xb oa gaa [g b] sh ea st rest o2 e2 ga2 xb2 A B C D IH]; intros limit HL HX Hs Hb; [auto|]. cbn [length] in HL.
  assert (X0 : in_box n X (e_xc e)) by (apply (HX [] o e ga xb); [constructor|cbn; lia]). destruct (good_step _ _ _ _ _ _ _ _ _ Hs Hb X0 A) as (S1 & S2 & _).
  apply (IH (Nat.pred limit)); [lia| |exact S1|exact S2]. intros l o3 e3 ga3 xb3 A3 L3. apply (HX ((cut_mode sh, (g, b)) :: l) o3 e3 ga3 xb3); [econstructor; eauto|cbn; lia].
Qed.
Lemma low_pairs : opt_pairs n (fun o x ga => good_state o ga /\ in_box n X x) (fun y ga => meets_by f eps (B2R (ga : f64)) y) lowpass_assess.
Proof.
  intros o x ga o' ga' g b sh [HS HX] E. destruct (good_step o x ga None o' ga' g b sh HS ltac:(intros z; discriminate) HX E) as (_ & _ & M & P). split; [|exact P].
  intros y (Y1 & Y2 & Y3 & Y4). split; [exact Y1|]. split; [exact Y2|]. split; [|exact Y4]. intros k Hk. specialize (Y3 k Hk). lra.
Qed.
Theorem low_run s G opt (e : Ell F) ga o' e' ga' ans k : s <= 1 / 10 -> lw_ok n o0 -> level_ok S ga ->
  (forall l o1 e1 ga1 xb1, asked_opt pair (tolerance opt) lowpass_assess o0 e ga None l o1 e1 ga1 xb1 -> (length l <= max_iters opt)%nat ->
    pair_run n s G e l /\ ((length l < max_iters opt)%nat -> in_box n X (e_xc e1))) ->
  cutting_plane_optim lowpass_assess (ell_space pair) opt o0 e ga = Ok (o', e', ga', (ans, k)) ->
  (forall z, ans = Some z -> meets_by f (- eps) (B2R (ga' : f64)) (fcoords z) /\ stop_level_by f eps (fcoords z) (B2R (ga' : f64))) /\
  (k = max_iters opt -> forall z, meets_by f eps (B2R (ga' : f64)) z -> fpts n e 1 z -> fpts n e' (1 + excess s G k) z) /\
  (forall z r, 0 < r -> (forall x, ball n z r x -> meets_by f eps (B2R (ga' : f64)) x /\ fpts n e 1 x) ->
    (r * r) ^ n <= ((1 + excess s G k) ^ n * ((1 + s) ^ n * exp (- / (INR n + 1))) ^ k) * fvol2 n e).
Proof.
  intros Hs Ho Hl HT E.
  assert (G0 : good_state o0 ga) by (split; [exact Ho|split; [repeat split|exact Hl]]). assert (B0 : good_best ga None) by (intros z; discriminate).
  assert (HX : forall l o1 e1 ga1 xb1, asked_opt pair (tolerance opt) lowpass_assess o0 e ga None l o1 e1 ga1 xb1 -> (length l < max_iters opt)%nat -> in_box n X (e_xc e1)) by (intros l o1 e1 ga1 xb1 A L; apply (HT l o1 e1 ga1 xb1 A); lia).
  split.
  - pose proof E as E'. apply (optim_asked pair (tolerance opt)) in E'; [|reflexivity]. inversion E'; subst.
    + destruct (low_asked _ (max_iters opt) _ _ _ _ _ _ _ _ _ H ltac:(lia) HX G0 B0) as [S1 S2]. destruct cut as [g c]. destruct (good_step _ _ _ _ _ _ _ _ _ S1 S2 (HX _ _ _ _ _ H H0) H1) as (_ & Q & _). exact Q.
    + destruct (low_asked _ (max_iters opt) _ _ _ _ _ _ _ _ _ H ltac:(lia) HX G0 B0) as [S1 S2]. exact S2.
  - apply (optim_pairs_run lm n _ _ s G lowpass_assess opt o0 e ga o' e' ga' ans k Hs low_pairs); [|exact E].
    intros l o1 e1 ga1 xb1 A L. destruct (HT l o1 e1 ga1 xb1 A L) as [P Q]. split; [exact P|]. intros L2. split; [|exact (Q L2)]. exact (proj1 (low_asked _ (max_iters opt) _ _ _ _ _ _ _ _ _ A L HX G0 B0)).
Qed.
End R.
