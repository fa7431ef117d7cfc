(** Runs of cutting_plane_optim in binary64 with any oracle whose level never falls and whose
    cuts keep the wanted points; the level may be infinite (used for C119).  Likewise for cutting_plane_feas. *)
From Coq Require Import ZArith Reals Lra Lia Bool Arith List.
From Flocq Require Import Core IEEE754.BinarySingleNaN.
From Verif Require Import Num Res Arr ArrLemmas CuttingPlane EllCalc Ell EllRun Spec RunSpec FloatLemmas FloatErr StepAccSpec StepRunSpec StepRun.
Import ListNotations.
Local Open Scope R_scope.

Section R.
Variable lm : Libm.
Notation F := (FNum lm).
Notation single := (single_cut (N := F)).
Variables (n : nat) (O : Type) (ass : O -> Arr F -> F -> res (O * F * ((Arr F * SingleCut F) * bool))).
Variables (St : O -> F -> Prop) (Good : F -> Arr F -> Prop) (Q : Arr F -> Prop) (Want : F -> vec -> Prop).
Hypothesis Hstep : forall o (x : Arr F) (ga : F) o' (ga' : F) g b sh, St o ga -> Q x -> ass o x ga = Ok (o', ga', ((g, b), sh)) ->
  St o' ga' /\ (sh = true -> Good ga' x) /\ (sh = false -> ga' = ga) /\ (forall z, Want ga' z -> Want ga z) /\
  (forall z, Want ga' z -> along n (fcoords g) z (fcoords x) + foff (cut_mode sh) b <= 0).
Variable ga0 : F.
Definition mbest (ga : F) (xb : option (Arr F)) : Prop := (forall x, xb = Some x -> Good ga x) /\ (xb = None -> ga = ga0).
Lemma mstep o (x : Arr F) (ga : F) xb o' (ga' : F) g b sh : St o ga -> mbest ga xb -> Q x -> ass o x ga = Ok (o', ga', ((g, b), sh)) ->
  St o' ga' /\ mbest ga' (if sh then Some x else xb) /\ (forall z, Want ga' z -> Want ga z) /\
  (forall z, Want ga' z -> along n (fcoords g) z (fcoords x) + foff (cut_mode sh) b <= 0).
Proof.
  intros A HB Hx E. destruct (Hstep _ _ _ _ _ _ _ _ A Hx E) as (S1 & S2 & S3 & S4 & S5). split; [exact S1|]. split; [|split; [exact S4|exact S5]].
  destruct sh; [split; [intros u Hu; injection Hu as <-; now apply S2|discriminate]|]. rewrite (S3 eq_refl). exact HB.
Qed.
Lemma m_asked tol limit o (e : Ell F) (ga : F) xb l o1 e1 (ga1 : F) xb1 : asked_opt single tol ass o e ga xb l o1 e1 ga1 xb1 -> (length l <= limit)%nat ->
  (forall l o1 e1 (ga1 : F) xb1, asked_opt single tol ass o e ga xb l o1 e1 ga1 xb1 -> (length l < limit)%nat -> Q (e_xc e1)) ->
  St o ga -> mbest ga xb -> St o1 ga1 /\ mbest ga1 xb1 /\ (forall z, Want ga1 z -> Want ga z) /\ (forall z, Want ga1 z -> satisfies n z e l).
Proof.
  intros A. revert limit. induction A as [|o e ga xb oa gaa [g b] sh ea st rest o2 e2 ga2 xb2 A B C D IH]; intros limit HL' HX Hs Hb.
  { cbn [satisfies]. auto. }
  cbn [length] in HL'.
  pose proof (HX [] o e ga xb ltac:(constructor) ltac:(cbn; lia)) as X0. destruct (mstep _ _ _ _ _ _ _ _ _ Hs Hb X0 A) as (S1 & S2 & S3 & S4).
  assert (HX' : forall l o1 e1 (ga1 : F) xb1, asked_opt single tol ass oa ea gaa (if sh then Some (e_xc e) else xb) l o1 e1 ga1 xb1 -> (length l < Nat.pred limit)%nat -> Q (e_xc e1)).
  { intros l o3 e3 ga3 xb3 A3 L3. apply (HX ((cut_mode sh, (g, b)) :: l) o3 e3 ga3 xb3); [econstructor; eauto|cbn; lia]. }
  destruct (IH (Nat.pred limit) ltac:(lia) HX' S1 S2) as (I1 & I2 & I3 & I4).
  split; [exact I1|]. split; [exact I2|]. split; [auto|]. intros z Hz. cbn [satisfies]. split; [apply S4; auto|].
  intros e' st' E. rewrite B in E. inversion E; subst. auto.
Qed.
(** what needs the query points only *)
Theorem mono_values opt (o : O) (e : Ell F) (ga : F) o' e' (ga' : F) ans k : ga = ga0 -> St o ga ->
  (forall l o1 e1 (ga1 : F) xb1, asked_opt single (tolerance opt) ass o e ga None l o1 e1 ga1 xb1 -> (length l < max_iters opt)%nat -> Q (e_xc e1)) ->
  cutting_plane_optim ass (ell_space single) opt o e ga = Ok (o', e', ga', (ans, k)) -> St o' ga' /\ mbest ga' ans.
Proof.
  intros Hg0 G0 HX E. assert (B0 : mbest ga None) by (split; [intros z; discriminate|auto]). apply (optim_asked single (tolerance opt)) in E; [|reflexivity]. inversion E; subst.
  - destruct (m_asked _ (max_iters opt) _ _ _ _ _ _ _ _ _ H ltac:(lia) HX G0 B0) as (S1 & S2 & _). destruct cut as [g b]. destruct (mstep _ _ _ _ _ _ _ _ _ S1 S2 (HX _ _ _ _ _ H H0) H1) as (T1 & T2 & _). auto.
  - destruct (m_asked _ (max_iters opt) _ _ _ _ _ _ _ _ _ H ltac:(lia) HX G0 B0) as (S1 & S2 & _). auto.
Qed.
Theorem mono_run_at s G opt (o : O) (e : Ell F) (ga : F) o' e' (ga' : F) ans k : ga = ga0 -> s <= 1 / 10 -> St o ga ->
  (forall l o1 e1 (ga1 : F) xb1, asked_opt single (tolerance opt) ass o e ga None l o1 e1 ga1 xb1 -> (length l <= max_iters opt)%nat ->
    tame_run n s G e l /\ ((length l < max_iters opt)%nat -> Q (e_xc e1))) ->
  cutting_plane_optim ass (ell_space single) opt o e ga = Ok (o', e', ga', (ans, k)) ->
  (St o' ga' /\ forall z, Want ga' z -> Want ga z) /\
  mbest ga' ans /\
  (k = max_iters opt -> forall z, Want ga' z -> fpts n e 1 z -> fpts n e' (1 + excess s G k) z) /\
  (forall z r, 0 < r -> (forall x, ball n z r x -> Want ga' x /\ fpts n e 1 x) ->
    (r * r) ^ n <= ((1 + excess s G k) ^ n * ((1 + s) ^ n * exp (- / (INR n + 1))) ^ k) * fvol2 n e).
Proof.
  intros Hg0 Hs G0 HT E. assert (B0 : mbest ga None) by (split; [intros z; discriminate|auto]).
  assert (HX : forall l o1 e1 (ga1 : F) xb1, asked_opt single (tolerance opt) ass o e ga None l o1 e1 ga1 xb1 -> (length l < max_iters opt)%nat -> Q (e_xc e1)).
  { intros l o1 e1 ga1 xb1 A HL'. exact (proj2 (HT _ _ _ _ _ A (Nat.lt_le_incl _ _ HL')) HL'). }
  assert (HT' : forall l o1 e1 (ga1 : F) xb1, asked_opt single (tolerance opt) ass o e ga None l o1 e1 ga1 xb1 -> (length l <= max_iters opt)%nat -> tame_run n s G e l) by (intros l o1 e1 ga1 xb1 A HL'; exact (proj1 (HT _ _ _ _ _ A HL'))).
  apply (optim_asked single (tolerance opt)) in E; [|reflexivity].
  assert (KP : forall l o1 e1 (ga1 : F) xb1, asked_opt single (tolerance opt) ass o e ga None l o1 e1 ga1 xb1 -> (length l <= max_iters opt)%nat ->
    forall z, Want ga1 z -> fpts n e 1 z -> fpts n e1 (1 + excess s G (length l)) z).
  { intros l o1 e1 ga1 xb1 A HL' z Hz Hp. destruct (asked_opt_run single _ _ _ _ _ _ _ _ _ _ _ A) as [log R]. destruct (m_asked _ _ _ _ _ _ _ _ _ _ _ A HL' HX G0 B0) as (_ & _ & _ & SA).
    pose proof (run_keeps lm n s G l Hs e e1 log 0 z R (HT' _ _ _ _ _ A HL') (SA z Hz) ltac:(lra)) as K. rewrite Rmult_0_r, Rplus_0_l, Rplus_0_r in K. apply K. exact Hp. }
  assert (CP : forall l o1 e1 (ga1 ga2 : F) xb1, asked_opt single (tolerance opt) ass o e ga None l o1 e1 ga1 xb1 -> (length l <= max_iters opt)%nat -> (forall z, Want ga2 z -> Want ga1 z) ->
    forall z r, 0 < r -> (forall x, ball n z r x -> Want ga2 x /\ fpts n e 1 x) ->
    (r * r) ^ n <= ((1 + excess s G (length l)) ^ n * ((1 + s) ^ n * exp (- / (INR n + 1))) ^ length l) * fvol2 n e).
  { intros l o1 e1 ga1 ga2 xb1 A HL' Ht z r Hr HB. destruct (asked_opt_run single _ _ _ _ _ _ _ _ _ _ _ A) as [log R]. destruct (m_asked _ _ _ _ _ _ _ _ _ _ _ A HL' HX G0 B0) as (_ & _ & _ & SA).
    apply (run_count lm n s G l e e1 log z r Hs R (HT' _ _ _ _ _ A HL') Hr). intros x Hx. destruct (HB x Hx) as (Q2 & Q3). split; [exact Q3|exact (SA x (Ht x Q2))]. }
  inversion E; subst.
  - destruct (m_asked _ (max_iters opt) _ _ _ _ _ _ _ _ _ H ltac:(lia) HX G0 B0) as (S1 & S2 & S3 & _). destruct cut as [g b]. destruct (mstep _ _ _ _ _ _ _ _ _ S1 S2 (HX _ _ _ _ _ H H0) H1) as (PS & PB & PD & _).
    split; [split; [exact PS|auto]|]. split; [exact PB|]. split; [intros; lia|]. apply (CP l o1 e1 ga1 ga' xb1); auto; lia.
  - destruct (m_asked _ (max_iters opt) _ _ _ _ _ _ _ _ _ H ltac:(lia) HX G0 B0) as (S1 & S2 & S3 & _). match goal with H : length _ = max_iters _ |- _ => rewrite <- H in * end. split; [auto|]. split; [exact S2|].
    split; [intros _; apply (KP l o' e' ga' ans)|apply (CP l o' e' ga' ga' ans)]; auto.
Qed.
End R.

Section Fs.
Variable lm : Libm.
Notation F := (FNum lm).
Notation single := (single_cut (N := F)).
Variables (n : nat) (O : Type) (ora : OracleFeas F (Arr F) (SingleCut F) O).
Variables (St : O -> Prop) (Good : Arr F -> Prop) (Q : Arr F -> Prop) (Want : vec -> Prop).
Hypothesis Hstep : forall o (x : Arr F) o' r, St o -> Q x -> of_assess ora o x = Ok (o', r) ->
  St o' /\ (r = None -> Good x) /\ (forall g b, r = Some (g, b) -> forall z, Want z -> along n (fcoords g) z (fcoords x) + B2R (sc_beta b : f64) <= 0).
Lemma f_asked tol limit o (e : Ell F) l o1 e1 : asked single tol ora o e l o1 e1 -> (length l <= limit)%nat ->
  (forall l o1 e1, asked single tol ora o e l o1 e1 -> (length l < limit)%nat -> Q (e_xc e1)) ->
  St o -> St o1 /\ (forall z, Want z -> satisfies n z e l).
Proof.
  intros A. revert limit. induction A as [|o e oa [g b] ea st rest o2 e2 A B C D IH]; intros limit HL' HX Hs.
  { cbn [satisfies]. auto. }
  cbn [length] in HL'.
  pose proof (HX [] o e ltac:(constructor) ltac:(cbn; lia)) as X0. destruct (Hstep _ _ _ _ Hs X0 A) as (S1 & S2 & S3).
  destruct (IH (Nat.pred limit) ltac:(lia)) as (I1 & I2); [|exact S1|].
  { intros l o3 e3 A3 L3. apply (HX ((Bias, (g, b)) :: l) o3 e3); [econstructor; eauto|cbn; lia]. }
  split; [exact I1|]. intros z Hz. cbn [satisfies]. split; [exact (S3 g b eq_refl z Hz)|].
  intros e' st' E. rewrite B in E. inversion E; subst. auto.
Qed.
Theorem feas_run_in s G opt (o : O) (e : Ell F) o' e' ans k : s <= 1 / 10 -> St o ->
  (forall l o1 e1, asked single (tolerance opt) ora o e l o1 e1 -> (length l <= max_iters opt)%nat ->
    tame_run n s G e l /\ ((length l < max_iters opt)%nat -> Q (e_xc e1))) ->
  cutting_plane_feas ora (ell_space single) opt o e = Ok (o', e', (ans, k)) ->
  (forall x, ans = Some x -> Good x) /\
  (ans <> None \/ k = max_iters opt -> forall z, Want z -> fpts n e 1 z -> fpts n e' (1 + excess s G k) z) /\
  (forall z r, 0 < r -> (forall x, ball n z r x -> Want x /\ fpts n e 1 x) ->
    (r * r) ^ n <= ((1 + excess s G k) ^ n * ((1 + s) ^ n * exp (- / (INR n + 1))) ^ k) * fvol2 n e).
Proof.
  intros Hs G0 HT E.
  assert (HX : forall l o1 e1, asked single (tolerance opt) ora o e l o1 e1 -> (length l < max_iters opt)%nat -> Q (e_xc e1)).
  { intros l o1 e1 A HL'. exact (proj2 (HT _ _ _ A (Nat.lt_le_incl _ _ HL')) HL'). }
  assert (HT' : forall l o1 e1, asked single (tolerance opt) ora o e l o1 e1 -> (length l <= max_iters opt)%nat -> tame_run n s G e l) by (intros l o1 e1 A HL'; exact (proj1 (HT _ _ _ A HL'))).
  apply (feas_asked single (tolerance opt)) in E; [|reflexivity].
  assert (KP : forall l o1 e1, asked single (tolerance opt) ora o e l o1 e1 -> (length l <= max_iters opt)%nat -> forall z, Want z -> fpts n e 1 z -> fpts n e1 (1 + excess s G (length l)) z).
  { intros l o1 e1 A HL z Hz Hp. destruct (asked_run single _ _ _ _ _ _ _ A) as [log R]. destruct (f_asked _ _ _ _ _ _ _ A HL HX G0) as (_ & SA).
    pose proof (run_keeps lm n s G l Hs e e1 log 0 z R (HT' _ _ _ A HL) (SA z Hz) ltac:(lra)) as K. rewrite Rmult_0_r, Rplus_0_l, Rplus_0_r in K. apply K. exact Hp. }
  assert (CP : forall l o1 e1, asked single (tolerance opt) ora o e l o1 e1 -> (length l <= max_iters opt)%nat -> forall z r, 0 < r -> (forall x, ball n z r x -> Want x /\ fpts n e 1 x) ->
    (r * r) ^ n <= ((1 + excess s G (length l)) ^ n * ((1 + s) ^ n * exp (- / (INR n + 1))) ^ length l) * fvol2 n e).
  { intros l o1 e1 A HL z r Hr HB. destruct (asked_run single _ _ _ _ _ _ _ A) as [log R]. destruct (f_asked _ _ _ _ _ _ _ A HL HX G0) as (_ & SA).
    apply (run_count lm n s G l e e1 log z r Hs R (HT' _ _ _ A HL) Hr). intros x Hx. destruct (HB x Hx) as (Q2 & Q3). split; [exact Q3|exact (SA x Q2)]. }
  inversion E; subst.
  - destruct (f_asked _ (max_iters opt) _ _ _ _ _ H ltac:(lia) HX G0) as (S1 & _). destruct (Hstep _ _ _ _ S1 (HX _ _ _ H H0) H1) as (_ & S2 & _).
    split; [intros x Hx; injection Hx as <-; now apply S2|]. split; [intros _|]; [eapply KP|eapply CP]; eauto; lia.
  - split; [intros; discriminate|]. split; [intros [H'|H']; [congruence|lia]|]. eapply CP; eauto; lia.
  - match goal with H : length _ = max_iters _ |- _ => rewrite <- H end. split; [intros; discriminate|]. split; [intros _|]; [eapply KP|eapply CP]; eauto; lia.
Qed.
End Fs.
