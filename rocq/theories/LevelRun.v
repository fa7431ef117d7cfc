(** Runs of cutting_plane_optim in binary64 with any oracle whose level may fall a little
    at each answer and whose cuts keep the wanted points (used for C115, C117). *)
From Coq Require Import ZArith Reals Lra Lia Bool Arith List.
From Flocq Require Import Core IEEE754.BinarySingleNaN.
From Verif Require Import Num Res Arr ArrLemmas CuttingPlane EllCalc Ell EllRun Spec RunSpec FloatLemmas FloatErr StepAccSpec StepRunSpec StepRun.
Import ListNotations.
Local Open Scope R_scope.

Section R.
Variable lm : Libm.
Notation F := (FNum lm).
Notation single := (single_cut (N := F)).
Variables (n : nat) (O : Type) (ass : O -> Arr F -> F -> res (O * F * ((Arr F * SingleCut F) * bool))).
Variables (St : O -> F -> Prop) (Good : F -> Arr F -> Prop) (Q : Arr F -> Prop) (Want : R -> vec -> Prop) (drop : R).
Hypotheses (Hdrop : 0 <= drop) (Hless : forall s t z, s <= t -> Want t z -> Want s z).
Hypothesis Hstep : forall o (x : Arr F) (ga : F) o' (ga' : F) g b sh, St o ga -> 0 <= B2R (ga : f64) -> Q x -> ass o x ga = Ok (o', ga', ((g, b), sh)) ->
  St o' ga' /\ (sh = true -> Good ga' x) /\ (sh = false -> ga' = ga) /\ B2R (ga : f64) <= B2R (ga' : f64) + drop /\
  (0 <= B2R (ga' : f64) -> forall z, Want (B2R (ga' : f64)) z -> along n (fcoords g) z (fcoords x) + foff (cut_mode sh) b <= 0).
Definition lbest (ga : F) (xb : option (Arr F)) : Prop := forall x, xb = Some x -> Good ga x.
Lemma lstep o (x : Arr F) (ga : F) xb o' (ga' : F) g b sh : St o ga -> lbest ga xb -> 0 <= B2R (ga : f64) -> Q x -> ass o x ga = Ok (o', ga', ((g, b), sh)) ->
  St o' ga' /\ lbest ga' (if sh then Some x else xb) /\ B2R (ga : f64) <= B2R (ga' : f64) + drop /\
  (0 <= B2R (ga' : f64) -> forall z, Want (B2R (ga' : f64)) z -> along n (fcoords g) z (fcoords x) + foff (cut_mode sh) b <= 0).
Proof.
  intros A HB G0 Hx E. destruct (Hstep _ _ _ _ _ _ _ _ A G0 Hx E) as (S1 & S2 & S3 & S4 & S5). split; [exact S1|]. split; [|split; [exact S4|exact S5]].
  destruct sh; intros u Hu; [injection Hu as <-; now apply S2|]. rewrite (S3 eq_refl). now apply HB.
Qed.
Lemma l_asked tol limit o (e : Ell F) (ga : F) xb l o1 e1 (ga1 : F) xb1 : asked_opt single tol ass o e ga xb l o1 e1 ga1 xb1 -> (length l <= limit)%nat ->
  (forall l o1 e1 (ga1 : F) xb1, asked_opt single tol ass o e ga xb l o1 e1 ga1 xb1 -> (length l <= limit)%nat -> 0 <= B2R (ga1 : f64) /\ ((length l < limit)%nat -> Q (e_xc e1))) ->
  St o ga -> lbest ga xb -> St o1 ga1 /\ lbest ga1 xb1 /\ B2R (ga : f64) <= B2R (ga1 : f64) + INR (length l) * drop /\
  forall t z, B2R (ga1 : f64) + INR (length l) * drop <= t -> Want t z -> satisfies n z e l.
Proof.
  intros A. revert limit. induction A as [|o e ga xb oa gaa [g b] sh ea st rest o2 e2 ga2 xb2 A B C D IH]; intros limit HL' HX Hs Hb.
  { cbn [length INR satisfies]. split; [exact Hs|]. split; [exact Hb|]. split; [lra|auto]. }
  assert (LE : INR (length ((cut_mode sh, (g, b)) :: rest)) = INR (length rest) + 1) by (cbn [length]; apply S_INR). rewrite LE. cbn [length] in HL'. pose proof Hdrop as DN.
  destruct (HX [] o e ga xb ltac:(constructor) ltac:(cbn; lia)) as [G0 X0]. specialize (X0 ltac:(cbn; lia)). destruct (lstep _ _ _ _ _ _ _ _ _ Hs Hb G0 X0 A) as (S1 & S2 & S3 & S4).
  assert (HX' : forall l o1 e1 (ga1 : F) xb1, asked_opt single tol ass oa ea gaa (if sh then Some (e_xc e) else xb) l o1 e1 ga1 xb1 -> (length l <= Nat.pred limit)%nat -> 0 <= B2R (ga1 : f64) /\ ((length l < Nat.pred limit)%nat -> Q (e_xc e1))).
  { intros l o3 e3 ga3 xb3 A3 L3. destruct (HX ((cut_mode sh, (g, b)) :: l) o3 e3 ga3 xb3) as [Q1 Q2]; [econstructor; eauto|cbn; lia|]. split; [exact Q1|]. intros Q'. apply Q2. cbn. lia. }
  destruct (HX' [] oa ea gaa _ ltac:(constructor) ltac:(cbn; lia)) as [G1 _]. destruct (IH (Nat.pred limit) ltac:(lia) HX' S1 S2) as (I1 & I2 & I3 & I4).
  split; [exact I1|]. split; [exact I2|]. split; [lra|]. intros t z Ht Hz. cbn [satisfies]. split.
  - apply S4; auto. apply Hless with t; [|exact Hz]. pose proof (pos_INR (length rest)). assert (0 <= INR (length rest) * drop) by (apply Rmult_le_pos; lra). lra.
  - intros e' st' E. rewrite B in E. inversion E; subst. apply I4 with t; auto. lra.
Qed.
Theorem level_run s G opt (o : O) (e : Ell F) (ga : F) o' e' (ga' : F) ans k : s <= 1 / 10 -> St o ga ->
  (forall l o1 e1 (ga1 : F) xb1, asked_opt single (tolerance opt) ass o e ga None l o1 e1 ga1 xb1 -> (length l <= max_iters opt)%nat ->
    tame_run n s G e l /\ 0 <= B2R (ga1 : f64) /\ ((length l < max_iters opt)%nat -> Q (e_xc e1))) ->
  cutting_plane_optim ass (ell_space single) opt o e ga = Ok (o', e', ga', (ans, k)) ->
  (forall x, ans = Some x -> Good ga' x) /\
  (k = max_iters opt -> forall z, Want (B2R (ga' : f64) + INR (S k) * drop) z -> fpts n e 1 z -> fpts n e' (1 + excess s G k) z) /\
  (forall z r, 0 < r -> (forall x, ball n z r x -> Want (B2R (ga' : f64) + INR (S k) * drop) x /\ fpts n e 1 x) ->
    (r * r) ^ n <= ((1 + excess s G k) ^ n * ((1 + s) ^ n * exp (- / (INR n + 1))) ^ k) * fvol2 n e).
Proof.
  intros Hs G0 HT E. assert (B0 : lbest ga None) by (intros z; discriminate).
  assert (HX : forall l o1 e1 (ga1 : F) xb1, asked_opt single (tolerance opt) ass o e ga None l o1 e1 ga1 xb1 -> (length l <= max_iters opt)%nat -> 0 <= B2R (ga1 : f64) /\ ((length l < max_iters opt)%nat -> Q (e_xc e1))).
  { intros l o1 e1 ga1 xb1 A HL'. destruct (HT _ _ _ _ _ A HL') as (_ & Q1 & Q2). auto. }
  assert (HT' : forall l o1 e1 (ga1 : F) xb1, asked_opt single (tolerance opt) ass o e ga None l o1 e1 ga1 xb1 -> (length l <= max_iters opt)%nat -> tame_run n s G e l) by (intros l o1 e1 ga1 xb1 A HL'; exact (proj1 (HT _ _ _ _ _ A HL'))).
  apply (optim_asked single (tolerance opt)) in E; [|reflexivity]. pose proof Hdrop as DN.
  assert (KP : forall l o1 e1 (ga1 : F) xb1 t, asked_opt single (tolerance opt) ass o e ga None l o1 e1 ga1 xb1 -> (length l <= max_iters opt)%nat -> B2R (ga1 : f64) + INR (length l) * drop <= t ->
    forall z, Want t z -> fpts n e 1 z -> fpts n e1 (1 + excess s G (length l)) z).
  { intros l o1 e1 ga1 xb1 t A HL' Ht z Hz Hp. destruct (asked_opt_run single _ _ _ _ _ _ _ _ _ _ _ A) as [log R]. destruct (l_asked _ _ _ _ _ _ _ _ _ _ _ A HL' HX G0 B0) as (_ & _ & _ & SA).
    pose proof (run_keeps lm n s G l Hs e e1 log 0 z R (HT' _ _ _ _ _ A HL') (SA t z Ht Hz) ltac:(lra)) as K. rewrite Rmult_0_r, Rplus_0_l, Rplus_0_r in K. apply K. exact Hp. }
  assert (CP : forall l o1 e1 (ga1 : F) xb1 t, asked_opt single (tolerance opt) ass o e ga None l o1 e1 ga1 xb1 -> (length l <= max_iters opt)%nat -> B2R (ga1 : f64) + INR (length l) * drop <= t ->
    forall z r, 0 < r -> (forall x, ball n z r x -> Want t x /\ fpts n e 1 x) ->
    (r * r) ^ n <= ((1 + excess s G (length l)) ^ n * ((1 + s) ^ n * exp (- / (INR n + 1))) ^ length l) * fvol2 n e).
  { intros l o1 e1 ga1 xb1 t A HL' Ht z r Hr HB. destruct (asked_opt_run single _ _ _ _ _ _ _ _ _ _ _ A) as [log R]. destruct (l_asked _ _ _ _ _ _ _ _ _ _ _ A HL' HX G0 B0) as (_ & _ & _ & SA).
    apply (run_count lm n s G l e e1 log z r Hs R (HT' _ _ _ _ _ A HL') Hr). intros x Hx. destruct (HB x Hx) as (Q2 & Q3). split; [exact Q3|exact (SA t x Ht Q2)]. }
  inversion E; subst.
  - destruct (l_asked _ (max_iters opt) _ _ _ _ _ _ _ _ _ H ltac:(lia) HX G0 B0) as (S1 & S2 & S3 & _). destruct cut as [g b]. destruct (HX _ _ _ _ _ H ltac:(lia)) as [Q1 Q2]. destruct (lstep _ _ _ _ _ _ _ _ _ S1 S2 Q1 (Q2 H0) H1) as (_ & PB & PD & _).
    split; [exact PB|]. split; [intros; lia|]. apply (CP l o1 e1 ga1 xb1); auto; [lia|]. rewrite S_INR. lra.
  - destruct (l_asked _ (max_iters opt) _ _ _ _ _ _ _ _ _ H ltac:(lia) HX G0 B0) as (S1 & S2 & S3 & _). match goal with H : length _ = max_iters _ |- _ => rewrite <- H in * end. split; [exact S2|].
    split; [intros _; apply (KP l o' e' ga' ans)|apply (CP l o' e' ga' ans)]; auto; rewrite S_INR; lra.
Qed.
End R.
