(** Constructing the lowpass oracle in binary64 and optimising with it: what the answer
    means for the problem with the exact cosines (C112). *)
From Coq Require Import ZArith Reals Lra Lia Psatz List Bool Arith.
From Flocq Require Import Core IEEE754.BinarySingleNaN.
From Verif Require Import Num Res Arr ArrLemmas CuttingPlane EllCalc Ell EllRun Spec RunSpec RealLin FloatLemmas FloatErr KernAcc StepAccSpec StepRunSpec StepRun ParRunSpec ParRun Lowpass LowpassSpec LowpassNew LowAccSpec LowAcc LowAccRun LowNewSpec LowNewAcc.
Import ListNotations.
Local Open Scope R_scope.

(** ** Nearby problems *)
Lemma response_near h X f f' y k : filter_near h f f' -> 0 <= X -> (k < f_m f)%nat -> (forall j, (j < f_n f)%nat -> Rabs (y j) <= X) -> Rabs (response f y k - response f' y k) <= INR (f_n f) * X * h.
Proof.
  intros (E1 & _ & _ & _ & _ & _ & HA) HX Hk Hy. unfold response. rewrite E1. unfold dot. rewrite <- Rsum_minus.
  eapply Rle_trans; [apply Rabs_Rsum|]. assert (G : forall i, (i <= f_n f)%nat -> Rsum i (fun j => Rabs (f_A f k j * y j - f_A f' k j * y j)) <= INR i * X * h).
  { induction i as [|i IH]; intros Hi; [cbn; lra|]. cbn [Rsum]. rewrite S_INR. specialize (IH ltac:(lia)). replace (f_A f k i * y i - f_A f' k i * y i) with ((f_A f k i - f_A f' k i) * y i) by ring. rewrite Rabs_mult.
    pose proof (HA k i Hk ltac:(lia)). pose proof (Hy i ltac:(lia)). pose proof (Rabs_pos (y i)). pose proof (Rabs_pos (f_A f k i - f_A f' k i)). nra. }
  apply G. lia.
Qed.
Lemma near_sym h f f' : filter_near h f f' -> filter_near h f' f.
Proof. intros (A & B & C & D & E & F & G). repeat split; auto. rewrite A, B. intros k j Hk Hj. rewrite Rabs_minus_sym. auto. Qed.
Lemma meets_near h X f f' d sp y : filter_near h f f' -> 0 <= X -> (f_p f <= f_q f <= f_m f)%nat -> (forall j, (j < f_n f)%nat -> Rabs (y j) <= X) -> meets_by f d sp y -> meets_by f' (d - INR (f_n f) * X * h) sp y.
Proof.
  intros HN HX Hpq Hy (M1 & M2 & M3 & M4). pose proof HN as (A & B & C & D & E & F & _). unfold meets_by. rewrite B, C, D, E, F.
  assert (R : forall k, (k < f_m f)%nat -> Rabs (response f y k - response f' y k) <= INR (f_n f) * X * h) by (intros; apply response_near; auto).
  repeat split; try exact M4; intros; match goal with H : context [f_p f] |- _ => idtac | H : context [f_q f] |- _ => idtac end;
    match goal with |- context [response f' y ?k] => specialize (R k ltac:(lia)); apply Rabs_le_inv in R end; try (specialize (M1 _ H)); try (specialize (M2 _ H)); try (specialize (M3 _ H)); lra.
Qed.
Lemma level_near h X f f' d sp y : filter_near h f f' -> 0 <= X -> (forall j, (j < f_n f)%nat -> Rabs (y j) <= X) -> stop_level_by f d y sp -> stop_level_by f' (d + INR (f_n f) * X * h) y sp.
Proof.
  intros HN HX Hy ((k & Hk & L) & U). pose proof HN as (A & B & C & D & _).
  assert (R : forall k, (k < f_m f)%nat -> Rabs (response f y k - response f' y k) <= INR (f_n f) * X * h) by (intros; apply response_near; auto).
  split; rewrite B, D.
  - exists k. split; [exact Hk|]. specialize (R k ltac:(lia)). replace (response f' y k - sp) with ((response f y k - sp) - (response f y k - response f' y k)) by ring. eapply Rle_trans; [apply Rabs_triang|]. rewrite Rabs_Ropp. lra.
  - intros i Hi. specialize (R i ltac:(lia)). specialize (U i Hi). apply Rabs_le_inv in R. lra.
Qed.

Section D.
Variable lm : Libm.
Notation F := (FNum lm).
Notation pair := (parallel_cut (N := F)).
(** ** The constructor *)
Theorem new_f64 n dl (wp ws lp up sp : f64) S : (0 < n)%nat -> (Z.of_nat n <= 2 ^ 20)%Z -> dl <= / 2 -> cos_near lm (4 * INR (n - 1)) dl ->
  is_finite wp = true -> is_finite ws = true -> 0 <= B2R wp -> B2R wp <= B2R ws -> B2R ws < 1 -> level_ok S lp -> level_ok S up -> S <= bpow radix2 200 ->
  exists o p q, lowpass_new (N := F) n wp ws lp up sp = Ok o /\ lw_sp o = sp /\ lw_ok n o /\ lw_fits n o 4 S /\ (lw_nwstop o < Z.of_nat (length (lw_spectrum o)))%Z /\
    (0 < p <= q)%nat /\ (q < 15 * n)%nat /\ band_by (bpow radix2 (-52)) (15 * n) (B2R wp) p /\ band_by (bpow radix2 (-52)) (15 * n) (B2R ws) q /\
    filter_near (coef_eps n dl) (lw_filter n o) (lowpass_problem n p q (B2R lp) (B2R up)).
Proof.
  intros Hn H20 Hdl HC Fp Fs W0 W1 W2 [Fl Bl] [Fu Bu] HS.
  destruct (lowpass_new_any (N := F) n wp ws lp up sp Hn) as (o & E & L & Hr & P & Q & H1 & H2 & H3 & I1 & I2 & I3).
  destruct (band_f64 lm wp (15 * n) ltac:(lia) ltac:(lia) Fp ltac:(lra)) as (p & Ep & Hp & Bp & Zp). destruct (band_f64 lm ws (15 * n) ltac:(lia) ltac:(lia) Fs ltac:(lra)) as (q & Eq & Hq & Bq & Zq).
  change (as_i32 (N := F) _ + 1)%Z with (as_i32 (N := F) (nfloor (n := F) (nmul (n := F) wp (nN (15 * n - 1)))) + 1)%Z in P. rewrite Ep in P.
  change (as_i32 (N := F) _ + 1)%Z with (as_i32 (N := F) (nfloor (n := F) (nmul (n := F) ws (nN (15 * n - 1)))) + 1)%Z in Q. rewrite Eq in Q.
  assert (Hpq : (p <= q)%nat). { apply Nat2Z.inj_le. rewrite Zp, Zq. apply Z.add_le_mono_r. apply Zfloor_le. apply rnd_le. apply Rmult_le_compat_r; [apply pos_INR|lra]. }
  assert (CF : forall k j, (k < 15 * n)%nat -> (j < n)%nat -> let c := vget (nth k (lw_spectrum o) (a_new 0)) j : f64 in fin c = true /\ Rabs (val c - f_A (lowpass_problem n p q (B2R lp) (B2R up)) k j) <= coef_eps n dl /\ Rabs (val c) <= 4).
  { intros k j Hk Hj. destruct (Hr k Hk) as [_ Hv]. rewrite (Hv j Hj). cbv zeta. cbn [f_A lowpass_problem]. exact (coef_near lm n dl Hn H20 Hdl HC k j Hk Hj). }
  assert (OK : lw_ok n o). { unfold lw_ok. rewrite L, I1, I2, I3, P, Q. split; [exact Hn|]. split; [lia|]. split; [|lia]. intros r Hin. apply (In_nth _ _ (a_new 0)) in Hin as (k & Hk & <-). apply Hr. lia. }
  assert (B200 : 1000 <= bpow radix2 200). { apply Rle_trans with (bpow radix2 20); [change (bpow radix2 20) with 1048576; lra|apply bpow_le; lia]. }
  exists o, p, q. split; [exact E|]. split; [exact H3|]. split; [exact OK|]. split; [|split; [rewrite L, Q; lia|split; [lia|split; [lia|split; [exact Bp|split; [exact Bq|]]]]]].
  - split; rewrite ?H1, ?H2; auto; [lia| |lra]. rewrite L. intros k Hk. destruct (Hr k Hk) as [[Ln Cn] _]. split.
    + apply Forall_forall. intros z Hz. apply (In_nth _ _ (n0 (N := F))) in Hz as (j & Hj & <-). rewrite Ln in Hj. exact (proj1 (CF k j Hk Hj)).
    + intros j Hj. exact (proj2 (proj2 (CF k j Hk Hj))).
  - unfold filter_near. cbn [lw_filter lowpass_problem f_n f_m f_p f_q f_lp f_up f_A]. rewrite L, P, Q, !Nat2Z.id, H1, H2. repeat split; auto. intros k j Hk Hj. exact (proj1 (proj2 (CF k j Hk Hj))).
Qed.

(** ** A run *)
Lemma asked_box n X tol limit o (e : Ell F) ga xb l o1 e1 ga1 xb1 : asked_opt pair tol lowpass_assess o e ga xb l o1 e1 ga1 xb1 -> (length l <= limit)%nat ->
  (forall l o1 e1 ga1 xb1, asked_opt pair tol lowpass_assess o e ga xb l o1 e1 ga1 xb1 -> (length l < limit)%nat -> in_box n X (e_xc e1)) ->
  (forall z, xb = Some z -> in_box n X z) -> forall z, xb1 = Some z -> in_box n X z.
Proof.
  intros A. revert limit. induction A as [|o e ga xb oa gaa [g b] sh ea st rest o2 e2 ga2 xb2 A B C D IH]; intros limit HL HX Hb; [auto|]. cbn [length] in HL.
  apply (IH (Nat.pred limit)); [lia| |].
  - intros l o3 e3 ga3 xb3 A3 L3. apply (HX ((cut_mode sh, (g, b)) :: l) o3 e3 ga3 xb3); [econstructor; eauto|cbn; lia].
  - destruct sh; [|exact Hb]. intros z Hz. injection Hz as <-. apply (HX [] o e ga xb); [constructor|cbn; lia].
Qed.
Lemma box_pos n X (x : Arr F) : in_box n X x -> 0 <= X. Proof. intros (_ & _ & A & _). apply A. Qed.
Theorem design_run n dl (wp ws lp up sp : f64) X S s G opt (e : Ell F) : (0 < n)%nat -> (Z.of_nat n <= 2 ^ 20)%Z -> dl <= / 2 -> cos_near lm (4 * INR (n - 1)) dl ->
  is_finite wp = true -> is_finite ws = true -> 0 <= B2R wp -> B2R wp <= B2R ws -> B2R ws < 1 -> level_ok S lp -> level_ok S up -> level_ok S sp -> S <= bpow radix2 200 -> 0 <= X -> s <= 1 / 10 ->
  exists o p q, lowpass_new (N := F) n wp ws lp up sp = Ok o /\ band_by (bpow radix2 (-52)) (15 * n) (B2R wp) p /\ band_by (bpow radix2 (-52)) (15 * n) (B2R ws) q /\ (0 < p <= q)%nat /\ (q < 15 * n)%nat /\
    forall o' e' ga' ans k, let f := lowpass_problem n p q (B2R lp) (B2R up) in let d := design_eps n dl X S in
      (forall l o1 e1 ga1 xb1, asked_opt pair (tolerance opt) lowpass_assess o e (sp : F) None l o1 e1 ga1 xb1 -> (length l <= max_iters opt)%nat ->
        pair_run n s G e l /\ ((length l < max_iters opt)%nat -> in_box n X (e_xc e1))) ->
      cutting_plane_optim lowpass_assess (ell_space pair) opt o e (sp : F) = Ok (o', e', ga', (ans, k)) ->
      (forall z, ans = Some z -> meets_by f (- d) (B2R (ga' : f64)) (fcoords z) /\ stop_level_by f d (fcoords z) (B2R (ga' : f64))) /\
      (k = max_iters opt -> forall z, (forall j, (j < n)%nat -> Rabs (z j) <= X) -> meets_by f d (B2R (ga' : f64)) z -> fpts n e 1 z -> fpts n e' (1 + excess s G k) z) /\
      (forall z r, 0 < r -> (forall x, ball n z r x -> (forall j, (j < n)%nat -> Rabs (x j) <= X) /\ meets_by f d (B2R (ga' : f64)) x /\ fpts n e 1 x) ->
        (r * r) ^ n <= ((1 + excess s G k) ^ n * ((1 + s) ^ n * exp (- / (INR n + 1))) ^ k) * fvol2 n e).
Proof.
  intros Hn H20 Hdl HC Fp Fs W0 W1 W2 Hl Hu Hsp HS HX0 Hs.
  destruct (new_f64 n dl wp ws lp up sp S Hn H20 Hdl HC Fp Fs W0 W1 W2 Hl Hu HS) as (o & p & q & E & Esp & OK & FT & ST & Hpq & Hq & Bp & Bq & NR).
  exists o, p, q. do 5 (split; [assumption|]). intros o' e' ga' ans k f d HT HR.
  destruct (low_run lm n o 4 X S FT ST s G opt e (sp : F) o' e' ga' ans k Hs OK Hsp HT HR) as (R1 & R2 & R3).
  assert (PQ : (f_p (lw_filter n o) <= f_q (lw_filter n o) <= f_m (lw_filter n o))%nat). { destruct NR as (_ & B & C & D & _). fold f in B, C, D. rewrite <- B, <- C, <- D. cbn. lia. }
  assert (PQ2 : (f_p f <= f_q f <= f_m f)%nat) by (cbn; lia).
  assert (BACK : forall y t, (forall j, (j < n)%nat -> Rabs (y j) <= X) -> meets_by f d t y -> meets_by (lw_filter n o) (low_eps n 4 X S) t y).
  { intros y t Hy M. pose proof (meets_near (coef_eps n dl) X f (lw_filter n o) d t y (near_sym _ _ _ NR) HX0 PQ2 Hy M) as M2. replace (low_eps n 4 X S) with (d - INR (f_n f) * X * coef_eps n dl) by (unfold d, design_eps; cbn [f f_n lowpass_problem]; ring). exact M2. }
  split; [|split].
  - intros z Hz. destruct (R1 z Hz) as [M L]. assert (BZ : in_box n X z).
    { assert (HX : forall l o1 e1 ga1 xb1, asked_opt pair (tolerance opt) lowpass_assess o e (sp : F) None l o1 e1 ga1 xb1 -> (length l < max_iters opt)%nat -> in_box n X (e_xc e1)) by (intros l o1 e1 ga1 xb1 A LL; apply (HT l o1 e1 ga1 xb1 A); lia).
      apply (optim_asked pair (tolerance opt)) in HR; [|reflexivity]. inversion HR; subst.
      - match goal with A : asked_opt _ _ _ _ _ _ _ ?l _ _ _ _, HL : (length ?l < _)%nat, EQ : (if ?b then _ else _) = Some z |- _ => destruct b; [injection EQ as <-; exact (HX _ _ _ _ _ A HL)|exact (asked_box n X _ (max_iters opt) _ _ _ _ _ _ _ _ _ A ltac:(lia) HX ltac:(discriminate) z EQ)] end.
      - match goal with A : asked_opt _ _ _ _ _ _ _ _ _ _ _ _ |- _ => exact (asked_box n X _ (max_iters opt) _ _ _ _ _ _ _ _ _ A ltac:(lia) HX ltac:(discriminate) z eq_refl) end. }
    destruct BZ as (_ & _ & _ & BZ). split.
    + pose proof (meets_near _ X _ f _ _ _ NR HX0 PQ BZ M) as M2. replace (- d) with (- low_eps n 4 X S - INR (f_n (lw_filter n o)) * X * coef_eps n dl) by (unfold d, design_eps; cbn [lw_filter f_n]; ring). exact M2.
    + exact (level_near _ X _ f _ _ _ NR HX0 BZ L).
  - intros Hk z Hz M P. apply R2; auto.
  - intros z r Hr HB. apply (R3 z r Hr). intros x Hx. destruct (HB x Hx) as (A & B & C). split; [now apply BACK|exact C].
Qed.
End D.
