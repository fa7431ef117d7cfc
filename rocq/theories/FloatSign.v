(** Signs of binary64 results, and the square root of a rounded square. *)
From Coq Require Import ZArith Reals Lra Lia Bool Psatz.
From Flocq Require Import Core IEEE754.BinarySingleNaN.
From Verif Require Import Num FloatLemmas.
Local Open Scope R_scope.

(** sign bit clear; NaN counts as clear *)
Notation plus x := (@Bsign fprec femax x = false).

Lemma overflow_sign (x : f64) b : B2SF x = binary_overflow fprec femax mode_NE b -> Bsign x = b.
Proof. destruct x; cbn; intros H; try discriminate H; inversion H; auto. Qed.

Lemma mul_plus (x y : f64) : plus x -> plus y -> plus (fmul x y).
Proof.
  intros Hx Hy. generalize (Bmult_correct fprec femax fprec_gt_0 fprec_lt_emax mode_NE x y). change (Bmult mode_NE x y) with (fmul x y).
  case Rlt_bool_spec; intros _ H.
  - destruct H as (_ & _ & H). destruct (is_nan (fmul x y)) eqn:E; [destruct (fmul x y); try discriminate E; reflexivity|].
    rewrite (H eq_refl), Hx, Hy. reflexivity.
  - apply overflow_sign in H. rewrite H, Hx, Hy. reflexivity.
Qed.
Lemma div_plus (x y : f64) : plus x -> plus y -> plus (fdiv x y).
Proof.
  intros Hx Hy. destruct (Req_dec (val y) 0) as [Hz|Hz].
  - destruct y as [s|s| |s m e Hb]; cbn in Hy; subst.
    + destruct x as [s'|s'| |s' m' e' Hb']; cbn in *; subst; reflexivity.
    + destruct x as [s'|s'| |s' m' e' Hb']; cbn in *; subst; reflexivity.
    + destruct x; reflexivity.
    + exfalso. cbn in Hz. unfold F2R in Hz. cbn in Hz. apply Rmult_integral in Hz. destruct Hz as [Hz|Hz]; [apply (eq_IZR _ 0) in Hz; discriminate Hz|].
      pose proof (bpow_gt_0 radix2 e). lra.
  - generalize (Bdiv_correct fprec femax fprec_gt_0 fprec_lt_emax mode_NE x y Hz). change (Bdiv mode_NE x y) with (fdiv x y).
    case Rlt_bool_spec; intros _ H.
    + destruct H as (_ & _ & H). destruct (is_nan (fdiv x y)) eqn:E; [destruct (fdiv x y); try discriminate E; reflexivity|].
      rewrite (H eq_refl), Hx, Hy. reflexivity.
    + apply overflow_sign in H. rewrite H, Hx, Hy. reflexivity.
Qed.
Lemma plus_val (x : f64) : plus x -> 0 <= val x.
Proof.
  destruct x as [s|s| |s m e Hb]; cbn; intros H; try apply Rle_refl. subst. apply F2R_ge_0. apply Pos2Z.is_nonneg.
Qed.
Lemma val_plus (x : f64) : 0 < val x -> plus x.
Proof.
  destruct x as [s|s| |s m e Hb]; cbn; intros H; try lra. destruct s; auto. exfalso.
  apply (Rlt_not_le _ _ H). apply F2R_le_0. apply Pos2Z.neg_is_nonpos.
Qed.
Lemma add_plus (x y : f64) : plus x -> plus y -> plus (fadd x y).
Proof.
  intros Hx Hy. destruct (is_finite x) eqn:Fx; [destruct (is_finite y) eqn:Fy|].
  - generalize (Bplus_correct fprec femax fprec_gt_0 fprec_lt_emax mode_NE x y Fx Fy). change (Bplus mode_NE x y) with (fadd x y).
    case Rlt_bool_spec; intros _ H.
    + destruct H as (_ & _ & H). rewrite H. pose proof (plus_val x Hx). pose proof (plus_val y Hy).
      destruct (Rcompare_spec (val x + val y) 0); auto; [lra|]. rewrite Hx. reflexivity.
    + destruct H as (H & _). apply overflow_sign in H. now rewrite H.
  - destruct x; try discriminate Fx; destruct y; try discriminate Fy; cbn in *; subst; reflexivity.
  - destruct x; try discriminate Fx; destruct y; cbn in *; subst; try reflexivity.
Qed.
Lemma sqrt_plus (x : f64) : plus x -> plus (fsqrt x).
Proof.
  intros Hx. generalize (Bsqrt_correct fprec femax fprec_gt_0 fprec_lt_emax mode_NE x). change (Bsqrt mode_NE x) with (fsqrt x). intros (_ & _ & H).
  destruct (is_nan (fsqrt x)) eqn:E; [destruct (fsqrt x); try discriminate E; reflexivity|]. rewrite (H eq_refl). exact Hx.
Qed.
(** a difference that is not negative *)
Lemma sub_plus (x y : f64) : plus x -> fin x = true -> fin y = true -> val y <= val x -> plus (fsub x y).
Proof.
  intros Hx Fx Fy H. generalize (Bminus_correct fprec femax fprec_gt_0 fprec_lt_emax mode_NE x y Fx Fy). change (Bminus mode_NE x y) with (fsub x y).
  case Rlt_bool_spec; intros _ K.
  - destruct K as (_ & _ & K). rewrite K. destruct (Rcompare_spec (val x - val y) 0); auto; [lra|]. rewrite Hx. reflexivity.
  - destruct K as (K & _). apply overflow_sign in K. now rewrite K.
Qed.
Lemma sub_plus_leb (x y : f64) : plus x -> Bleb x y = false -> plus (fsub x y).
Proof.
  intros Hx H. destruct (is_finite x) eqn:Fx; [destruct (is_finite y) eqn:Fy|].
  - apply sub_plus; auto. rewrite (fleb_fin x y Fx Fy) in H. destruct (Rle_bool_spec (val x) (val y)); [discriminate|lra].
  - destruct x as [s|s| |s m e Hb]; try discriminate Fx; destruct y as [s'|s'| |s' m' e' Hb']; try discriminate Fy; try reflexivity; cbn in Hx; subst; try (destruct s'; [reflexivity|discriminate H]).
  - destruct x as [s|s| |s m e Hb]; try discriminate Fx; cbn in Hx; subst; destruct y as [s'|s'| |s' m' e' Hb']; try reflexivity; try (destruct s'; reflexivity).
Qed.
Lemma not_negative (x : f64) : plus x -> Bltb x (fofZ 0) = false.
Proof.
  destruct x as [s|s| |s m e Hb]; intros H; cbn in H; subst; try (destruct s); reflexivity.
Qed.
Lemma add_plus_pos (x y : f64) : plus x -> plus y -> 0 < val y -> fin y = true -> fin x = true -> fin (fadd x y) = true -> val y <= val (fadd x y).
Proof.
  intros Hx Hy Hp Fy Fx Fs. generalize (Bplus_correct fprec femax fprec_gt_0 fprec_lt_emax mode_NE x y Fx Fy). change (Bplus mode_NE x y) with (fadd x y).
  case Rlt_bool_spec; intros _ H.
  - destruct H as (H & _). rewrite H. rewrite <- (rnd_val y) at 1. change (rnd (val y) <= rnd (val x + val y)). apply rnd_le. pose proof (plus_val x Hx). lra.
  - destruct H as (H & _). exfalso. destruct (fadd x y); cbn in *; try discriminate.
Qed.

(** ** sqrt (rnd (b^2)) does not round below b *)
Lemma ulp64 x : bpow radix2 (-1022) <= Rabs x -> ulp radix2 fexp64 x = bpow radix2 (mag radix2 x - 53).
Proof.
  intros H. pose proof (bpow_gt_0 radix2 (-1022)). rewrite ulp_neq_0 by (intros ->; rewrite Rabs_R0 in H; lra). unfold cexp, fexp64, FLT_exp. f_equal.
  assert ((-1022 < mag radix2 x)%Z) by (apply mag_gt_bpow; exact H). change (3 - femax - fprec)%Z with (-1074)%Z. unfold fprec. lia.
Qed.
Lemma sqrt_square_up b t : generic_format radix2 fexp64 b -> generic_format radix2 fexp64 t -> 0 <= b -> bpow radix2 (-1000) <= t ->
  rnd (b * b) <= t -> b <= rnd (sqrt t).
Proof.
  intros Fb Ft Hb0 Ht H. pose proof (bpow_gt_0 radix2 (-1000)) as Hp.
  destruct (Rle_lt_dec b (sqrt t)) as [L|L]; [rewrite <- (rnd_generic b Fb) at 1; apply rnd_le; exact L|].
  assert (Hs : sqrt t * sqrt t = t) by (apply sqrt_sqrt; lra). pose proof (sqrt_pos t) as Hs0.
  assert (Hb : 0 < b) by lra.
  assert (Htb : t < b * b) by nra.
  (* t is the rounded square *)
  assert (Et : t = rnd (b * b)).
  { apply Rle_antisym; [|exact H]. rewrite <- (rnd_generic t Ft). apply rnd_le. lra. }
  assert (Hbig : bpow radix2 (-500) < b).
  { apply Rnot_le_lt. intros C. assert (b * b <= bpow radix2 (-500) * bpow radix2 (-500)) by nra. rewrite <- bpow_plus in H0. change (-500 + -500)%Z with (-1000)%Z in H0. apply (Rlt_irrefl t). lra. }
  set (e := mag radix2 b : Z).
  assert (Hm : bpow radix2 (e - 1) <= b < bpow radix2 e).
  { assert (Nb : b <> 0) by lra. pose proof (bpow_mag_le radix2 b Nb) as M1. pose proof (bpow_mag_gt radix2 b) as M2. rewrite Rabs_pos_eq in M1, M2 by lra. auto. }
  assert (He : (-500 < e)%Z) by (unfold e; apply mag_gt_bpow; rewrite Rabs_pos_eq by lra; lra).
  destruct Hm as [Hm1 Hm2]. destruct Hm1 as [Hm1|Hm1].
  2:{ exfalso. rewrite <- Hm1 in Et. rewrite <- bpow_plus in Et. rewrite rnd_generic in Et by (apply bpow_generic; lia). rewrite bpow_plus in Et. rewrite Hm1 in Et. lra. }
  assert (Eu : ulp radix2 fexp64 b = bpow radix2 (e - 53)).
  { apply ulp64. rewrite Rabs_pos_eq by lra. apply Rle_trans with (bpow radix2 (-500)); [apply bpow_le; lia|lra]. }
  set (u := bpow radix2 (e - 53)) in *. assert (Hu : 0 < u) by apply bpow_gt_0.
  (* b is at least one ulp above the power of two *)
  assert (Hb1 : bpow radix2 (e - 1) + u <= b).
  { assert (S : succ radix2 fexp64 (bpow radix2 (e - 1)) <= b) by (apply succ_le_lt; [typeclasses eauto|apply bpow_generic; lia|exact Fb|exact Hm1]).
    rewrite succ_eq_pos in S by apply bpow_ge_0. rewrite ulp_bpow in S. unfold fexp64, FLT_exp in S. change (3 - femax - fprec)%Z with (-1074)%Z in S. unfold fprec in S.
    replace (Z.max (e - 1 + 1 - 53) (-1074)) with (e - 53)%Z in S by lia. exact S. }
  assert (Ep : pred radix2 fexp64 b = b - u).
  { rewrite pred_eq_pos by lra. unfold pred_pos. rewrite Req_bool_false by (fold e; lra). rewrite Eu. reflexivity. }
  apply round_N_ge_midp; auto; [typeclasses eauto|]. rewrite Ep.
  (* the error of the rounded square *)
  assert (Hq : Rabs (rnd (b * b) - b * b) <= / 2 * ulp radix2 fexp64 (b * b)) by (apply error_le_half_ulp; typeclasses eauto).
  assert (Hbb : bpow radix2 (-1000) <= b * b) by lra.
  rewrite ulp64 in Hq by (rewrite Rabs_pos_eq by nra; apply Rle_trans with (bpow radix2 (-1000)); [apply bpow_le; lia|lra]).
  assert (Hmag : (mag radix2 (b * b) <= e + e)%Z).
  { apply mag_le_bpow; [apply Rgt_not_eq; nra|]. rewrite Rabs_pos_eq by nra. rewrite bpow_plus. nra. }
  assert (Hq2 : b * b - t <= / 2 * bpow radix2 (e + e - 53)).
  { rewrite Et. apply Rle_trans with (Rabs (rnd (b * b) - b * b)); [rewrite Rabs_minus_sym; apply Rle_abs|]. apply Rle_trans with (1 := Hq).
    apply Rmult_le_compat_l; [lra|]. apply bpow_le. clear - Hmag. lia. }
  replace (e + e - 53)%Z with ((e - 53) + (e - 1) + 1)%Z in Hq2 by lia. rewrite !bpow_plus in Hq2. fold u in Hq2. change (bpow radix2 1) with 2 in Hq2.
  pose proof (bpow_gt_0 radix2 (e - 1)) as Hw. set (w := bpow radix2 (e - 1)) in *.
  apply Rsqr_incrst_0; [|lra|exact Hs0]. unfold Rsqr. rewrite Hs. nra.
Qed.
