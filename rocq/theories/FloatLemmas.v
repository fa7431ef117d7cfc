(** Facts about the binary64 operations of [FNum]. *)
From Coq Require Import ZArith Reals Lra Lia Bool.
From Flocq Require Import Core IEEE754.BinarySingleNaN.
From Verif Require Import Num.
Local Open Scope R_scope.

Definition fexp64 := FLT_exp (3 - femax - fprec) fprec.
Definition rnd (x : R) : R := round radix2 fexp64 ZnearestE x.
Notation fin := (@is_finite fprec femax).
Notation val := (@B2R fprec femax).

#[global] Instance fprec_inst : Prec_gt_0 fprec := fprec_gt_0.
#[global] Instance fprec_lt_inst : Prec_lt_emax fprec femax := fprec_lt_emax.
#[global] Instance fexp64_valid : Valid_exp fexp64.
Proof. apply FLT_exp_valid. exact fprec_gt_0. Qed.

Lemma rnd_le x y : x <= y -> rnd x <= rnd y.
Proof. apply round_le; typeclasses eauto. Qed.
Lemma rnd_generic x : generic_format radix2 fexp64 x -> rnd x = x.
Proof. apply round_generic. typeclasses eauto. Qed.
Lemma val_generic (x : f64) : generic_format radix2 fexp64 (val x).
Proof. apply generic_format_B2R. Qed.
Lemma rnd_val (x : f64) : rnd (val x) = val x.
Proof. apply rnd_generic, val_generic. Qed.
Lemma rnd_0 : rnd 0 = 0.
Proof. apply round_0. typeclasses eauto. Qed.
Lemma val_bound (x : f64) : Rabs (val x) < bpow radix2 femax.
Proof. apply abs_B2R_lt_emax. Qed.

Lemma fadd_fin (x y : f64) : fin x = true -> fin y = true ->
  Rabs (rnd (val x + val y)) < bpow radix2 femax ->
  val (fadd x y) = rnd (val x + val y) /\ fin (fadd x y) = true.
Proof.
  intros Hx Hy H. generalize (Bplus_correct fprec femax fprec_gt_0 fprec_lt_emax mode_NE x y Hx Hy).
  rewrite Rlt_bool_true by exact H. intros (E & F & _). auto.
Qed.
Lemma fsub_fin (x y : f64) : fin x = true -> fin y = true ->
  Rabs (rnd (val x - val y)) < bpow radix2 femax ->
  val (fsub x y) = rnd (val x - val y) /\ fin (fsub x y) = true.
Proof.
  intros Hx Hy H. generalize (Bminus_correct fprec femax fprec_gt_0 fprec_lt_emax mode_NE x y Hx Hy).
  rewrite Rlt_bool_true by exact H. intros (E & F & _). auto.
Qed.
Lemma fsub_fin_inv (x y : f64) : fin x = true -> fin y = true -> fin (fsub x y) = true ->
  val (fsub x y) = rnd (val x - val y) /\ Rabs (rnd (val x - val y)) < bpow radix2 femax.
Proof.
  intros Hx Hy H. generalize (Bminus_correct fprec femax fprec_gt_0 fprec_lt_emax mode_NE x y Hx Hy).
  case Rlt_bool_spec; intros Hb.
  - intros (E & F & _). auto.
  - intros [E _]. exfalso. unfold fsub in H. rewrite <- is_finite_SF_B2SF in H.
    rewrite E in H. destruct (Bsign x); discriminate H.
Qed.
Lemma fdiv_fin (x y : f64) : fin x = true -> val y <> 0 ->
  Rabs (rnd (val x / val y)) < bpow radix2 femax ->
  val (fdiv x y) = rnd (val x / val y) /\ fin (fdiv x y) = true.
Proof.
  intros Hx Hy H. generalize (Bdiv_correct fprec femax fprec_gt_0 fprec_lt_emax mode_NE x y Hy).
  rewrite Rlt_bool_true by exact H. intros (E & F & _). split; auto. unfold fdiv. now rewrite F.
Qed.
Lemma fmul_fin (x y : f64) : fin x = true -> fin y = true ->
  Rabs (rnd (val x * val y)) < bpow radix2 femax ->
  val (fmul x y) = rnd (val x * val y) /\ fin (fmul x y) = true.
Proof.
  intros Hx Hy H. generalize (Bmult_correct fprec femax fprec_gt_0 fprec_lt_emax mode_NE x y).
  rewrite Rlt_bool_true by exact H. intros (E & F & _). split; auto. unfold fmul. now rewrite F, Hx, Hy.
Qed.
Lemma fleb_fin (x y : f64) : fin x = true -> fin y = true ->
  Bleb x y = Rle_bool (val x) (val y).
Proof. apply Bleb_correct. Qed.
Lemma fltb_fin (x y : f64) : fin x = true -> fin y = true ->
  Bltb x y = Rlt_bool (val x) (val y).
Proof. apply Bltb_correct. Qed.
Lemma feqb_fin (x y : f64) : fin x = true -> fin y = true ->
  Beqb x y = Req_bool (val x) (val y).
Proof. apply Beqb_correct. Qed.

(** A float difference that is not zero is at least the smallest subnormal. *)
Lemma pow2_below d : 0 < d -> (exists a b, generic_format radix2 fexp64 a /\ generic_format radix2 fexp64 b /\ d = a - b) ->
  exists e, (-1074 <= e)%Z /\ bpow radix2 e <= d < bpow radix2 (e + 1).
Proof.
  intros Hd (a & b & Ha & Hb & E).
  destruct (mag radix2 d) as (m & Hm). simpl in Hm.
  specialize (Hm ltac:(lra)). rewrite Rabs_pos_eq in Hm by lra.
  exists (m - 1)%Z. replace (m - 1 + 1)%Z with m by lia. split; auto.
  assert (Hmin : bpow radix2 (-1074) <= d).
  {
    apply generic_format_FIX_FLT in Ha. apply generic_format_FIX_FLT in Hb.
    apply FIX_format_generic in Ha. apply FIX_format_generic in Hb.
    destruct Ha as [fa Ea1 Ea2]. destruct Hb as [fb Eb1 Eb2].
    destruct fa as [ma ea], fb as [mb eb]. cbn [Fnum Fexp] in *. subst ea eb.
    unfold F2R in *. cbn [Fnum Fexp] in *. rewrite Ea1, Eb1 in E.
    change (3 - femax - fprec)%Z with (-1074)%Z in E.
    rewrite <- Rmult_minus_distr_r, <- minus_IZR in E.
    assert (0 < ma - mb)%Z.
    { apply lt_IZR. apply Rmult_lt_reg_r with (bpow radix2 (-1074)); [apply bpow_gt_0|].
      rewrite Rmult_0_l. rewrite <- E. lra. }
    rewrite E. rewrite <- (Rmult_1_l (bpow radix2 (-1074))) at 1.
    apply Rmult_le_compat_r; [apply bpow_ge_0|]. apply IZR_le. lia. }
  destruct Hm as [Hm1 Hm2].
  assert (bpow radix2 (-1074) < bpow radix2 m) by lra.
  apply lt_bpow in H. lia.
Qed.
Lemma bpow_generic e : (-1074 <= e)%Z -> generic_format radix2 fexp64 (bpow radix2 e).
Proof.
  intros H. apply generic_format_bpow. unfold fexp64, FLT_exp.
  change (3 - femax - fprec)%Z with (-1074)%Z. unfold fprec. lia.
Qed.

Lemma fofZ_small z : (Z.abs z <= 2 ^ 53)%Z -> val (fofZ z) = IZR z /\ fin (fofZ z) = true.
Proof.
  intros H. unfold fofZ.
  generalize (binary_normalize_correct fprec femax fprec_gt_0 fprec_lt_emax mode_NE z 0 false).
  assert (E : F2R (Float radix2 z 0) = IZR z) by (unfold F2R; simpl; lra).
  rewrite E.
  assert (G : round radix2 (SpecFloat.fexp fprec femax) (round_mode mode_NE) (IZR z) = IZR z).
  { change (rnd (IZR z) = IZR z). apply rnd_generic. rewrite <- E.
    destruct (Z.eq_dec (Z.abs z) (2 ^ 53)) as [E53|N53].
    - destruct (Z.abs_eq_or_opp z) as [Ez|Ez]; rewrite Ez in E53.
      + rewrite E, E53. change (IZR (2 ^ 53)) with (bpow radix2 53). apply bpow_generic. lia.
      + rewrite E. replace z with (- (2 ^ 53))%Z by lia. rewrite opp_IZR. apply generic_format_opp.
        change (IZR (2 ^ 53)) with (bpow radix2 53). apply bpow_generic. lia.
    - apply generic_format_FLT. exists (Float radix2 z 0); simpl; auto.
      + change (Z.pow_pos 2 53) with (2 ^ 53)%Z. lia.
      + unfold femax, fprec. lia. }
  cbv zeta. rewrite G. rewrite Rlt_bool_true.
  - intros (A & B & _). auto.
  - rewrite <- abs_IZR. apply Rle_lt_trans with (IZR (2 ^ 53)); [apply IZR_le; auto|].
    change (IZR (2 ^ 53)) with (bpow radix2 53). apply bpow_lt. reflexivity.
Qed.
