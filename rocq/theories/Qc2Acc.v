(** The oracle of quasicvx2_tests.rs in binary64 (C128). *)
From Coq Require Import ZArith Reals Lra Lia Psatz List Bool Arith.
From Flocq Require Import Core Plus_error IEEE754.BinarySingleNaN.
From Verif Require Import Num Res Arr ArrLemmas CuttingPlane Spec EllReal Examples ExSpec ExProofs QcvxRun Qcvx2 Qcvx2Spec Qcvx2Run FloatLemmas FloatErr FloatRel FcosAcc StepAccSpec ProfitSpec ProfAccSpec ProfAcc QcAccSpec QcAcc Qc2AccSpec.
Import ListNotations.
Local Open Scope R_scope.

Lemma qc2_cases {N : Num} idx (xc : Arr N) (ga x y : N) : (-1 <= idx < 3)%Z -> a_idx xc 0 = Ok x -> a_idx xc 1 = Ok y ->
  let f0 := nexp x -! y in let f3 := -! nsqrt x +! ga *! y in let h := (-! nhalf) /! nsqrt x in
  exists idx', (-1 <= idx' < 3)%Z /\
  ((f0 >?! n0) = true /\ qc2_assess idx xc ga = Ok (idx', ga, ((vec2 (nexp x) nm1, mkSingle f0), false)) \/
   ((-! y) >?! n0) = true /\ qc2_assess idx xc ga = Ok (idx', ga, ((vec2 n0 nm1, mkSingle (-! y)), false)) \/
   ((-! x) >?! n0) = true /\ qc2_assess idx xc ga = Ok (idx', ga, ((vec2 nm1 n0, mkSingle (-! x)), false)) \/
   (f0 >?! n0) = false /\ ((-! y) >?! n0) = false /\ ((-! x) >?! n0) = false /\
   ((f3 >?! n0) = true /\ qc2_assess idx xc ga = Ok (idx', ga, ((vec2 h ga, mkSingle f3), false)) \/
    (f3 >?! n0) = false /\ qc2_assess idx xc ga = Ok (idx', nsqrt x /! y, ((vec2 h (nsqrt x /! y), mkSingle n0), true)))).
Proof.
  intros Hi Hx Hy. cbv zeta. unfold qc2_assess. rewrite Hx, Hy. cbn [bind]. unfold round_robin, loop_range.
  idx_cases Hi; cbn -[nadd nsub nopp nmul ndiv nexp nsqrt nhalf nZ n0 n1 n2 nltb]; ifs; eexists; (split; [|first
    [left; split; [first [assumption|reflexivity]|reflexivity]|right; left; split; [first [assumption|reflexivity]|reflexivity]|right; right; left; split; [first [assumption|reflexivity]|reflexivity]
    |right; right; right; (split; [first [assumption|reflexivity]|]); (split; [first [assumption|reflexivity]|]); (split; [first [assumption|reflexivity]|]); first [left; split; [first [assumption|reflexivity]|reflexivity]|right; split; [first [assumption|reflexivity]|reflexivity]]]]).
  all: lia.
Qed.
#[local] Opaque fadd fsub fmul fdiv fsqrt fofZ.
Lemma half_f lm : fin (nopp (n := FNum lm) nhalf : f64) = true /\ val (nopp (n := FNum lm) nhalf : f64) = - (1 / 2).
Proof.
  assert (K : Beqb (nhalf (N := FNum lm) : f64) (@B754_finite fprec femax false 4503599627370496 (-53) eq_refl) && is_finite (nhalf (N := FNum lm) : f64) = true) by (vm_compute; reflexivity).
  apply andb_true_iff in K as [K Fh]. rewrite feqb_fin in K by (exact Fh || reflexivity). generalize (Req_bool_spec (val (nhalf (N := FNum lm))) (val (@B754_finite fprec femax false 4503599627370496 (-53) eq_refl))); rewrite K; clear K; intros K; inversion_clear K as [K0|]; rename K0 into K.
  split; [cbn -[nhalf]; rewrite is_finite_Bopp; exact Fh|]. etransitivity; [apply B2R_Bopp|]. rewrite K. cbn [B2R]. unfold F2R. cbn [Fnum Fexp SpecFloat.cond_Zopp]. change (bpow radix2 (-53)) with (/ 9007199254740992). lra.
Qed.
Lemma sqrt_above (a z : R) : 0 < a -> 0 <= z -> sqrt z <= sqrt a + (z - a) / (2 * sqrt a).
Proof.
  intros Ha Hz. pose proof (sqrt_lt_R0 a Ha) as P. pose proof (sqrt_sqrt a ltac:(lra)) as A. pose proof (sqrt_sqrt z Hz) as Z. set (s := sqrt a) in *. set (t := sqrt z) in *.
  replace (s + (z - a) / (2 * s)) with (t + (t - s) * (t - s) / (2 * s)) by (rewrite <- A, <- Z; field; lra). assert (0 <= (t - s) * (t - s) / (2 * s)) by (apply Rmult_le_pos; [apply Rle_0_sqr|left; apply Rinv_0_lt_compat; lra]). lra.
Qed.
Section V.
Variable lm : Libm.
Notation F := (FNum lm).
Variables (dl X C r : R).
Hypotheses (HP : qc_platform lm dl X C) (Hr : / 1000000 <= r <= 1).
Notation eps := (qc_eps dl).
Notation mu := (qc2_margin dl X C r).
Variables (x y ga : f64).
Hypotheses (Fx : fin x = true) (Fy : fin y = true) (Hx : Rabs (val x) <= X) (Hy : Rabs (val y) <= X) (Hg : qc_level C ga).
Notation E := (nexp (n := F) x : f64).
Lemma eu : ee <= / 1000000000 * uu.
Proof. apply Rle_trans with (bpow radix2 (-93)); [apply bpow_le; lia|]. change (-93)%Z with (-40 + -53)%Z. rewrite bpow_plus. change (bpow radix2 (-40)) with (/ 1099511627776). apply Rmult_le_compat_r; [apply bpow_ge_0|lra]. Qed.
(** exp x - y *)
Lemma c0_near : fin E = true /\ near dl (val E) (exp (val x)) /\ fin (fsub E y) = true /\ val (fsub E y) = rnd (val E - val y) /\ Rabs (val (fsub E y) - (val E - val y)) <= uu * (2 * exp X + 2 * X).
Proof.
  destruct (e_near lm dl X C HP x Fx Hx) as [Fe Ne]. pose proof (e_range X x Hx) as ER. pose proof (exp_X lm dl X C HP) as (EX & _ & EX1). pose proof HP as (Hd & HX & _). pose proof uu_small as U. pose proof eu as EU. pose proof Ne as N'. apply near_in in N'. apply Rabs_le_inv in Hy. pose proof (exp_pos (val x)).
  assert (dl * exp (val x) <= / 1000000 * exp (val x)) by (apply Rmult_le_compat_r; lra).
  assert (M : Rabs (val E - val y) <= 101 / 100 * exp X + X) by (apply Rabs_le; lra).
  destruct (fsub_fin E y Fe Fy) as [V Fs]. { apply big_fin. eapply Rle_trans; [exact M|]. apply Rle_trans with (bpow radix2 10 * bpow radix2 400); [change (bpow radix2 10) with 1024; lra|rewrite <- bpow_plus; apply bpow_le; lia]. }
  split; [exact Fe|]. split; [exact Ne|]. split; [exact Fs|]. split; [exact V|]. rewrite V. pose proof (rnd_err (val E - val y)) as R. assert (uu * Rabs (val E - val y) <= uu * (101 / 100 * exp X + X)) by (apply Rmult_le_compat_l; lra). assert (uu * 1 <= uu * X) by (apply Rmult_le_compat_l; lra). assert (0 <= uu * exp X) by (apply Rmult_le_pos; lra). lra.
Qed.
(** at an accepted point away from the axis *)
Hypotheses (Rx : r * r <= val x) (Ey : val E <= val y).
Notation q := (sqrt (val x)).
Notation T := (fsqrt x).
Lemma q_range : r <= q <= X /\ q * q = val x /\ 0 < val x.
Proof.
  pose proof HP as (_ & HX & _). apply Rabs_le_inv in Hx. assert (0 < r * r) by nra. split; [|split; [apply sqrt_sqrt; lra|lra]]. split.
  - rewrite <- (sqrt_square r) by lra. apply sqrt_le_1; lra.
  - rewrite <- (sqrt_square X) by lra. apply sqrt_le_1; nra.
Qed.
Lemma y_low : 99 / 100 <= val y /\ (1 - dl) * exp (val x) <= val y.
Proof.
  destruct c0_near as (_ & N & _). pose proof HP as (Hd & _). pose proof q_range as (_ & _ & P). apply near_in in N. pose proof (exp_ineq1_le (val x)). assert (dl * exp (val x) <= / 1000000 * exp (val x)) by (apply Rmult_le_compat_r; lra). split; lra.
Qed.
Lemma t_near : fin T = true /\ Rabs (val T - q) <= 101 / 100 * uu * q /\ 0 < val T.
Proof.
  pose proof q_range as (Q & _ & P). pose proof uu_small as U. pose proof eu as EU. destruct (fsqrt_fin x Fx ltac:(lra)) as [V Ft]. split; [exact Ft|]. rewrite V. pose proof (rnd_err q) as R. rewrite (Rabs_pos_eq q) in R by lra.
  assert (ee <= / 100 * uu * q). { apply Rle_trans with (/ 100 * uu * / 1000000); [lra|]. apply Rmult_le_compat_l; lra. } split; [lra|]. apply Rabs_le_inv in R. assert (uu * q <= / 1000 * q) by (apply Rmult_le_compat_r; lra). lra.
Qed.
Notation H := (fdiv (nopp (n := F) nhalf) T).
Lemma h_near : fin H = true /\ Rabs (val H + 1 / (2 * q)) <= 2 * uu / q.
Proof.
  pose proof q_range as (Q & _ & P). destruct t_near as (Ft & Nt & Pt). pose proof uu_small as U. pose proof eu as EU. destruct (half_f lm) as [Fh Vh]. set (t := val T) in *. apply Rabs_le_inv in Nt.
  assert (uq : uu * q <= / 1000000 * q) by (apply Rmult_le_compat_r; lra).
  assert (I : / t <= 1001 / 1000 * / q). { replace (1001 / 1000 * / q) with (/ (1000 / 1001 * q)) by (field; lra). apply Rinv_le; lra. }
  assert (IQ : 0 < / q <= 1000000). { split; [apply Rinv_0_lt_compat; lra|]. replace 1000000 with (/ / 1000000) by field. apply Rinv_le; lra. } pose proof (Rinv_0_lt_compat _ Pt) as IT.
  assert (M : Rabs (- (1 / 2) / t) = / t / 2). { unfold Rdiv. rewrite Ropp_mult_distr_l_reverse, Rabs_Ropp, Rabs_pos_eq by lra. lra. }
  destruct (fdiv_fin (nopp (n := F) nhalf) T Fh ltac:(fold t; lra)) as [V Fd]. { rewrite Vh. fold t. apply (bnd_fin _ (/ t / 2)); [right; exact M|lra]. }
  split; [exact Fd|]. rewrite V, Vh. fold t. pose proof (rnd_err (- (1 / 2) / t)) as R. rewrite M in R. apply Rabs_le_inv in R.
  assert (D : Rabs (/ q - / t) <= 1011 / 1000 * uu * / q * (1001 / 1000)).
  { replace (/ q - / t) with ((t - q) * / q * / t) by (field; lra). rewrite !Rabs_mult, (Rabs_pos_eq (/ q)), (Rabs_pos_eq (/ t)) by lra. apply Rle_trans with (101 / 100 * uu * q * / q * (1001 / 1000 * / q)).
    - apply Rmult_le_compat; [apply Rmult_le_pos; [apply Rabs_pos|lra]|lra| |exact I]. apply Rmult_le_compat_r; [lra|]. apply Rabs_le. lra.
    - rewrite (Rmult_assoc (101 / 100 * uu)), Rinv_r, Rmult_1_r by lra. assert (0 <= uu * / q) by (apply Rmult_le_pos; lra). lra. }
  apply Rabs_le_inv in D. assert (UI : uu * / t <= uu * (1001 / 1000 * / q)) by (apply Rmult_le_compat_l; lra). assert (0 <= uu * / q) by (apply Rmult_le_pos; lra).
  assert (EI : ee <= / 100 * (uu * / q)). { apply Rle_trans with (/ 100 * (uu * / 200)); [lra|]. apply Rmult_le_compat_l; [lra|]. apply Rmult_le_compat_l; [lra|]. pose proof HP as (_ & HX & _). apply Rinv_le; lra. }
  replace (1 / (2 * q)) with (/ q / 2) by (field; lra). replace (2 * uu / q) with (2 * (uu * / q)) by (unfold Rdiv; ring). replace (- (1 / 2) / t) with (- (/ t / 2)) in * by (field; lra). apply Rabs_le. lra.
Qed.
(** the slope of the level cut against the square root *)
Lemma slope z : 0 <= z -> Rabs z <= X -> val H * (z - val x) <= q - sqrt z + 4 * uu * (X / r).
Proof.
  intros Z0 Z1. pose proof q_range as (Q & QQ & P). destruct h_near as [_ N]. pose proof (sqrt_above (val x) z P Z0) as SA. pose proof uu_small as U. apply Rabs_le_inv in Z1. apply Rabs_le_inv in Hx.
  assert (K : (val H + 1 / (2 * q)) * (z - val x) <= 2 * uu / r * (2 * X)).
  { eapply Rle_trans; [apply Rle_abs|]. rewrite Rabs_mult. apply Rmult_le_compat; try apply Rabs_pos; [|apply Rabs_le; lra]. eapply Rle_trans; [exact N|]. unfold Rdiv. apply Rmult_le_compat_l; [lra|]. apply Rinv_le; lra. }
  replace (2 * uu / r * (2 * X)) with (4 * uu * (X / r)) in K by (field; lra). replace ((val H + 1 / (2 * q)) * (z - val x)) with (val H * (z - val x) + (z - val x) / (2 * q)) in K by (field; lra). lra.
Qed.
(** the level times y, and what is missing *)
Notation W := (fmul ga y).
Notation M := (fadd (nopp (n := F) T) W).
Lemma m_near : fin W = true /\ val W = rnd (val ga * val y) /\ Rabs (val W - val ga * val y) <= 101 / 100 * uu * (C * X) /\ fin M = true /\ val M = rnd (- val T + val W) /\ Rabs (val M - (- q + val ga * val y)) <= 4 * uu * (X + C * X).
Proof.
  pose proof q_range as (Q & QQ & P). destruct t_near as (Ft & Nt & Pt). pose proof HP as (Hd & HX & HC & _). pose proof uu_small as U. pose proof eu as EU. destruct Hg as [Fg G]. pose proof y_low as [YL _]. pose proof (Rle_trans _ _ _ (Rle_abs _) Hy) as YX.
  assert (A0 : 0 <= val ga * val y) by (apply Rmult_le_pos; lra). assert (A1 : val ga * val y <= C * X) by (apply Rmult_le_compat; lra). assert (CX1 : 1 <= C * X) by nra.
  assert (CX : C * X <= bpow radix2 108). { change 108%Z with (100 + 8)%Z. rewrite bpow_plus. change (bpow radix2 8) with 256. apply Rmult_le_compat; lra. }
  destruct (fmul_fin ga y Fg Fy) as [V Fw]. { apply big_fin. rewrite Rabs_pos_eq by lra. apply Rle_trans with (bpow radix2 108); [lra|apply bpow_le; lia]. }
  pose proof (rnd_err (val ga * val y)) as R. rewrite <- V, (Rabs_pos_eq (val ga * val y)) in R by lra. assert (uu * (val ga * val y) <= uu * (C * X)) by (apply Rmult_le_compat_l; lra). assert (UC : uu * 1 <= uu * (C * X)) by (apply Rmult_le_compat_l; lra).
  assert (RW : Rabs (val W - val ga * val y) <= 101 / 100 * uu * (C * X)) by lra. split; [exact Fw|]. split; [exact V|]. split; [exact RW|].
  pose proof RW as RW'. apply Rabs_le_inv in RW'. pose proof Nt as Nt'. apply Rabs_le_inv in Nt'. assert (uu * (C * X) <= / 1000 * (C * X)) by (apply Rmult_le_compat_r; lra). assert (uu * q <= / 1000 * q) by (apply Rmult_le_compat_r; lra). assert (uu * q <= uu * X) by (apply Rmult_le_compat_l; lra).
  assert (VO : val (nopp (n := F) T) = - val T) by apply B2R_Bopp. assert (FO : fin (nopp (n := F) T : f64) = true) by (cbn; rewrite is_finite_Bopp; exact Ft).
  assert (B : Rabs (- val T + val W) <= 101 / 100 * (X + C * X)) by (apply Rabs_le; lra).
  destruct (fadd_fin (nopp (n := F) T) W FO Fw) as [V2 F2]. { rewrite VO. apply big_fin. eapply Rle_trans; [exact B|]. apply Rle_trans with (bpow radix2 10 * bpow radix2 108); [change (bpow radix2 10) with 1024; lra|rewrite <- bpow_plus; apply bpow_le; lia]. }
  rewrite VO in V2. split; [exact F2|]. split; [exact V2|]. rewrite V2. pose proof (rnd_err (- val T + val W)) as R2. assert (uu * Rabs (- val T + val W) <= uu * (101 / 100 * (X + C * X))) by (apply Rmult_le_compat_l; lra). apply Rabs_le_inv in R2. assert (uu * 1 <= uu * X) by (apply Rmult_le_compat_l; lra). apply Rabs_le. lra.
Qed.
(** the new level *)
Notation D := (fdiv T y).
Lemma d_near : val W <= val T -> fin D = true /\ 0 <= val D <= 44 / 100 /\ Rabs (val D - q / val y) <= bpow radix2 (-50) * (q / val y) + bpow radix2 (-1000) /\ val ga <= val D + qc_drop C /\ Rabs (q - val D * val y) <= 4 * uu * X.
Proof.
  intros WT. pose proof q_range as (Q & QQ & P). destruct t_near as (Ft & Nt & Pt). pose proof HP as (Hd & HX & HC & _). pose proof uu_small as U. pose proof eu as EU. pose proof y_low as [YL YE]. pose proof (Rle_trans _ _ _ (Rle_abs _) Hy) as YX.
  destruct m_near as (_ & VW & _). assert (Y0 : val y <> 0) by lra. pose proof (Rinv_0_lt_compat (val y) ltac:(lra)) as IY. assert (IY1 : / val y <= 102 / 100) by (replace (102 / 100) with (/ (100 / 102)) by field; apply Rinv_le; lra).
  assert (PK : q / val y <= 433 / 1000).
  { pose proof (obj2_top (val x) (exp (val x)) ltac:(split; lra)) as OT. unfold obj2 in OT. pose proof peak_b as TB; change peak with top in TB. pose proof (exp_pos (val x)) as EP. assert (q <= top * exp (val x)). { apply Rmult_le_reg_r with (/ exp (val x)); [apply Rinv_0_lt_compat; lra|]. rewrite Rmult_assoc, Rinv_r, Rmult_1_r by lra. exact OT. }
    apply Rmult_le_reg_r with (val y); [lra|]. unfold Rdiv. rewrite Rmult_assoc, Rinv_l, Rmult_1_r by lra. assert (top * exp (val x) <= 432 / 1000 * exp (val x)) by (apply Rmult_le_compat_r; lra). assert (dl * exp (val x) <= / 1000000 * exp (val x)) by (apply Rmult_le_compat_r; lra). lra. }
  assert (N : Rabs (val T / val y - q / val y) <= 101 / 100 * uu * (q / val y)).
  { replace (val T / val y - q / val y) with ((val T - q) * / val y) by (field; lra). rewrite Rabs_mult, (Rabs_pos_eq (/ val y)) by lra. replace (101 / 100 * uu * (q / val y)) with (101 / 100 * uu * q * / val y) by (field; lra). apply Rmult_le_compat_r; lra. }
  assert (Q0 : 0 <= q / val y) by (apply Rmult_le_pos; lra). assert (T0 : 0 <= val T / val y) by (apply Rmult_le_pos; lra). apply Rabs_le_inv in N. assert (uu * (q / val y) <= uu * 1) by (apply Rmult_le_compat_l; lra). assert (0 <= uu * (q / val y)) by (apply Rmult_le_pos; lra).
  destruct (fdiv_fin T y Ft Y0) as [V Fd]. { apply (bnd_fin _ 1); [rewrite Rabs_pos_eq; lra|lra]. } split; [exact Fd|]. rewrite V. pose proof (rnd_err (val T / val y)) as R. rewrite (Rabs_pos_eq (val T / val y)) in R by lra. pose proof R as R'. apply Rabs_le_inv in R.
  assert (uu * (val T / val y) <= uu * (1001 / 1000 * (q / val y))). { apply Rmult_le_compat_l; [lra|]. assert (uu * (q / val y) <= / 10000 * (q / val y)) by (apply Rmult_le_compat_r; lra). lra. }
  assert (AC : Rabs (rnd (val T / val y) - q / val y) <= 3 * uu * (q / val y) + ee) by (apply Rabs_le; lra). pose proof AC as AC'. apply Rabs_le_inv in AC'.
  assert (NN : 0 <= rnd (val T / val y)) by (rewrite <- rnd_0; now apply rnd_le).
  assert (B50 : bpow radix2 (-50) = 8 * uu) by (change (-50)%Z with (3 + -53)%Z; rewrite bpow_plus; reflexivity). assert (ET1 : ee <= bpow radix2 (-1000)) by (apply bpow_le; lia). assert (B51 : bpow radix2 (-51) = 4 * uu) by (change (-51)%Z with (2 + -53)%Z; rewrite bpow_plus; reflexivity).
  split; [lra|]. split; [rewrite B50; lra|]. split.
  - unfold qc_drop. rewrite B51. destruct Hg as [Fg G]. pose proof (rnd_err (val ga * val y)) as RW. rewrite <- VW in RW. apply Rabs_le_inv in RW. assert (GE : 0 <= val ga * val y) by (apply Rmult_le_pos; lra). rewrite (Rabs_pos_eq (val ga * val y)) in RW by exact GE.
    assert (K : val ga * (1 - uu) - ee * / val y <= val T / val y). { apply Rmult_le_reg_r with (val y); [lra|]. unfold Rdiv. rewrite (Rmult_assoc (val T)), Rinv_l, Rmult_1_r by exact Y0. rewrite Rmult_minus_distr_r, (Rmult_assoc ee), Rinv_l, Rmult_1_r by exact Y0. lra. }
    assert (KE : ee * / val y <= uu) by (assert (ee * / val y <= ee * (102 / 100)) by (apply Rmult_le_compat_l; [apply bpow_ge_0|lra]); lra).
    assert (uu * val ga <= uu * C) by (apply Rmult_le_compat_l; lra). assert (uu * 1 <= uu * C) by (apply Rmult_le_compat_l; lra). lra.
  - replace (q - rnd (val T / val y) * val y) with (- ((rnd (val T / val y) - q / val y) * val y)) by (field; lra). rewrite Rabs_Ropp, Rabs_mult, (Rabs_pos_eq (val y)) by lra. apply Rle_trans with ((3 * uu * (q / val y) + ee) * val y); [apply Rmult_le_compat_r; [lra|exact AC]|].
    replace ((3 * uu * (q / val y) + ee) * val y) with (3 * uu * q + ee * val y) by (field; lra). assert (uu * q <= uu * X) by (apply Rmult_le_compat_l; lra). assert (ee * val y <= ee * X) by (apply Rmult_le_compat_l; [apply bpow_ge_0|lra]). assert (ee * X <= / 1000000000 * uu * X) by (apply Rmult_le_compat_r; lra). assert (0 <= uu * X) by (apply Rmult_le_pos; lra). lra.
Qed.
End V.
Section C.
Variable lm : Libm.
Notation F := (FNum lm).
Variables (dl X C r : R).
Hypotheses (HP : qc_platform lm dl X C) (Hr : / 1000000 <= r <= 1).
Notation eps := (qc_eps dl).
Notation mu := (qc2_margin dl X C r).
Lemma mu2_parts : 2 * eps * ((1 + 2 * X) * exp X) + 16 * uu * (X / r) + 16 * uu * (C * X) <= mu /\ X <= X / r /\ 0 <= mu.
Proof.
  pose proof (ep_range lm dl X C HP) as [EP EQ]. destruct HP as (Hd & HX & HC & _). pose proof uu_small as U. pose proof (exp_pos X).
  assert (A : X <= X / r). { unfold Rdiv. replace X with (X * 1) at 1 by ring. apply Rmult_le_compat_l; [lra|]. rewrite <- Rinv_1. apply Rinv_le; lra. }
  assert (B : 0 <= C * X) by (apply Rmult_le_pos; lra). assert (D : 0 <= (1 + 2 * X) * exp X) by (apply Rmult_le_pos; lra).
  assert (0 <= dl * (X / r)) by (apply Rmult_le_pos; lra). assert (0 <= dl * (C * X)) by (apply Rmult_le_pos; lra). assert (0 <= eps * ((1 + 2 * X) * exp X)) by (apply Rmult_le_pos; lra). assert (0 <= uu * (X / r)) by (apply Rmult_le_pos; lra). assert (0 <= uu * (C * X)) by (apply Rmult_le_pos; lra).
  assert (M : mu = 2 * eps * ((1 + 2 * X) * exp X) + 2 * eps * (X / r) + 2 * eps * (C * X)) by (unfold qc2_margin; ring). rewrite M, <- EQ in *. split; [lra|]. split; [exact A|lra].
Qed.
Lemma opp_v (x : f64) : val (nopp (n := F) x : f64) = - val x /\ (fin x = true -> fin (nopp (n := F) x : f64) = true).
Proof. split; [apply B2R_Bopp|]. intros H. cbn. rewrite is_finite_Bopp. exact H. Qed.
Lemma qc2_call idx (u : Arr F) (ga : f64) : (-1 <= idx < 3)%Z -> in_square X u -> off_axis r u -> qc_level C ga ->
  exists idx' (ga' : f64) g (b : f64) sh, qc2_assess idx u (ga : F) = Ok (idx', (ga' : F), ((g, mkSingle (N := F) b), sh)) /\ (-1 <= idx' < 3)%Z /\ qc_level C ga' /\ two g /\ all_finite g /\ fin b = true /\
    val ga <= val ga' + qc_drop C /\ (sh = false -> ga' = ga /\ 0 < val b) /\
    (sh = true -> qc2_good dl (val ga') (fcoords u) /\ val ga' <= 44 / 100 /\ val b = 0) /\
    (forall z, (forall i, (i < 2)%nat -> Rabs (z i) <= X) -> reaches2 mu (val ga') z -> along 2 (fcoords g) z (fcoords u) + val b <= 0).
Proof.
  intros Hi (Ty & Ay & By) Ho Hg. destruct (idx2 (N := F) u ltac:(rewrite (proj1 Ty); lia)) as (x & y & Ex & Ey & Vx & Vy).
  assert (Fx : fin (x : f64) = true) by (rewrite Vx; exact (two_fin lm u 0 Ty Ay ltac:(lia))). assert (Fy : fin (y : f64) = true) by (rewrite Vy; exact (two_fin lm u 1 Ty Ay ltac:(lia))).
  pose proof (By 0%nat ltac:(lia)) as Bx. pose proof (By 1%nat ltac:(lia)) as Bl. assert (Ux : fcoords u 0%nat = val (x : f64)) by (rewrite Vx; reflexivity). assert (Uy : fcoords u 1%nat = val (y : f64)) by (rewrite Vy; reflexivity). rewrite Ux in Bx. rewrite Uy in Bl. unfold off_axis in Ho. rewrite Ux in Ho.
  destruct (c0_near lm dl X C HP x y Fx Fy Bx Bl) as (Fe & Ne & F0 & V0 & N0).
  destruct mu2_parts as (MU1 & MU2 & MU3). pose proof (ep_range lm dl X C HP) as [EP EQ]. pose proof HP as (Hd & HX & HC & _). destruct (m1_val lm) as [Fm Vm]. pose proof uu_small as U. assert (D0 : 0 <= qc_drop C) by (unfold qc_drop; apply Rmult_le_pos; [lra|apply bpow_ge_0]).
  pose proof (exp_X lm dl X C HP) as (EX & XE & EX1). pose proof (e_range X x Bx) as ER. destruct (opp_v x) as [VOx FOx]. destruct (opp_v y) as [VOy FOy].
  assert (CX : 0 <= uu * (C * X)) by (apply Rmult_le_pos; [lra|apply Rmult_le_pos; lra]). assert (XR : uu * X <= uu * (X / r)) by (apply Rmult_le_compat_l; lra). assert (EXX : 0 <= eps * ((1 + 2 * X) * exp X)) by (apply Rmult_le_pos; [lra|apply Rmult_le_pos; lra]). assert (uX : 0 <= uu * X) by (apply Rmult_le_pos; lra).
  destruct (qc2_cases (N := F) idx u ga x y Hi Ex Ey) as (idx' & Hi' & [(K & R)|[(K & R)|[(K & R)|(K0 & K1 & K2 & [(K & R)|(K & R)])]]]); exists idx'; rewrite R; clear R.
  - pose proof (gt_val lm _ F0 K) as P.
    exists ga, (vec2 (N := F) (nexp (n := F) x) nm1), (fsub (nexp (n := F) x) y), false. split; [reflexivity|]. split; [exact Hi'|]. split; [exact Hg|]. split; [split; reflexivity|]. split; [constructor; [exact Fe|constructor; [exact Fm|constructor]]|]. split; [exact F0|]. split; [lra|]. split; [auto|]. split; [discriminate|].
    intros z Bz (H1 & _). unfold along, dot. cbn [Rsum]. rewrite Ux, Uy. change (fcoords (vec2 (N := F) (nexp (n := F) x) nm1) 0%nat) with (val (nexp (n := F) x : f64)). change (fcoords (vec2 (N := F) (nexp (n := F) x) nm1) 1%nat) with (val (nm1 (N := F) : f64)). rewrite Vm. apply Rabs_le_inv in N0. set (E := val (nexp (n := F) x : f64)) in *.
    pose proof (Bz 0%nat ltac:(lia)) as B0. apply Rabs_le_inv in B0. apply Rabs_le_inv in Bx. pose proof (exp_above (val (x : f64)) (z 0%nat)) as EA.
    assert (Q : (E - exp (val (x : f64))) * (1 + (z 0%nat - val (x : f64))) <= dl * exp X * (1 + 2 * X)).
    { eapply Rle_trans; [apply Rle_abs|]. rewrite Rabs_mult. apply Rmult_le_compat; try apply Rabs_pos; [|apply Rabs_le; lra]. eapply Rle_trans; [exact Ne|]. apply Rmult_le_compat_l; lra. }
    assert (Q2 : dl * exp X * (1 + 2 * X) + uu * (2 * exp X + 2 * X) <= 2 * eps * ((1 + 2 * X) * exp X)).
    { rewrite <- EQ. assert (0 <= dl * ((1 + 2 * X) * exp X)) by (apply Rmult_le_pos; [lra|apply Rmult_le_pos; lra]). assert (uu * X <= uu * exp X) by (apply Rmult_le_compat_l; lra). assert (0 <= uu * (exp X * X)) by (apply Rmult_le_pos; [lra|apply Rmult_le_pos; lra]). assert (0 <= uu * exp X) by (apply Rmult_le_pos; lra). lra. }
    replace (E * (z 0%nat - val (x : f64)) + (0 + -1 * (z 1%nat - val (y : f64)))) with ((E - exp (val (x : f64))) * (1 + (z 0%nat - val (x : f64))) + exp (val (x : f64)) * (1 + (z 0%nat - val (x : f64))) - E - (z 1%nat - val (y : f64))) by ring. lra.
  - pose proof (gt_val lm _ (FOy Fy) K) as P. rewrite VOy in P.
    exists ga, (vec2 (N := F) n0 nm1), (nopp (n := F) y), false. split; [reflexivity|]. split; [exact Hi'|]. split; [exact Hg|]. split; [split; reflexivity|]. split; [constructor; [apply n0_fin|constructor; [exact Fm|constructor]]|]. split; [exact (FOy Fy)|]. split; [lra|]. split; [rewrite VOy; auto|]. split; [discriminate|].
    intros z Bz (H1 & _). unfold along, dot. cbn [Rsum]. rewrite Ux, Uy, VOy. change (fcoords (vec2 (N := F) n0 nm1) 0%nat) with (val (n0 (N := F) : f64)). change (fcoords (vec2 (N := F) n0 nm1) 1%nat) with (val (nm1 (N := F) : f64)). rewrite Vm, n0_val. pose proof (exp_pos (z 0%nat)). lra.
  - pose proof (gt_val lm _ (FOx Fx) K) as P. rewrite VOx in P.
    exists ga, (vec2 (N := F) nm1 n0), (nopp (n := F) x), false. split; [reflexivity|]. split; [exact Hi'|]. split; [exact Hg|]. split; [split; reflexivity|]. split; [constructor; [exact Fm|constructor; [apply n0_fin|constructor]]|]. split; [exact (FOx Fx)|]. split; [lra|]. split; [rewrite VOx; auto|]. split; [discriminate|].
    intros z Bz (_ & H1 & _). unfold along, dot. cbn [Rsum]. rewrite Ux, Uy, VOx. change (fcoords (vec2 (N := F) nm1 n0) 0%nat) with (val (nm1 (N := F) : f64)). change (fcoords (vec2 (N := F) nm1 n0) 1%nat) with (val (n0 (N := F) : f64)). rewrite Vm, n0_val. lra.
  - pose proof (le_val lm _ F0 K0) as P0. rewrite V0 in P0. assert (EY : val (nexp (n := F) x : f64) <= val (y : f64)). { enough (val (nexp (n := F) x : f64) + - val (y : f64) <= 0) by lra. apply rnd_sign; [apply val_generic|apply generic_format_opp, val_generic|exact P0]. }
    pose proof (le_val lm _ (FOx Fx) K2) as P2. rewrite VOx in P2. assert (Rx : r * r <= val (x : f64)) by lra.
    destruct (m_near lm dl X C r HP Hr x y ga Fx Fy Bx Bl Hg Rx EY) as (W1 & W2 & W3 & W4 & W5 & W6). destruct (h_near lm dl X C r HP Hr x Fx Bx Rx) as [H1 _].
    pose proof (gt_val lm _ W4 K) as P. set (h := fdiv (nopp (n := F) nhalf) (fsqrt x)) in *. set (m := fadd (nopp (n := F) (fsqrt x)) (fmul ga y)) in *.
    exists ga, (vec2 (N := F) h ga), m, false. split; [reflexivity|]. split; [exact Hi'|]. split; [exact Hg|]. split; [split; reflexivity|]. split; [constructor; [exact H1|constructor; [exact (proj1 Hg)|constructor]]|]. split; [exact W4|]. split; [lra|]. split; [auto|]. split; [discriminate|].
    intros z Bz (_ & Z0 & Z1). unfold along, dot. cbn [Rsum]. rewrite Ux, Uy. change (fcoords (vec2 (N := F) h ga) 0%nat) with (val h). change (fcoords (vec2 (N := F) h ga) 1%nat) with (val ga).
    pose proof (slope lm dl X C r HP Hr x Fx Bx Rx (z 0%nat) Z0 (Bz 0%nat ltac:(lia))) as SL. fold h in SL. apply Rabs_le_inv in W6. lra.
  - pose proof (le_val lm _ F0 K0) as P0. rewrite V0 in P0. assert (EY : val (nexp (n := F) x : f64) <= val (y : f64)). { enough (val (nexp (n := F) x : f64) + - val (y : f64) <= 0) by lra. apply rnd_sign; [apply val_generic|apply generic_format_opp, val_generic|exact P0]. }
    pose proof (le_val lm _ (FOx Fx) K2) as P2. rewrite VOx in P2. assert (Rx : r * r <= val (x : f64)) by lra.
    destruct (m_near lm dl X C r HP Hr x y ga Fx Fy Bx Bl Hg Rx EY) as (W1 & W2 & W3 & W4 & W5 & W6). destruct (h_near lm dl X C r HP Hr x Fx Bx Rx) as [H1 _].
    pose proof (le_val lm _ W4 K) as P. rewrite W5 in P. set (h := fdiv (nopp (n := F) nhalf) (fsqrt x)) in *.
    assert (WT : val (fmul ga y) <= val (fsqrt x)). { enough (- val (fsqrt x) + val (fmul ga y) <= 0) by lra. apply rnd_sign; [apply generic_format_opp, val_generic|apply val_generic|exact P]. }
    destruct (d_near lm dl X C r HP Hr x y ga Fx Fy Bx Bl Hg Rx EY WT) as (D1 & D2 & D3 & D4 & D5). set (d := fdiv (fsqrt x) y) in *.
    exists d, (vec2 (N := F) h d), (n0 (N := F)), true. split; [reflexivity|]. split; [exact Hi'|]. split; [split; [exact D1|lra]|]. split; [split; reflexivity|]. split; [constructor; [exact H1|constructor; [exact D1|constructor]]|]. split; [apply n0_fin|]. split; [exact D4|]. split; [discriminate|]. split.
    + intros _. split; [unfold qc2_good; rewrite Ux, Uy; split; [exact (proj2 (y_low lm dl X C r HP Hr x y Fx Fy Bx Bl Rx EY))|split; [lra|exact D3]]|]. split; [lra|apply n0_val].
    + intros z Bz (_ & Z0 & Z1). unfold along, dot. cbn [Rsum]. rewrite Ux, Uy, n0_val. change (fcoords (vec2 (N := F) h d) 0%nat) with (val h). change (fcoords (vec2 (N := F) h d) 1%nat) with (val d).
      pose proof (slope lm dl X C r HP Hr x Fx Bx Rx (z 0%nat) Z0 (Bz 0%nat ltac:(lia))) as SL. fold h in SL. apply Rabs_le_inv in D5. lra.
Qed.
End C.
