(** The exp of [lm0] is good to the relative error 1/1000000 on [-5, 5], its ln to the
    absolute error 1/1000000 on [exp (-8), exp 8]. *)
From Coq Require Import ZArith Reals Lra Lia Psatz List Bool Arith.
From Flocq Require Import Core IEEE754.BinarySingleNaN.
From Verif Require Import Num Res Arr ArrLemmas CuttingPlane Spec EllReal FloatLemmas FloatErr FloatRel FcosAcc StepAccSpec Profit ProfitSpec ProfAccSpec ProfAcc.
Local Open Scope R_scope.
#[local] Opaque fadd fsub fmul fdiv fsqrt fofZ.
Lemma uu_val : uu = / 9007199254740992. Proof. reflexivity. Qed.
Lemma ee_le : ee <= uu / 1000000. Proof. apply Rle_trans with (bpow radix2 (-53 - 20)); [apply bpow_le; lia|]. unfold Zminus. rewrite bpow_plus. change (bpow radix2 (- (20))) with (/ 1048576). pose proof uu_small. lra. Qed.
Lemma low_bnd x : / 2000000 <= x -> bpow radix2 (-1010) <= x.
Proof. intros H. eapply Rle_trans; [|exact H]. apply Rle_trans with (bpow radix2 (-21)); [apply bpow_le; lia|]. change (bpow radix2 (-21)) with (/ 2097152). lra. Qed.
Lemma exp_INR3 k : exp (INR k) <= 3 ^ k.
Proof.
  induction k as [|k IH]; [cbn [INR pow]; rewrite exp_0; lra|]. rewrite S_INR, exp_plus. cbn [pow]. rewrite Rmult_comm. apply Rmult_le_compat; auto using exp_le_3; left; apply exp_pos.
Qed.
Lemma exp_13 : exp 13 <= 2000000.
Proof. replace 13 with (INR 13) by (cbn; lra). eapply Rle_trans; [apply exp_INR3|]. cbn [pow]. lra. Qed.
Lemma exp_range a : -13 <= a <= 13 -> / 2000000 <= exp a <= 2000000.
Proof.
  intros H. split. - apply Rle_trans with (exp (- (13))); [|apply exp_le; lra]. rewrite exp_Ropp. apply Rinv_le_contravar; [apply exp_pos|]. apply exp_13.
  - eapply Rle_trans; [|exact exp_13]. apply exp_le. lra.
Qed.
Lemma big_2 x : Rabs x <= 2000000 -> Rabs (rnd x) < bpow radix2 femax.
Proof. intros H. apply big_fin. eapply Rle_trans; [exact H|]. apply Rle_trans with (bpow radix2 21); [change (bpow radix2 21) with 2097152; lra|apply bpow_le; lia]. Qed.
(** rounding a positive number of moderate size moves its logarithm by at most 6 u *)
Lemma rnd_ln w : -13 <= w <= 13 -> 0 < rnd (exp w) /\ Rabs (ln (rnd (exp w)) - w) <= 6 * uu /\ Rabs (rnd (exp w)) < bpow radix2 femax.
Proof.
  intros H. destruct (exp_range w H) as [A B]. pose proof uu_small as U. assert (N : near (0 + 3 * uu) (rnd (exp w)) (exp w)) by (apply near_rnd; [apply near_exact; lra|lra|now apply low_bnd]).
  split; [apply near_pos with (0 + 3 * uu) (exp w); [exact N|lra|apply exp_pos]|]. split; [|apply big_2; rewrite Rabs_pos_eq; lra].
  pose proof (near_ln _ _ _ N ltac:(lra) (exp_pos w)) as Q. rewrite ln_exp in Q. lra.
Qed.
Definition is_exp (z : f64) (w d : R) : Prop := fin z = true /\ 0 < val z /\ Rabs (ln (val z) - w) <= d.
Lemma sq_step (z : f64) w d : is_exp z w d -> d <= 1 -> Rabs w <= 5 -> is_exp (fmul z z) (2 * w) (2 * d + 6 * uu).
Proof.
  intros (Fz & Pz & Nz) Hd Hw. apply Rabs_le_inv in Hw, Nz. set (v := ln (val z)) in *. assert (E : val z * val z = exp (2 * v)) by (replace (2 * v) with (v + v) by ring; rewrite exp_plus; unfold v; rewrite exp_ln by exact Pz; reflexivity).
  destruct (rnd_ln (2 * v) ltac:(lra)) as (A & B & C). rewrite <- E in A, B, C. destruct (fmul_fin z z Fz Fz C) as [V F1]. rewrite <- V in A, B. split; [exact F1|]. split; [exact A|]. apply Rabs_le_inv in B. apply Rabs_le. lra.
Qed.
Lemma is_exp_eq (z : f64) w d w' d' : is_exp z w d -> w = w' -> d <= d' -> is_exp z w' d'.
Proof. intros (A & B & C) -> H. repeat split; auto. lra. Qed.
Lemma sq_iter k (z : f64) w d : is_exp z w d -> 0 <= d -> 2 ^ k * (d + 6 * uu) <= 1 -> 2 ^ k * Rabs w <= 10 -> is_exp (Nat.iter k (fun z => fmul z z) z) (2 ^ k * w) (2 ^ k * (d + 6 * uu) - 6 * uu).
Proof.
  pose proof uu_small as U. intros H D0. induction k as [|k IH]; intros HD HW.
  { cbn [pow Nat.iter]. apply is_exp_eq with w d; [exact H|ring|lra]. }
  cbn [pow] in *. assert (P : 1 <= 2 ^ k) by (apply pow_R1_Rle; lra). pose proof (Rabs_pos w) as W0. assert (Q : 0 <= 2 ^ k * (d + 6 * uu)) by (apply Rmult_le_pos; lra). assert (Q2 : 0 <= 2 ^ k * Rabs w) by (apply Rmult_le_pos; lra).
  change (Nat.iter (S k) (fun z => fmul z z) z) with (fmul (Nat.iter k (fun z => fmul z z) z) (Nat.iter k (fun z => fmul z z) z)).
  assert (J := IH ltac:(lra) ltac:(lra)). apply sq_step in J; [|lra|rewrite Rabs_mult, (Rabs_pos_eq (2 ^ k)) by lra; lra].
  apply is_exp_eq with (1 := J); [ring|lra].
Qed.
Lemma sqrt_step (z : f64) w d : is_exp z w d -> d <= 1 -> Rabs w <= 8 -> is_exp (fsqrt z) (w / 2) (d / 2 + 6 * uu).
Proof.
  intros (Fz & Pz & Nz) Hd Hw. apply Rabs_le_inv in Hw, Nz. set (v := ln (val z)) in *. assert (E : sqrt (val z) = exp (v / 2)).
  { rewrite <- (sqrt_square (exp (v / 2))) by (left; apply exp_pos). rewrite <- exp_plus. replace (v / 2 + v / 2) with v by field. unfold v. rewrite exp_ln by exact Pz. reflexivity. }
  destruct (rnd_ln (v / 2) ltac:(lra)) as (A & B & C). rewrite <- E in A, B, C. destruct (fsqrt_fin z Fz ltac:(lra)) as [V F1]. rewrite <- V in A, B. split; [exact F1|]. split; [exact A|]. apply Rabs_le_inv in B. apply Rabs_le. lra.
Qed.
Lemma sqrt_iter k (z : f64) w : is_exp z w 0 -> Rabs w <= 8 -> is_exp (Nat.iter k fsqrt z) (w / 2 ^ k) (12 * uu).
Proof.
  pose proof uu_small as U. intros H Hw. induction k as [|k IH].
  { cbn [pow Nat.iter]. apply is_exp_eq with w 0; [exact H|field|lra]. }
  change (Nat.iter (S k) fsqrt z) with (fsqrt (Nat.iter k fsqrt z)). assert (P : 1 <= 2 ^ k) by (apply pow_R1_Rle; lra).
  apply sqrt_step in IH; [|lra|].
  - apply is_exp_eq with (1 := IH); [cbn [pow]; field; lra|lra].
  - unfold Rdiv. rewrite Rabs_mult, (Rabs_pos_eq (/ 2 ^ k)) by (left; apply Rinv_0_lt_compat; lra). assert (/ 2 ^ k <= 1) by (rewrite <- Rinv_1; apply Rinv_le_contravar; lra). assert (0 < / 2 ^ k) by (apply Rinv_0_lt_compat; lra). pose proof (Rabs_pos w). nra.
Qed.
Lemma p27 : 2 ^ 27 = 134217728. Proof. cbn [pow]. lra. Qed.
Lemma z27 : fin (fofZ (2 ^ 27)) = true /\ val (fofZ (2 ^ 27)) = 134217728.
Proof. destruct (fofZ_small (2 ^ 27) ltac:(cbn; lia)) as [A B]. split; [exact B|]. rewrite A. reflexivity. Qed.
Lemma ln_1 t : Rabs t <= 1 / 100 -> t - 102 / 100 * (t * t) <= ln (1 + t) <= t.
Proof.
  intros H. apply Rabs_le_inv in H. split; [|pose proof (ln_tan (1 + t) ltac:(lra)); lra].
  assert (Q : ln (/ (1 + t)) <= / (1 + t) - 1) by (apply ln_tan; apply Rinv_0_lt_compat; lra). rewrite ln_Rinv in Q by lra. assert (/ (1 + t) - 1 <= - t + 102 / 100 * (t * t)); [|lra].
  apply Rmult_le_reg_r with (1 + t); [lra|]. replace ((/ (1 + t) - 1) * (1 + t)) with (- t) by (field; lra). assert (0 <= t * t * (2 / 100 + 102 / 100 * t)) by (apply Rmult_le_pos; nra). lra.
Qed.
Lemma exp_1m w : Rabs w <= 1 / 100 -> w <= exp w - 1 <= w + 102 / 100 * (w * w).
Proof.
  intros H. apply Rabs_le_inv in H. split; [pose proof (exp_ineq1_le w); lra|]. pose proof (exp_ineq1_le (- w)) as Q. rewrite exp_Ropp in Q. pose proof (exp_pos w) as P. assert (K : exp w * (1 + - w) <= 1). { apply Rmult_le_reg_l with (/ exp w); [now apply Rinv_0_lt_compat|]. replace (/ exp w * (exp w * (1 + - w))) with (1 + - w) by (field; lra). lra. }
  assert (M : 1 <= (1 + w + 102 / 100 * (w * w)) * (1 - w)). { assert (0 <= w * w * (2 / 100 - 102 / 100 * w)) by (apply Rmult_le_pos; nra). lra. }
  assert (exp w <= 1 + w + 102 / 100 * (w * w)); [|lra]. apply Rmult_le_reg_r with (1 - w); lra.
Qed.
Lemma fexp_near (x : f64) : fin x = true -> Rabs (val x) <= 5 -> fin (fexp x) = true /\ Rabs (val (fexp x) - exp (val x)) <= / 1000000 * exp (val x).
Proof.
  intros Fx Hx. unfold fexp. destruct z27 as [F27 V27]. destruct (fofZ_small 1 ltac:(cbn; lia)) as [V1 F1]. pose proof uu_val as U. pose proof ee_le as EL. set (t := val x / 134217728). assert (Ht : Rabs t <= 38 / 1000000000). { unfold t. apply Rabs_le_inv in Hx. apply Rabs_le. lra. }
  assert (Q0 : Rabs (val x / val (fofZ (2 ^ 27))) <= 38 / 1000000000) by (rewrite V27; exact Ht).
  destruct (fdiv_fin x (fofZ (2 ^ 27)) Fx ltac:(rewrite V27; lra)) as [Vd Fd]; [apply big_2; lra|]. rewrite V27 in Vd. fold t in Vd. pose proof (rnd_err t) as R1. rewrite <- Vd in R1.
  assert (R1' : Rabs (val (fdiv x (fofZ (2 ^ 27))) - t) <= uu). { eapply Rle_trans; [exact R1|]. rewrite U in *. lra. }
  assert (N0 : near (2 * uu) (val (fofZ 1) + val (fdiv x (fofZ (2 ^ 27)))) (1 + t)). { rewrite V1. unfold near. replace (IZR 1 + val (fdiv x (fofZ (2 ^ 27))) - (1 + t)) with (val (fdiv x (fofZ (2 ^ 27))) - t) by ring. apply Rabs_le_inv in Ht. rewrite U in *. lra. }
  pose proof N0 as N0'. apply near_in in N0'. apply Rabs_le_inv in Ht as Ht'. assert (C : Rabs (val (fofZ 1) + val (fdiv x (fofZ (2 ^ 27)))) <= 2000000). { apply Rabs_le. rewrite U in *. lra. }
  destruct (fadd_fin _ _ F1 Fd (big_2 _ C)) as [Va Fa]. apply near_rnd in N0; [|rewrite U; lra|apply low_bnd; lra]. rewrite <- Va in N0. pose proof (near_pos _ _ _ N0 ltac:(rewrite U; lra) ltac:(lra)) as Pa.
  pose proof (near_ln _ _ _ N0 ltac:(rewrite U; lra) ltac:(lra)) as NL. destruct (ln_1 t ltac:(lra)) as [L1 L2]. assert (T2 : 0 <= t * t) by nra.
  assert (IE : is_exp (fadd (fofZ 1) (fdiv x (fofZ (2 ^ 27)))) t (102 / 100 * (t * t) + 10 * uu)). { split; [exact Fa|]. split; [exact Pa|]. apply Rabs_le_inv in NL. apply Rabs_le. lra. }
  assert (TB : 134217728 * (t * t) <= 25 / 134217728). { replace (134217728 * (t * t)) with (val x * val x / 134217728) by (unfold t; field). apply Rabs_le_inv in Hx. assert (val x * val x <= 25) by nra. lra. }
  apply (sq_iter 27) in IE; [|rewrite U; lra|rewrite p27, U; lra|rewrite p27; lra]. rewrite p27 in IE. set (ex := Nat.iter 27 _ _) in *. destruct IE as (Fe & Pe & Ne). split; [exact Fe|].
  replace (134217728 * t) with (val x) in Ne by (unfold t; field). assert (Ne' : Rabs (ln (val ex) - val x) <= 45 / 100000000) by (eapply Rle_trans; [exact Ne|]; rewrite U; lra).
  pose proof (near_exp _ _ _ Ne' ltac:(lra)) as NE. rewrite exp_ln in NE by exact Pe. unfold near in NE. eapply Rle_trans; [exact NE|]. apply Rmult_le_compat_r; [left; apply exp_pos|lra].
Qed.
Lemma fln_near (x : f64) : fin x = true -> exp (- 8) <= val x <= exp 8 -> fin (fln x) = true /\ Rabs (val (fln x) - ln (val x)) <= / 1000000.
Proof.
  intros Fx [X1 X2]. destruct z27 as [F27 V27]. destruct (fofZ_small 1 ltac:(cbn; lia)) as [V1 F1]. pose proof uu_val as U. pose proof ee_le as EL. pose proof (exp_pos (- 8)) as P8. set (lx := ln (val x)).
  assert (LX : Rabs lx <= 8). { assert (K : - 8 <= lx) by (unfold lx; rewrite <- (ln_exp (- 8)); destruct X1 as [X1|X1]; [left; apply ln_increasing; lra|rewrite X1; lra]). assert (K2 : lx <= 8) by (unfold lx; rewrite <- (ln_exp 8); destruct X2 as [X2|X2]; [left; apply ln_increasing; lra|rewrite X2; lra]). apply Rabs_le. lra. }
  assert (IE : is_exp x lx 0). { split; [exact Fx|]. split; [lra|]. unfold lx. rewrite Rminus_diag_eq, Rabs_R0 by reflexivity. lra. }
  apply (sqrt_iter 27) in IE; [|exact LX]. rewrite p27 in IE. unfold fln. set (r := Nat.iter 27 fsqrt x) in *. destruct IE as (Fr & Pr & Nr). set (w := ln (val r)) in *. assert (ER : val r = exp w) by (unfold w; now rewrite exp_ln).
  apply Rabs_le_inv in LX. apply Rabs_le_inv in Nr. assert (W : Rabs w <= 601 / 10000000000) by (apply Rabs_le; rewrite U in *; lra). destruct (exp_1m w ltac:(lra)) as [A B]. apply Rabs_le_inv in W as W'.
  assert (W2 : w * w <= 601 / 10000000000 * (601 / 10000000000)) by nra. assert (W0 : 0 <= w * w) by nra.
  assert (C : Rabs (val r - val (fofZ 1)) <= 602 / 10000000000). { rewrite V1, ER. apply Rabs_le. lra. }
  destruct (fsub_fin r (fofZ 1) Fr F1) as [Vs Fs]; [apply big_2; lra|]. pose proof (rnd_err (val r - val (fofZ 1))) as R1. rewrite <- Vs in R1. set (s := fsub r (fofZ 1)) in *.
  assert (R1' : Rabs (val s - (val r - val (fofZ 1))) <= uu / 100000). { eapply Rle_trans; [exact R1|]. rewrite U in *. lra. }
  rewrite V1, ER in R1'. apply Rabs_le_inv in R1'.
  assert (D : Rabs (val s * val (fofZ (2 ^ 27)) - lx) <= 85 / 100000000). { rewrite V27. apply Rabs_le. rewrite U in *. lra. }
  assert (D' : Rabs (val s * val (fofZ (2 ^ 27))) <= 9). { apply Rabs_le_inv in D. apply Rabs_le. lra. }
  destruct (fmul_fin s (fofZ (2 ^ 27)) Fs F27) as [Vm Fm]; [apply big_2; lra|]. split; [exact Fm|]. pose proof (rnd_err (val s * val (fofZ (2 ^ 27)))) as R2. rewrite <- Vm in R2.
  replace (val (fmul s (fofZ (2 ^ 27))) - lx) with ((val (fmul s (fofZ (2 ^ 27))) - val s * val (fofZ (2 ^ 27))) + (val s * val (fofZ (2 ^ 27)) - lx)) by ring. eapply Rle_trans; [apply Rabs_triang|]. rewrite U in *. lra.
Qed.
