(** The exact step with a pair of parallel cuts: the sizes of its numbers and what it
    does to an ellipsoid that is a little too large (C109). *)
From Coq Require Import Reals Lra Psatz Arith Lia.
From Verif Require Import Spec RealLin CutScalar EllReal.
Open Scope R_scope.

Section Pair.
Variables (m t b0 b1 : R).
Hypotheses (Hm : 2 <= m) (Ht : 0 < t) (H0 : 0 <= b0) (Hq : 4 * (b0 * b0) <= t) (H01 : b0 < b1) (H1 : b1 * b1 < t).
Let z0 := t - b0 * b0.
Let z1 := t - b1 * b1.
Let tm := m / 2 * (b1 * b1 - b0 * b0).
Let xi := sqrt (z0 * z1 + tm * tm).
Let eta := t + m * (b0 * b1).
Let den := t + b0 * b1 + m / 2 * ((b0 + b1) * (b0 + b1)) + xi.
Let sigma := 2 * eta / den.
Let rho := sigma * (b0 + b1) / 2.
Let C1 := m * m / (m * m - 1).
Let delta := C1 * ((z0 + z1) / 2 + xi / m) / t.
Lemma pg_par3 : par3 m t b0 b1 = (rho, sigma, delta). Proof. reflexivity. Qed.
Lemma pg_P : 0 <= b0 * b1. Proof. apply Rmult_le_pos; lra. Qed.
Lemma pg_eta : 0 < eta. Proof. pose proof pg_P. unfold eta. assert (0 <= m * (b0 * b1)) by (apply Rmult_le_pos; lra). lra. Qed.
Lemma pg_D : 0 <= b1 * b1 - b0 * b0 <= t.
Proof. assert (b0 * b0 <= b1 * b1) by (apply Rmult_le_compat; lra). assert (0 <= b0 * b0) by apply Rle_0_sqr. lra. Qed.
Lemma pg_z : 3 / 4 * t <= z0 <= t /\ 0 < z1 <= t.
Proof. unfold z0, z1. assert (0 <= b0 * b0) by apply Rle_0_sqr. assert (0 <= b1 * b1) by apply Rle_0_sqr. lra. Qed.
Lemma pg_tm : 0 <= tm <= m / 2 * t.
Proof. pose proof pg_D. unfold tm. split; [apply Rmult_le_pos; lra|apply Rmult_le_compat_l; lra]. Qed.
(** the radicand is not small *)
Lemma pg_X : 27 / 64 * (t * t) <= z0 * z1 + tm * tm /\ tm * tm <= z0 * z1 + tm * tm.
Proof.
  pose proof pg_z as [A B]. pose proof pg_D as D. assert (P : 0 <= z0 * z1) by (apply Rmult_le_pos; lra). split; [|lra].
  set (d := b1 * b1 - b0 * b0) in *. assert (E : z1 = z0 - d) by (unfold z1, z0, d; ring).
  assert (T : d * d <= tm * tm). { unfold tm. fold d. assert (1 * d <= m / 2 * d) by (apply Rmult_le_compat_r; lra). apply Rmult_le_compat; lra. }
  assert (S : 0 <= (z0 / 2 - d) * (z0 / 2 - d)) by apply Rle_0_sqr.
  assert (Z : 9 / 16 * (t * t) <= z0 * z0) by (replace (9 / 16 * (t * t)) with (3 / 4 * t * (3 / 4 * t)) by field; apply Rmult_le_compat; lra).
  rewrite E. lra.
Qed.
Lemma pg_xi0 : 0 <= xi. Proof. apply sqrt_pos. Qed.
Lemma pg_xi2 : xi * xi = z0 * z1 + tm * tm.
Proof. apply sqrt_sqrt. pose proof pg_X as [A _]. assert (0 < t * t) by (apply Rmult_lt_0_compat; lra). lra. Qed.
Lemma pg_xi_low : tm <= xi /\ 3 / 5 * t <= xi.
Proof.
  pose proof pg_X as [A B]. pose proof pg_tm as T. unfold xi. assert (TT : 0 < t * t) by (apply Rmult_lt_0_compat; lra). split.
  - rewrite <- (sqrt_square tm) at 1 by lra. apply sqrt_le_1_alt. exact B.
  - rewrite <- (sqrt_square (3 / 5 * t)) by lra. apply sqrt_le_1_alt. lra.
Qed.
Lemma pg_xi_up : xi <= (z0 + z1) / 2 + tm.
Proof.
  pose proof pg_z as [A B]. pose proof pg_tm as T. unfold xi. rewrite <- (sqrt_square ((z0 + z1) / 2 + tm)) by lra. apply sqrt_le_1_alt.
  assert (0 <= (z0 - z1) * (z0 - z1)) by apply Rle_0_sqr. assert (0 <= (z0 + z1) / 2 * tm) by (apply Rmult_le_pos; lra). lra.
Qed.
Lemma pg_C1 : 1 <= C1 <= 4 / 3.
Proof. unfold C1. split; apply Rmult_le_reg_r with (m * m - 1); try nra; replace (m * m / (m * m - 1) * (m * m - 1)) with (m * m) by (field; nra); nra. Qed.
Lemma pg_sum : 3 / 4 * t <= (z0 + z1) / 2 + xi / m <= 3 / 2 * t.
Proof.
  pose proof pg_xi_low as [L _]. pose proof pg_xi_up as U. pose proof pg_z as [A B]. assert (I : 0 < / m) by (apply Rinv_0_lt_compat; lra).
  assert (L2 : tm * / m <= xi * / m) by (apply Rmult_le_compat_r; lra). assert (U2 : xi * / m <= ((z0 + z1) / 2 + tm) * / m) by (apply Rmult_le_compat_r; lra).
  assert (E : tm * / m = (b1 * b1 - b0 * b0) / 2) by (unfold tm; field; lra). assert (I2 : / m <= / 2) by (apply Rinv_le_contravar; lra).
  assert (Z : (z0 + z1) / 2 * / m <= (z0 + z1) / 2 * / 2) by (apply Rmult_le_compat_l; lra). rewrite Rmult_plus_distr_r in U2. unfold Rdiv at 2 4.
  assert (0 <= b0 * b0) by apply Rle_0_sqr. assert (0 <= b1 * b1) by apply Rle_0_sqr. unfold z0, z1 in *. split; lra.
Qed.
Lemma pg_delta : 3 / 4 <= delta <= 2.
Proof.
  pose proof pg_sum as [A B]. pose proof pg_C1 as [C D]. unfold delta. set (w := (z0 + z1) / 2 + xi / m) in *. split; apply Rmult_le_reg_r with t; auto; replace (C1 * w / t * t) with (C1 * w) by (field; lra).
  - apply Rle_trans with (1 * w); [lra|]. apply Rmult_le_compat_r; lra.
  - apply Rle_trans with (4 / 3 * w); [|lra]. apply Rmult_le_compat_r; lra.
Qed.
Lemma pg_id : (1 - sigma) * t + rho * rho - sigma * (b0 * b1) = (1 - sigma) * (delta * t).
Proof. apply (par_identity m t b0 b1); [lra|exact Ht|left; exact pg_eta]. Qed.
Lemma pg_sigma : 0 < sigma < 1.
Proof.
  pose proof pg_eta. split.
  - unfold sigma. apply Rdiv_lt_0_compat; [lra|]. apply (par_den_pos m t b0 b1); [lra|exact Ht|left; exact pg_eta].
  - apply (par_sigma_lt m t b0 b1); [lra|exact Ht|left; exact pg_eta|left; split; [exact pg_eta|exact H01]].
Qed.
Lemma pg_on s : s + b0 <= 0 -> 0 <= s + b1 -> (1 - sigma) * t + rho * rho + 2 * rho * s + sigma * (s * s) <= (1 - sigma) * (delta * t).
Proof.
  intros A B. rewrite <- pg_id. pose proof pg_sigma as S. assert (K : 0 <= sigma * (- (s + b0) * (s + b1))) by (apply Rmult_le_pos; [lra|]; apply Rmult_le_pos; lra).
  assert (E : 2 * rho * s = sigma * (b0 + b1) * s) by (unfold rho; field). lra.
Qed.
Lemma pg_flat : (b1 - b0) * (b1 - b0) <= 8 * t * (1 - sigma).
Proof.
  pose proof pg_sigma as S. pose proof pg_delta as D. pose proof (pg_on (- b0) ltac:(lra) ltac:(lra)) as A. pose proof (pg_on (- b1) ltac:(lra) ltac:(lra)) as B.
  assert (W : (1 - sigma) * (delta * t) <= (1 - sigma) * (2 * t)) by (apply Rmult_le_compat_l; [lra|]; apply Rmult_le_compat_r; lra).
  assert (Z0 : 0 <= (1 - sigma) * (t - b0 * b0)) by (apply Rmult_le_pos; [lra|]; pose proof pg_z; unfold z0 in *; lra).
  assert (Z1 : 0 <= (1 - sigma) * (t - b1 * b1)) by (apply Rmult_le_pos; lra).
  assert (Q : 0 <= (2 * rho - b0 - b1) * (2 * rho - b0 - b1)) by apply Rle_0_sqr. lra.
Qed.
Lemma pg_rho : 0 < rho < b1 /\ rho * rho <= t.
Proof.
  pose proof pg_sigma as [S0 S1]. assert (A : 0 < rho) by (unfold rho; apply Rmult_lt_0_compat; [apply Rmult_lt_0_compat; lra|lra]).
  assert (B : rho < b1). { unfold rho. assert (sigma * (b0 + b1) < 1 * (b0 + b1)) by (apply Rmult_lt_compat_r; lra). lra. }
  split; [lra|]. assert (rho * rho <= b1 * b1) by (apply Rmult_le_compat; lra). lra.
Qed.
Lemma pg_grow s eps : 0 <= eps -> s + b0 <= 0 -> 0 <= s + b1 -> keeps (t * (1 + eps)) rho sigma (delta * (1 + 4 / 3 * eps) / (1 + eps)) s.
Proof.
  intros He A B. pose proof pg_sigma as [S0 S1]. pose proof pg_delta as D. pose proof (pg_on s A B) as K. left. split; [exact S1|].
  replace (delta * (1 + 4 / 3 * eps) / (1 + eps) * (t * (1 + eps))) with (delta * t + delta * (4 / 3) * (t * eps)) by (field; lra).
  assert (E1 : 0 <= t * eps) by (apply Rmult_le_pos; lra). assert (E2 : 1 * (t * eps) <= delta * (4 / 3) * (t * eps)) by (apply Rmult_le_compat_r; lra).
  assert (E3 : (1 - sigma) * (1 * (t * eps)) <= (1 - sigma) * (delta * (4 / 3) * (t * eps))) by (apply Rmult_le_compat_l; lra). lra.
Qed.
End Pair.
