(** Real inequalities behind the cut formulas of ell_calc.rs. *)
From Coq Require Import Reals Arith Lia Lra Psatz.
From Verif Require Import Spec RealLin.
Open Scope R_scope.

Section Deep.
Variables (m tau beta : R).
Hypothesis Hm : 1 < m.
Hypothesis Ht : 0 < tau.
Hypothesis Hlo : 0 <= tau + m * beta.
Hypothesis Hhi : beta <= tau.
Let eta := tau + m * beta.
Let rho := eta / (m + 1).
Let sigma := 2 * rho / (tau + beta).
Let delta := m * m / (m * m - 1) * (1 - beta / tau * (beta / tau)).

Lemma deep_sum_pos : 0 < tau + beta.
Proof. destruct (Rle_dec 0 beta); [lra|]. assert (m * (tau + beta) > 0) by nra. nra. Qed.
Lemma deep_1_sigma : 1 - sigma = (m - 1) * (tau - beta) / ((m + 1) * (tau + beta)).
Proof. pose proof deep_sum_pos. unfold sigma, rho, eta. field. lra. Qed.
Lemma deep_sigma_nonneg : 0 <= sigma.
Proof.
  pose proof deep_sum_pos. unfold sigma, rho. unfold Rdiv.
  apply Rmult_le_pos; [|left; now apply Rinv_0_lt_compat].
  apply Rmult_le_pos; [lra|]. apply Rmult_le_pos; [auto|left; apply Rinv_0_lt_compat; lra].
Qed.
Lemma deep_sigma_le : sigma <= 1.
Proof.
  pose proof deep_sum_pos. cut (0 <= 1 - sigma); [lra|]. rewrite deep_1_sigma. unfold Rdiv.
  apply Rmult_le_pos; [nra|left; apply Rinv_0_lt_compat; nra].
Qed.
Lemma deep_sigma_lt : beta < tau -> sigma < 1.
Proof.
  intros Hb. pose proof deep_sum_pos. cut (0 < 1 - sigma); [lra|]. rewrite deep_1_sigma. unfold Rdiv.
  apply Rmult_lt_0_compat; [nra|apply Rinv_0_lt_compat; nra].
Qed.
Lemma deep_delta_tsq : delta * (tau * tau) = m * m / (m * m - 1) * (tau * tau - beta * beta).
Proof. unfold delta. field. nra. Qed.
Lemma deep_delta_pos : beta < tau -> 0 < delta.
Proof.
  intros Hb. pose proof deep_sum_pos.
  apply Rmult_lt_reg_r with (tau * tau); [nra|]. rewrite deep_delta_tsq, Rmult_0_l. unfold Rdiv.
  apply Rmult_lt_0_compat; [|nra]. apply Rmult_lt_0_compat; [nra|apply Rinv_0_lt_compat; nra].
Qed.
Lemma deep_identity : (1 - sigma) * (tau * tau) + rho * rho - sigma * (beta * tau) = (1 - sigma) * (delta * (tau * tau)).
Proof.
  pose proof deep_sum_pos. rewrite deep_delta_tsq, deep_1_sigma. unfold sigma, rho, eta. field. nra.
Qed.
Lemma deep_keeps s : - tau <= s -> s + beta <= 0 -> keeps (tau * tau) rho sigma delta s.
Proof.
  intros H1 H2. destruct (Rle_lt_or_eq_dec _ _ Hhi) as [Hb|Hb].
  - left. split; [now apply deep_sigma_lt|]. rewrite <- deep_identity.
    pose proof deep_sum_pos. pose proof deep_sigma_nonneg.
    assert (E : 2 * rho = sigma * (tau + beta)) by (unfold sigma; field; lra).
    assert ((s + tau) * (s + beta) <= 0) by nra.
    assert (sigma * ((s + tau) * (s + beta)) <= 0) by nra.
    rewrite E. nra.
  - right.
    assert (H : rho = tau) by (unfold rho, eta; rewrite Hb; field; lra).
    split; [unfold sigma; rewrite H, Hb; field; lra|]. split; [lra|].
    rewrite H. rewrite deep_delta_tsq, Hb. right. field. nra.
Qed.
End Deep.

Section Par.
Variables (m t b0 b1 : R).
Hypothesis Hm : 1 < m.
Hypothesis Ht : 0 < t.
Hypothesis H01 : b0 <= b1.
Let P := b0 * b1.
Let eta := t + m * P.
Hypothesis Heta : 0 <= eta.
Let z0 := t - b0 * b0.
Let z1 := t - b1 * b1.
Let tm := m / 2 * (b1 * b1 - b0 * b0).
Let xi := sqrt (z0 * z1 + tm * tm).
Let S := b0 + b1.
Let D := b1 - b0.
Let A := t + P + m / 2 * (S * S).
Let B := t - P - m / 2 * (D * D).
Let sigma := 2 * eta / (A + xi).
Let rho := sigma * S / 2.
Let delta := m * m / (m * m - 1) * ((z0 + z1) / 2 + xi / m) / t.

Lemma par_radicand : 0 <= z0 * z1 + tm * tm.
Proof.
  unfold tm. replace (b1 * b1 - b0 * b0) with (z0 - z1) by (unfold z0, z1; ring).
  replace (z0 * z1 + m / 2 * (z0 - z1) * (m / 2 * (z0 - z1)))
    with (((z0 + z1) * (z0 + z1) + (m * m - 1) * ((z0 - z1) * (z0 - z1))) / 4) by field.
  assert (0 <= (z0 + z1) * (z0 + z1)) by apply Rle_0_sqr.
  assert (0 <= (z0 - z1) * (z0 - z1)) by apply Rle_0_sqr.
  assert (0 <= m * m - 1) by nra. assert (0 <= (m * m - 1) * ((z0 - z1) * (z0 - z1))) by (apply Rmult_le_pos; auto). lra.
Qed.
Lemma par_xi_nonneg : 0 <= xi.
Proof. apply sqrt_pos. Qed.
Lemma par_xi_sq : xi * xi = z0 * z1 + tm * tm.
Proof. apply sqrt_sqrt, par_radicand. Qed.
Lemma par_xi_A : xi * xi = A * A - (m + 1) * (S * S) * eta.
Proof. rewrite par_xi_sq. unfold z0, z1, tm, A, S, eta, P. field. Qed.
Lemma par_xi_B : xi * xi = B * B + (m - 1) * (D * D) * eta.
Proof. rewrite par_xi_sq. unfold z0, z1, tm, B, D, eta, P. field. Qed.
Lemma par_AB : A + B = 2 * eta.
Proof. unfold A, B, S, D, eta, P. field. Qed.
Lemma par_tP_pos : 0 < t + P.
Proof. unfold eta in Heta. destruct (Rle_dec 0 P); [lra|]. nra. Qed.
Lemma par_den_pos : 0 < A + xi.
Proof. pose proof par_tP_pos. pose proof par_xi_nonneg. unfold A. assert (0 <= S * S) by apply Rle_0_sqr. nra. Qed.
Lemma par_sigma_nonneg : 0 <= sigma.
Proof. unfold sigma, Rdiv. apply Rmult_le_pos; [lra|]. left. apply Rinv_0_lt_compat, par_den_pos. Qed.
Lemma par_xi_ge_B : B <= xi.
Proof.
  pose proof par_xi_nonneg as Hx. pose proof par_xi_B as E.
  destruct (Rle_dec B 0); [lra|]. assert (0 <= (m - 1) * (D * D) * eta).
  { apply Rmult_le_pos; auto. apply Rmult_le_pos; [lra|apply Rle_0_sqr]. }
  nra.
Qed.
Lemma par_1_sigma : 1 - sigma = (xi - B) / (A + xi).
Proof. pose proof par_den_pos. unfold sigma. rewrite <- par_AB. field. lra. Qed.
Lemma par_sigma_le : sigma <= 1.
Proof.
  cut (0 <= 1 - sigma); [lra|]. rewrite par_1_sigma. pose proof par_xi_ge_B.
  unfold Rdiv. apply Rmult_le_pos; [lra|]. left. apply Rinv_0_lt_compat, par_den_pos.
Qed.
Lemma par_sigma_lt : (0 < eta /\ b0 < b1) \/ eta = 0 -> sigma < 1.
Proof.
  intros [[He Hb]|He].
  - cut (0 < 1 - sigma); [lra|]. rewrite par_1_sigma.
    assert (B < xi).
    { pose proof par_xi_nonneg as Hx. pose proof par_xi_B as E.
      assert (0 < (m - 1) * (D * D) * eta).
      { apply Rmult_lt_0_compat; auto. apply Rmult_lt_0_compat; [lra|unfold D; nra]. }
      destruct (Rlt_dec B 0); [lra|]. nra. }
    unfold Rdiv. apply Rmult_lt_0_compat; [lra|]. apply Rinv_0_lt_compat, par_den_pos.
  - unfold sigma. rewrite He. unfold Rdiv. rewrite Rmult_0_r, Rmult_0_l. lra.
Qed.
Lemma par_delta_t : delta * t = m * m / (m * m - 1) * ((z0 + z1) / 2 + xi / m).
Proof. unfold delta. field. nra. Qed.
Lemma par_identity : (1 - sigma) * t + rho * rho - sigma * P = (1 - sigma) * (delta * t).
Proof.
  rewrite par_delta_t. pose proof par_den_pos as Hd. unfold rho. rewrite par_1_sigma. unfold sigma.
  apply Rminus_diag_uniq.
  replace ((xi - B) / (A + xi) * t + 2 * eta / (A + xi) * S / 2 * (2 * eta / (A + xi) * S / 2) - 2 * eta / (A + xi) * P -
    (xi - B) / (A + xi) * (m * m / (m * m - 1) * ((z0 + z1) / 2 + xi / m)))
  with (- (m / (m * m - 1) * xi + (m * m / (m * m - 1) * ((z0 + z1) / 2) - t) + (A - B) * (m / (m * m - 1)))
      * (xi * xi - (z0 * z1 + tm * tm)) / ((A + xi) * (A + xi))).
  { rewrite par_xi_sq. field. nra. }
  assert (EB : B = 2 * eta - A) by (rewrite <- par_AB; ring). rewrite EB.
  clear - Hm Hd. clearbody xi. unfold z0, z1, tm, A, S, eta, P in *. field.
  split; [nra|]. split; [nra|]. lra.
Qed.
Lemma par_keeps s : s * s <= t -> s + b0 <= 0 -> 0 <= s + b1 -> keeps t rho sigma delta s.
Proof.
  intros Hs H0 H1.
  destruct (Rle_lt_or_eq_dec _ _ Heta) as [He|He]; [destruct (Rle_lt_or_eq_dec _ _ H01) as [Hb|Hb]|].
  - left. split; [apply par_sigma_lt; auto|]. rewrite <- par_identity.
    pose proof par_sigma_nonneg. assert ((s + b0) * (s + b1) <= 0) by nra.
    assert (sigma * ((s + b0) * (s + b1)) <= 0) by nra. unfold rho, S, P. nra.
  - right. assert (s = - b0) by lra.
    assert (Hz : xi = z0).
    { unfold xi, tm, z1. rewrite <- Hb.
      replace (z0 * (t - b0 * b0) + m / 2 * (b0 * b0 - b0 * b0) * (m / 2 * (b0 * b0 - b0 * b0))) with (z0 * z0) by (unfold z0; ring).
      apply sqrt_square. unfold z0. nra. }
    assert (sigma = 1).
    { assert (A + xi = 2 * eta). { rewrite Hz. unfold A, eta, P, S, z0. rewrite <- Hb. field. }
      unfold sigma. rewrite H2. field. lra. }
    split; auto. split; [unfold rho, S; rewrite H2, <- Hb; lra|].
    rewrite par_delta_t, Hz. unfold rho, S, z1. rewrite H2, <- Hb. fold z0.
    replace (m * m / (m * m - 1) * ((z0 + z0) / 2 + z0 / m)) with (z0 + z0 * / (m - 1)).
    2:{ field. split; nra. }
    assert (0 <= z0) by (unfold z0; nra).
    assert (0 <= z0 * / (m - 1)) by (apply Rmult_le_pos; [auto|left; apply Rinv_0_lt_compat; lra]).
    unfold z0 at 1. assert (1 * (b0 + b0) / 2 = b0) by field. rewrite H5. lra.
  - left. split; [apply par_sigma_lt; auto|]. rewrite <- par_identity.
    assert (sigma = 0). { unfold sigma. rewrite <- He. unfold Rdiv. ring. }
    unfold rho. rewrite H. lra.
Qed.
Lemma par_delta_pos : b0 < b1 -> - sqrt t < b1 -> b1 < sqrt t -> 0 < delta.
Proof.
  intros Hb Hlo Hhi.
  assert (Hst : sqrt t * sqrt t = t) by (apply sqrt_sqrt; lra).
  assert (Hz1 : 0 < z1) by (unfold z1; nra).
  apply Rmult_lt_reg_r with t; auto. rewrite Rmult_0_l, par_delta_t.
  apply Rmult_lt_0_compat.
  { apply Rmult_lt_0_compat; [nra|apply Rinv_0_lt_compat; nra]. }
  apply Rmult_lt_reg_r with m; [lra|]. rewrite Rmult_0_l.
  replace (((z0 + z1) / 2 + xi / m) * m) with (m / 2 * (z0 + z1) + xi) by (field; lra).
  pose proof par_xi_nonneg as Hx. pose proof par_xi_sq as E.
  assert (Et : tm = m / 2 * (z0 - z1)) by (unfold tm, z0, z1; ring). rewrite Et in E.
  destruct (Rlt_dec 0 z0) as [Hz0|Hz0].
  - assert (0 < m / 2 * (z0 + z1)) by (apply Rmult_lt_0_compat; lra). lra.
  - destruct (Rlt_dec 0 (m / 2 * (z0 + z1))) as [|Hn]; [lra|].
    destruct (Req_dec z0 0) as [Ez|Ez].
    + exfalso. apply Hn. rewrite Ez. apply Rmult_lt_0_compat; lra.
    + assert (z0 < 0) by lra.
      assert (E2 : xi * xi = m / 2 * (z0 + z1) * (m / 2 * (z0 + z1)) + (m * m - 1) * (- z0 * z1)) by (rewrite E; field).
      assert (0 < (m * m - 1) * (- z0 * z1)) by (apply Rmult_lt_0_compat; nra).
      set (w := m / 2 * (z0 + z1)) in *. nra.
Qed.
End Par.
