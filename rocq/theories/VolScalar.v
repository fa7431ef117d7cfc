(** Real inequalities for the volume factor delta^n (1 - sigma). *)
From Coq Require Import Reals Arith Lia Lra Psatz.
From Verif Require Import Spec RealLin CutScalar EllReal.
Open Scope R_scope.

Lemma exp_up x : 1 + x <= exp x.
Proof. apply exp_ineq1_le. Qed.
Lemma exp_pow x n : exp x ^ n = exp (INR n * x).
Proof.
  induction n as [|n IH]; [simpl; now rewrite Rmult_0_l, exp_0|]. cbn [pow]. rewrite IH, <- exp_plus, S_INR. f_equal. ring.
Qed.
Lemma pow_up x n : 0 <= x -> x ^ n <= exp (INR n * (x - 1)).
Proof. intros H. rewrite <- exp_pow. apply pow_incr. pose proof (exp_up (x - 1)). lra. Qed.
Lemma bernoulli x n : -1 <= x -> 1 + INR n * x <= (1 + x) ^ n.
Proof.
  intros H. induction n as [|n IH]; [simpl; lra|]. cbn [pow]. rewrite S_INR.
  pose proof (pos_INR n). assert (0 <= INR n * (x * x)) by (apply Rmult_le_pos; nra).
  apply Rle_trans with ((1 + x) * (1 + INR n * x)); [lra|]. apply Rmult_le_compat_l; lra.
Qed.

Section DeepVol.
Variables (n : nat) (tau beta : R).
Hypothesis Hn : (2 <= n)%nat.
Hypothesis Ht : 0 < tau.
Hypothesis Hlo : - tau < beta.
Hypothesis Hhi : beta < tau.
Let m := INR n.
Let sigma := 2 * ((tau + m * beta) / (m + 1)) / (tau + beta).
Let delta := m * m / (m * m - 1) * (1 - beta / tau * (beta / tau)).
Let Hm : 2 <= m.
Proof. apply INR_two; auto. Qed.
Let al := beta / tau.
Let a := m * (1 + al) / (m - 1).
Let b := m * (1 - al) / (m + 1).
Lemma dv_al : -1 < al < 1.
Proof. unfold al. split; apply Rmult_lt_reg_r with tau; auto; unfold Rdiv; rewrite Rmult_assoc, Rinv_l by lra; lra. Qed.
Lemma dv_a : 0 < a.
Proof. pose proof dv_al. apply Rdiv_lt_0_compat; nra. Qed.
Lemma dv_b : 0 < b.
Proof. pose proof dv_al. apply Rdiv_lt_0_compat; nra. Qed.
Lemma dv_delta : delta = a * b.
Proof. unfold delta, a, b. fold al. field. nra. Qed.
Lemma dv_sigma : delta * (1 - sigma) = b * b.
Proof. unfold delta, sigma, b, al. field. nra. Qed.
Lemma dv_factor : delta ^ n * (1 - sigma) = a ^ (n - 1) * b ^ (n + 1).
Proof.
  replace n with (S (n - 1)) at 1 by lia. cbn [pow].
  replace (delta * delta ^ (n - 1) * (1 - sigma)) with (delta ^ (n - 1) * (delta * (1 - sigma))) by ring.
  rewrite dv_sigma, dv_delta, Rpow_mult_distr. replace (n + 1)%nat with (S (S (n - 1))) by lia. cbn [pow]. ring.
Qed.
Lemma deep_vol_le : delta ^ n * (1 - sigma) <= 1.
Proof.
  rewrite dv_factor. pose proof dv_a. pose proof dv_b.
  apply Rle_trans with (exp (INR (n - 1) * (a - 1)) * exp (INR (n + 1) * (b - 1))).
  - apply Rmult_le_compat; try (apply pow_le; lra); apply pow_up; lra.
  - rewrite <- exp_plus. right. transitivity (exp 0); [|apply exp_0]. f_equal. rewrite minus_INR, plus_INR by lia. fold m. change (INR 1) with 1.
    unfold a, b. field. lra.
Qed.
Lemma deep_vol_exp : 0 <= beta -> delta ^ n * (1 - sigma) <= exp (- / (m + 1)).
Proof.
  intros Hb. assert (Hal : 0 <= al) by (apply Rmult_le_pos; [auto|left; apply Rinv_0_lt_compat; auto]).
  pose proof dv_al. replace n with (S (n - 1)) at 1 by lia. cbn [pow].
  replace (delta * delta ^ (n - 1) * (1 - sigma)) with (delta ^ (n - 1) * (delta * (1 - sigma))) by ring.
  rewrite dv_sigma.
  assert (Hd0 : 0 <= delta) by (rewrite dv_delta; pose proof dv_a; pose proof dv_b; nra).
  assert (Hd : delta <= m * m / (m * m - 1)).
  { unfold delta. fold al. assert (0 <= m * m / (m * m - 1)) by (apply Rlt_le, Rdiv_lt_0_compat; nra). nra. }
  assert (Hb1 : b <= exp (- / (m + 1))).
  { apply Rle_trans with (1 + - / (m + 1)); [|apply exp_up]. unfold b.
    replace (1 + - / (m + 1)) with (m * 1 / (m + 1)) by (field; lra). unfold Rdiv. apply Rmult_le_compat_r.
    - left. apply Rinv_0_lt_compat. lra.
    - apply Rmult_le_compat_l; lra. }
  pose proof dv_b.
  apply Rle_trans with (exp (/ (m + 1)) * (exp (- / (m + 1)) * exp (- / (m + 1)))).
  - apply Rmult_le_compat.
    + apply pow_le. auto.
    + nra.
    + apply Rle_trans with ((m * m / (m * m - 1)) ^ (n - 1)); [apply pow_incr; lra|].
      eapply Rle_trans; [apply pow_up; apply Rlt_le, Rdiv_lt_0_compat; nra|]. right. f_equal.
      rewrite minus_INR by lia. fold m. change (INR 1) with 1. field. nra.
    + apply Rmult_le_compat; lra.
  - rewrite <- !exp_plus. right. f_equal. ring.
Qed.
End DeepVol.

Section ParVol.
Variables (n : nat) (t b0 b1 : R).
Hypothesis Hn : (2 <= n)%nat.
Hypothesis Ht : 0 < t.
Hypothesis H01 : b0 < b1.
Let m := INR n.
Let Hm : 2 <= m.
Proof. apply INR_two; auto. Qed.
Hypothesis Heta : 0 <= t + m * (b0 * b1).
Hypothesis Hlo : - sqrt t < b1.
Hypothesis Hhi : b1 < sqrt t.
Let P := b0 * b1.
Let eta := t + m * P.
Let S := b0 + b1.
Let D := b1 - b0.
Let A := t + P + m / 2 * (S * S).
Let xi := sqrt ((t - b0 * b0) * (t - b1 * b1) + (m / 2 * (b1 * b1 - b0 * b0)) * (m / 2 * (b1 * b1 - b0 * b0))).
Let sigma := 2 * eta / (A + xi).
Let delta := m * m / (m * m - 1) * (((t - b0 * b0) + (t - b1 * b1)) / 2 + xi / m) / t.

Lemma pv_sigma_lt : sigma < 1.
Proof.
  assert (H := Heta). apply (par_sigma_lt m t b0 b1); auto; try lra.
Qed.
Lemma pv_sigma_nonneg : 0 <= sigma.
Proof. apply (par_sigma_nonneg m t b0 b1); auto; lra. Qed.
Lemma pv_delta_pos : 0 < delta.
Proof. apply (par_delta_pos m t b0 b1); auto; lra. Qed.
Lemma pv_Q : 4 * eta - 4 * A * sigma + (m + 1) * (S * S) * (sigma * sigma) = 0.
Proof.
  assert (Hden : 0 < A + xi) by (apply (par_den_pos m t b0 b1); auto; lra).
  assert (Hx : xi * xi = A * A - (m + 1) * (S * S) * eta) by (apply (par_xi_A m t b0 b1); auto; lra).
  assert (Hs : sigma * xi = 2 * eta - sigma * A) by (unfold sigma; field; lra).
  destruct (Req_dec eta 0) as [E|E].
  - assert (Z : sigma = 0) by (unfold sigma; rewrite E; unfold Rdiv; ring). rewrite Z, E. ring.
  - apply Rmult_eq_reg_l with eta; auto. rewrite Rmult_0_r.
    assert (H : sigma * xi * (sigma * xi) = sigma * sigma * (A * A - (m + 1) * (S * S) * eta)) by (rewrite <- Hx; ring).
    rewrite Hs in H. lra.
Qed.
Lemma pv_identity : (1 - sigma) * t + sigma * S / 2 * (sigma * S / 2) - sigma * P = (1 - sigma) * (delta * t).
Proof. apply (par_identity m t b0 b1); auto; lra. Qed.
(** the delta that goes with another choice of sigma for the same slab *)
Definition delta_for (s : R) : R := 1 + (s * s * (S * S) / 4 - s * P) / ((1 - s) * t).
Lemma pv_delta : delta = delta_for sigma.
Proof.
  pose proof pv_sigma_lt. pose proof pv_identity as E. unfold delta_for.
  apply Rmult_eq_reg_l with ((1 - sigma) * t); [|nra]. rewrite <- Rmult_assoc in E.
  replace ((1 - sigma) * t * delta) with ((1 - sigma) * delta * t) by ring. rewrite <- E. field. nra.
Qed.
Lemma pv_station : (1 - sigma) * (delta * t) = m * (D * D / 4 - S * S / 4 * ((1 - sigma) * (1 - sigma))).
Proof.
  rewrite <- pv_identity. pose proof pv_Q as Q. unfold eta, A in Q. unfold D, S, P in *.
  apply Rminus_diag_uniq. rewrite <- (Rmult_0_r (1 / 4)), <- Q. field.
Qed.
Lemma pv_opt s : s < 1 -> delta * (1 + ((1 - sigma) / (1 - s) - 1) / m) <= delta_for s.
Proof.
  intros Hs. pose proof pv_sigma_lt as Hl.
  assert (E : delta_for s - delta * (1 + ((1 - sigma) / (1 - s) - 1) / m) =
    S * S / 4 / t * ((s - sigma) * (s - sigma) / (1 - s))).
  { apply Rmult_eq_reg_l with ((1 - sigma) * t); [|nra].
    replace ((1 - sigma) * t * (delta_for s - delta * (1 + ((1 - sigma) / (1 - s) - 1) / m))) with
      ((1 - sigma) * t * delta_for s - (1 - sigma) * t * delta - (1 - sigma) * (delta * t) * ((1 - sigma) / (1 - s) - 1) / m) by (field; lra).
    rewrite pv_station, pv_delta. unfold delta_for, D, S, P. field. repeat split; lra. }
  assert (0 <= S * S / 4 / t * ((s - sigma) * (s - sigma) / (1 - s))); [|lra].
  apply Rmult_le_pos.
  - apply Rmult_le_pos; [assert (0 <= S * S) by apply Rle_0_sqr; lra|left; now apply Rinv_0_lt_compat].
  - apply Rmult_le_pos; [apply Rle_0_sqr|left; apply Rinv_0_lt_compat; lra].
Qed.
(** no other sigma gives a smaller volume *)
Lemma par_vol_opt s : s < 1 -> delta ^ n * (1 - sigma) <= delta_for s ^ n * (1 - s).
Proof.
  intros Hs. pose proof pv_sigma_lt as Hl. pose proof pv_delta_pos as Hd. pose proof (pv_opt s Hs) as H.
  set (r := (1 - sigma) / (1 - s)) in *.
  assert (Hr : 0 < r) by (apply Rdiv_lt_0_compat; lra).
  assert (Hx : -1 <= (r - 1) / m).
  { apply Rmult_le_reg_r with m; [lra|]. unfold Rdiv. rewrite Rmult_assoc, Rinv_l by lra. lra. }
  pose proof (bernoulli _ n Hx) as Hb. fold m in Hb. replace (1 + m * ((r - 1) / m)) with r in Hb by (field; lra).
  apply Rle_trans with ((delta * (1 + (r - 1) / m)) ^ n * (1 - s)).
  - rewrite Rpow_mult_distr, Rmult_assoc. apply Rmult_le_compat_l; [apply pow_le; lra|].
    apply Rle_trans with (r * (1 - s)); [right; unfold r; field; lra|]. apply Rmult_le_compat_r; lra.
  - apply Rmult_le_compat_r; [lra|]. apply pow_incr. split; auto. apply Rmult_le_pos; lra.
Qed.
Lemma par_vol_le : delta ^ n * (1 - sigma) <= 1.
Proof.
  eapply Rle_trans; [apply (par_vol_opt 0); lra|]. right. unfold delta_for.
  replace (1 + (0 * 0 * (S * S) / 4 - 0 * P) / ((1 - 0) * t)) with 1 by (field; lra). rewrite pow1. ring.
Qed.
Lemma par_vol_exp : 0 <= b0 -> delta ^ n * (1 - sigma) <= exp (- / (m + 1)).
Proof.
  intros Hb0. pose proof (sqrt_lt_R0 t Ht) as Hst. assert (Hss : sqrt t * sqrt t = t) by (apply sqrt_sqrt; lra).
  set (s := 2 / (m + 1)).
  assert (Hs1 : s < 1) by (unfold s; apply Rmult_lt_reg_r with (m + 1); [lra|]; unfold Rdiv; rewrite Rmult_assoc, Rinv_l by lra; lra).
  assert (Hs0 : 0 < s) by (apply Rdiv_lt_0_compat; lra).
  eapply Rle_trans; [apply (par_vol_opt s Hs1)|].
  pose proof (deep_vol_exp n (sqrt t) 0 Hn Hst ltac:(lra) ltac:(lra) (Rle_refl 0)) as H. fold m in H.
  replace (2 * ((sqrt t + m * 0) / (m + 1)) / (sqrt t + 0)) with s in H by (unfold s; field; lra).
  eapply Rle_trans; [|exact H]. apply Rmult_le_compat_r; [lra|]. apply pow_incr.
  assert (HP : 0 <= P) by (unfold P; nra).
  split.
  - pose proof (pv_opt s Hs1) as Ho. eapply Rle_trans; [|exact Ho]. apply Rmult_le_pos; [left; apply pv_delta_pos|].
    assert (0 < (1 - sigma) / (1 - s)) by (apply Rdiv_lt_0_compat; [pose proof pv_sigma_lt; lra|lra]).
    replace (1 + ((1 - sigma) / (1 - s) - 1) / m) with ((m - 1 + (1 - sigma) / (1 - s)) / m) by (field; lra).
    apply Rlt_le, Rdiv_lt_0_compat; lra.
  - replace (m * m / (m * m - 1) * (1 - 0 / sqrt t * (0 / sqrt t))) with (1 + s * s * t / 4 / ((1 - s) * t)).
    2:{ unfold s. field. repeat split; nra. }
    unfold delta_for. apply Rplus_le_compat_l. unfold Rdiv at 1 3. apply Rmult_le_compat_r; [left; apply Rinv_0_lt_compat; nra|].
    assert (HD : D * D <= t) by (unfold D; nra).
    replace (S * S) with (D * D + 4 * P) by (unfold S, D, P; ring).
    assert (0 <= s * s * (t - D * D)) by (apply Rmult_le_pos; nra). assert (0 <= s * (1 - s) * P) by (apply Rmult_le_pos; nra). lra.
Qed.
End ParVol.
