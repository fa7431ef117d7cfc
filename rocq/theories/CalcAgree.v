(** Agreement of the closed formulas of ell_calc.rs (C18). *)
From Coq Require Import Reals Arith Lia Lra Psatz.
From Verif Require Import Num CuttingPlane EllCalc Spec RealLin CutScalar EllReal.
Open Scope R_scope.
Notation core n := (core_new (N := RNum) (nN (N := RNum) n)).

Lemma core_par_eq n b0 b1 t : core_parallel_bias_cut (N := RNum) (core n) b0 b1 t = par3 (INR n) t b0 b1.
Proof. unfold core_parallel_bias_cut, core_parallel_bias_cut_fast, core_new, par3. rewrite nN_INR. reflexivity. Qed.
Lemma core_parc_eq n b1 t : core_parallel_central_cut (N := RNum) (core n) b1 t = parc3 n t b1.
Proof. unfold core_parallel_central_cut, core_new, parc3. rewrite nN_INR. reflexivity. Qed.
Lemma core_bias_eq n b tau : core_bias_cut (N := RNum) (core n) b tau = deep3 (INR n) tau b.
Proof. unfold core_bias_cut, core_bias_cut_fast, core_new, deep3. rewrite nN_INR. reflexivity. Qed.
Lemma core_central_eq n t : core_central_cut (N := RNum) (core n) t =
  (sqrt t / (INR n + 1), 2 * (1 / (INR n + 1)), INR n * INR n / (INR n * INR n - 1)).
Proof. unfold core_central_cut, core_new. rewrite nN_INR. reflexivity. Qed.

Lemma half_R : @nhalf RNum = / 2.
Proof. unfold nhalf. simpl. field. Qed.

Lemma old_eq_new n b0 b1 t : (2 <= n)%nat -> 0 < t -> b0 < b1 -> 0 <= t + INR n * (b0 * b1) ->
  core_parallel_bias_cut_fast_old (N := RNum) (core n) b0 b1 t (b0 * b1) (t + INR n * (b0 * b1)) =
  core_parallel_bias_cut_fast (N := RNum) (core n) b0 b1 t (b0 * b1) (t + INR n * (b0 * b1)).
Proof.
  intros Hn Ht H01 He. pose proof (INR_two n Hn) as Hm. assert (Hm1 : 1 < INR n) by lra.
  transitivity (par3 (INR n) t b0 b1).
  2:{ rewrite <- core_par_eq. unfold core_parallel_bias_cut, core_new. cbn [c_n_f]. rewrite nN_INR. reflexivity. }
  unfold core_parallel_bias_cut_fast_old. rewrite half_R. unfold core_new, par3. rewrite nN_INR. simpl.
  change (@n1 RNum) with 1. change (@n2 RNum) with 2.
  set (m := INR n) in *. set (P := b0 * b1) in *. set (eta := t + m * P) in *.
  pose proof (par_xi_sq m t b0 b1 Hm1) as E1. pose proof (par_xi_A m t b0 b1 Hm1) as E2.
  pose proof (par_xi_nonneg m t b0 b1) as Hx. pose proof (par_den_pos m t b0 b1 Hm1 Ht He) as Hd.
  pose proof (par_identity m t b0 b1 Hm1 Ht He) as Id.
  pose proof (par_sigma_lt m t b0 b1 Hm1 Ht He) as Hs1.
  fold P eta in E2, Id, Hd, Hs1. cbv zeta in *.
  set (xi := sqrt _) in *.
  set (A := t + P + m / 2 * ((b0 + b1) * (b0 + b1))) in *.
  set (bavg := (b0 + b1) * / 2).
  set (hs := (t + P) * / 2 + m * (bavg * bavg)).
  assert (EA : A = 2 * hs) by (unfold A, hs, bavg; field).
  assert (Esq : sqrt (hs * hs - eta * (m + 1) * (bavg * bavg)) = xi / 2).
  { replace (hs * hs - eta * (m + 1) * (bavg * bavg)) with (xi / 2 * (xi / 2)).
    - apply sqrt_square. lra.
    - replace (xi / 2 * (xi / 2)) with (xi * xi / 4) by field. rewrite E2, EA. unfold bavg. field. }
  rewrite Esq. set (k := hs + xi / 2).
  assert (Ek : A + xi = 2 * k) by (unfold k; rewrite EA; field).
  set (sigma := 2 * eta / (A + xi)) in *.
  assert (Ekk : eta / k = sigma) by (unfold sigma; rewrite Ek; field; lra).
  assert (Hk : 0 < k) by lra.
  assert (Hsl : sigma < 1). { apply Hs1. destruct (Rle_lt_or_eq_dec _ _ He); auto. }
  assert (Hke : eta < k).
  { apply Rmult_lt_reg_r with (/ k); [now apply Rinv_0_lt_compat|]. rewrite Rinv_r by lra. exact (eq_ind_r (fun v => v < 1) Hsl Ekk). }
  rewrite Ekk. apply f_equal2; [apply f_equal2|].
  - unfold bavg. field.
  - reflexivity.
  - set (delta := m * m / (m * m - 1) * ((t - b0 * b0 + (t - b1 * b1)) / 2 + xi / m) / t) in *.
    apply Rmult_eq_reg_r with (t * (1 - sigma)); [|nra].
    replace (delta * (t * (1 - sigma))) with ((1 - sigma) * (delta * t)) by ring. rewrite <- Id.
    assert (Emu : eta / (k - eta) * (1 - sigma) = sigma) by (rewrite <- Ekk; field; lra).
    replace ((t + eta / (k - eta) * (bavg * bavg * sigma - P)) / t * (t * (1 - sigma)))
      with (t * (1 - sigma) + eta / (k - eta) * (1 - sigma) * (bavg * bavg * sigma - P)) by (field; lra).
    rewrite Emu. unfold bavg. field.
Qed.

Lemma parallel_central_is_parallel n b1 t : (2 <= n)%nat -> 0 < t -> b1 * b1 < t ->
  core_parallel_central_cut (N := RNum) (core n) b1 t = core_parallel_bias_cut (N := RNum) (core n) 0 b1 t.
Proof. intros. rewrite core_parc_eq, core_par_eq. now apply parc3_par3. Qed.

Lemma central_is_bias n t : (1 <= n)%nat -> 0 < t ->
  core_central_cut (N := RNum) (core n) t = core_bias_cut (N := RNum) (core n) 0 (sqrt t).
Proof.
  intros Hn Ht. rewrite core_central_eq, core_bias_eq, <- central_deep by auto.
  pose proof (pos_INR n). apply f_equal2; auto. apply f_equal2; auto. field. lra.
Qed.

Lemma parallel_touching n b0 tau : (2 <= n)%nat -> 0 < tau -> - tau < b0 <= tau ->
  core_parallel_bias_cut (N := RNum) (core n) b0 tau (tau * tau) = core_bias_cut (N := RNum) (core n) b0 tau.
Proof.
  intros Hn Ht [H1 H2]. pose proof (INR_two n Hn) as Hm. rewrite core_par_eq, core_bias_eq. unfold par3, deep3.
  set (m := INR n) in *.
  replace (sqrt ((tau * tau - b0 * b0) * (tau * tau - tau * tau) + m / 2 * (tau * tau - b0 * b0) * (m / 2 * (tau * tau - b0 * b0))))
    with (m / 2 * (tau * tau - b0 * b0)).
  2:{ symmetry. replace (_ + _) with (m / 2 * (tau * tau - b0 * b0) * (m / 2 * (tau * tau - b0 * b0))) by ring.
      apply sqrt_square. apply Rmult_le_pos; [lra|].
      replace (tau * tau - b0 * b0) with ((tau - b0) * (tau + b0)) by ring. apply Rmult_le_pos; lra. }
  replace (tau * tau + b0 * tau + m / 2 * ((b0 + tau) * (b0 + tau)) + m / 2 * (tau * tau - b0 * b0))
    with ((tau + b0) * tau * (m + 1)) by field.
  apply f_equal2; [apply f_equal2|]; field; repeat split; nra.
Qed.
