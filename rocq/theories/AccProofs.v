(** Accuracy of the cut calculators in binary64 (C98). *)
From Coq Require Import ZArith Reals Lra Lia Bool Psatz Arith.
From Flocq Require Import Core IEEE754.BinarySingleNaN.
From Verif Require Import Num Res CuttingPlane EllCalc FloatLemmas KappaSign AccSpec FloatRel.
Local Open Scope R_scope.

#[local] Opaque fadd fsub fmul fdiv fsqrt fofZ.
Notation u := (bpow radix2 (-53)).

Section A.
Variable lm : Libm.
Notation F := (FNum lm).

Section Tables.
Variable n : nat.
Hypotheses (Hn : (2 <= n)%nat) (Hz : (Z.of_nat n <= 2 ^ 26)%Z).
Let N := INR n.
Let c := core_new (N := F) (nN n).

Lemma N_rng : rng 1 26 N.
Proof. unfold N. split; rewrite INR_IZR_INZ; [change (bpow radix2 1) with (IZR 2)|change (bpow radix2 26) with (IZR (2 ^ 26))]; apply IZR_le; lia. Qed.
Lemma N2 : 2 <= N. Proof. destruct N_rng as [H _]. exact H. Qed.
Lemma fint z : (0 <= z <= 2 ^ 53)%Z -> val (fofZ z) = IZR z /\ fin (fofZ z) = true. Proof. intros H. apply fofZ_small. lia. Qed.
Lemma nf_val : val (nN (N := F) n : f64) = N /\ fin (nN (N := F) n : f64) = true.
Proof. destruct (int_plus lm n ltac:(lia)) as (E & H & _). auto. Qed.
Lemma exact_add (x y : f64) a b : val x = IZR a -> fin x = true -> val y = IZR b -> fin y = true -> (0 <= a + b <= 2 ^ 53)%Z -> val (fadd x y) = IZR (a + b) /\ fin (fadd x y) = true.
Proof.
  intros E1 F1 E2 F2 H. assert (R : rnd (val x + val y) = IZR (a + b)) by (rewrite E1, E2, <- plus_IZR; apply (rnd_int); lia).
  rewrite <- R. apply fadd_fin; auto. rewrite R, Rabs_pos_eq by (apply IZR_le; lia). apply Rle_lt_trans with (bpow radix2 53); [apply IZR_le; apply H|apply bpow_lt; unfold femax; lia].
Qed.
Lemma exact_sub (x y : f64) a b : val x = IZR a -> fin x = true -> val y = IZR b -> fin y = true -> (0 <= a - b <= 2 ^ 53)%Z -> val (fsub x y) = IZR (a - b) /\ fin (fsub x y) = true.
Proof.
  intros E1 F1 E2 F2 H. assert (R : rnd (val x - val y) = IZR (a - b)) by (rewrite E1, E2, <- minus_IZR; apply (rnd_int); lia).
  rewrite <- R. apply fsub_fin; auto. rewrite R, Rabs_pos_eq by (apply IZR_le; lia). apply Rle_lt_trans with (bpow radix2 53); [apply IZR_le; apply H|apply bpow_lt; unfold femax; lia].
Qed.
Lemma exact_mul (x y : f64) a b : val x = IZR a -> fin x = true -> val y = IZR b -> fin y = true -> (0 <= a * b <= 2 ^ 53)%Z -> val (fmul x y) = IZR (a * b) /\ fin (fmul x y) = true.
Proof.
  intros E1 F1 E2 F2 H. assert (R : rnd (val x * val y) = IZR (a * b)) by (rewrite E1, E2, <- mult_IZR; apply (rnd_int); lia).
  rewrite <- R. apply fmul_fin; auto. rewrite R, Rabs_pos_eq by (apply IZR_le; lia). apply Rle_lt_trans with (bpow radix2 53); [apply IZR_le; apply H|apply bpow_lt; unfold femax; lia].
Qed.
Lemma close_exact (x : f64) X : val x = X -> fin x = true -> 0 <= X -> close 0 x X.
Proof. intros <- H1 H2. now apply close_val. Qed.
Let zn := Z.of_nat n.
Lemma Nz : N = IZR zn. Proof. apply INR_IZR_INZ. Qed.
Lemma c_nf : close 0 (c_n_f c : f64) N.
Proof. destruct nf_val as [E H]. apply close_exact; auto. pose proof N2. lra. Qed.
Lemma n1_exact : val (c_n_plus_1 c : f64) = N + 1 /\ fin (c_n_plus_1 c : f64) = true.
Proof.
  destruct nf_val as [E H]. destruct (fint 1 ltac:(lia)) as [E1 H1]. rewrite Nz in *. rewrite <- (plus_IZR zn 1).
  apply (exact_add (nN (N := F) n) (fofZ 1) zn 1); auto. unfold zn. lia.
Qed.
Lemma c_n1 : close 0 (c_n_plus_1 c : f64) (N + 1).
Proof. destruct n1_exact as [E H]. apply close_exact; auto. pose proof N2. lra. Qed.
Lemma N1_rng : rng 1 27 (N + 1).
Proof. apply (rng_add 1 26 0 N 1 N_rng). change (bpow radix2 0) with 1. lra. Qed.
Lemma c_one : close 0 (fofZ 1) 1. Proof. apply (close_int 1). lia. Qed.
Lemma c_two : close 0 (fofZ 2) 2. Proof. apply (close_int 2). lia. Qed.
Lemma one_rng : rng 0 0 1. Proof. split; apply Rle_refl. Qed.
Lemma two_rng : rng 1 1 2. Proof. split; apply Rle_refl. Qed.
Lemma c_half : close 1 (c_half_n c : f64) (N / 2).
Proof. apply (close_div 0 0 (nN (N := F) n) (fofZ 2)); [exact c_nf|exact c_two|lra|lia|]. exact (rng_mid _ _ _ (rng_div _ _ _ _ _ _ N_rng two_rng) ltac:(lia) ltac:(lia)). Qed.
Lemma c_inv : close 1 (c_inv_n c : f64) (1 / N).
Proof. pose proof N2. apply (close_div 0 0 (fofZ 1) (nN (N := F) n)); [exact c_one|exact c_nf|lra|lia|]. exact (rng_mid _ _ _ (rng_div _ _ _ _ _ _ one_rng N_rng) ltac:(lia) ltac:(lia)). Qed.
Lemma c_c2 : close 2 (c_cst2 c : f64) (2 / (N + 1)).
Proof.
  pose proof N2. replace (2 / (N + 1)) with (2 * (1 / (N + 1))) by (field; lra).
  pose proof (rng_div _ _ _ _ _ _ one_rng N1_rng) as Rd.
  apply (close_mul 0 1 (fofZ 2) (fdiv (fofZ 1) (fadd (nN (N := F) n) (fofZ 1)))); [exact c_two| |lia|exact (rng_mid _ _ _ (rng_mul _ _ _ _ _ _ two_rng Rd) ltac:(lia) ltac:(lia))].
  apply (close_div 0 0); [exact c_one|exact c_n1|lra|lia|exact (rng_mid _ _ _ Rd ltac:(lia) ltac:(lia))].
Qed.
Definition C1 : R := N * N / (N * N - 1).
Lemma C1_b : 1 <= C1 <= 4 / 3.
Proof.
  pose proof N2. unfold C1. assert (4 <= N * N) by nra. split.
  - apply Rmult_le_reg_r with (N * N - 1); [lra|]. replace (N * N / (N * N - 1) * (N * N - 1)) with (N * N) by (field; lra). lra.
  - apply Rmult_le_reg_r with (N * N - 1); [lra|]. replace (N * N / (N * N - 1) * (N * N - 1)) with (N * N) by (field; lra). lra.
Qed.
Lemma c_c1 : close 1 (c_cst1 c : f64) C1.
Proof.
  pose proof N2 as H2. destruct nf_val as [E H]. destruct (fint 1 ltac:(lia)) as [E1 H1]. pose proof C1_b as CB.
  assert (Zn : (2 <= zn <= 2 ^ 26)%Z) by (unfold zn; lia). assert (Zq : (4 <= zn * zn <= 2 ^ 52)%Z) by nia.
  destruct (exact_mul (nN (N := F) n) (nN (N := F) n) zn zn) as [Q1 Q2]; auto; try (rewrite <- Nz; exact E). { lia. }
  destruct (exact_sub (fmul (nN (N := F) n) (nN (N := F) n)) (fofZ 1) (zn * zn) 1) as [Q3 Q4]; auto. { lia. }
  assert (NN : 4 <= N * N) by nra.
  apply (close_div 0 0 (fmul (nN (N := F) n) (nN (N := F) n)) (fsub (fmul (nN (N := F) n) (nN (N := F) n)) (fofZ 1))).
  - apply close_exact; auto; [|lra]. rewrite Q1, mult_IZR, <- Nz. reflexivity.
  - apply close_exact; auto; [|lra]. rewrite Q3, minus_IZR, mult_IZR, <- Nz. reflexivity.
  - lra.
  - lia.
  - right. fold C1. split; [apply Rle_trans with (bpow radix2 0); [apply bpow_le; lia|exact (proj1 CB)]|].
    apply Rle_trans with (bpow radix2 1); [|apply bpow_le; lia]. change (bpow radix2 1) with 2. lra.
Qed.

(** *** the calculators *)
Variable t : f64.
Hypotheses (Ft : fin t = true) (Ht : rng (-100) 100 (val t)).
Let tau := sqrt (val t).
Lemma tau_rng : rng (-50) 50 tau. Proof. apply rng_sqrt. exact Ht. Qed.
Lemma tau_sq : tau * tau = val t. Proof. apply sqrt_def. left. exact (rng_pos _ _ _ Ht). Qed.
Lemma c_tau : close 1 (fsqrt t) tau.
Proof. apply (close_sqrt 0); [apply close_val; auto; left; exact (rng_pos _ _ _ Ht)|lia|]. exact (rng_mid _ _ _ tau_rng ltac:(lia) ltac:(lia)). Qed.
Lemma central_close rho sigma delta : calc_central_cut (N := F) (calc_new n) t = (Success, (rho, sigma, delta)) ->
  close 2 rho (tau / (N + 1)) /\ close 2 sigma (2 / (N + 1)) /\ close 1 delta C1.
Proof.
  intros E. change (calc_central_cut (N := F) (calc_new n) t) with (Success, (fdiv (fsqrt t) (c_n_plus_1 c : f64), c_cst2 c : f64, c_cst1 c : f64)) in E.
  inversion E. split; [|split; [exact c_c2|exact c_c1]]. pose proof N2.
  apply (close_div 1 0); [exact c_tau|exact c_n1|lra|lia|]. exact (rng_mid _ _ _ (rng_div _ _ _ _ _ _ tau_rng N1_rng) ltac:(lia) ltac:(lia)).
Qed.

Section Bias.
Variable b : f64.
Hypotheses (Fb : fin b = true) (Hb : val b = 0 \/ rng (-100) 100 (val b)).
Let B := val b.
Lemma B_b : 0 <= B <= bpow radix2 100.
Proof. unfold B. destruct Hb as [->|H]; [split; [lra|apply bpow_ge_0]|]. pose proof (rng_pos _ _ _ H). destruct H. lra. Qed.
Lemma c_b : close 0 b B. Proof. apply close_val; auto. apply B_b. Qed.
Lemma mid_mulB a d X : rng a d X -> (-800 <= a)%Z -> (d <= 800)%Z -> mid (X * B).
Proof. intros H Ha Hd. unfold B. destruct Hb as [->|K]; [left; lra|]. apply (rng_mid _ _ _ (rng_mul _ _ _ _ _ _ H K)); lia. Qed.
Lemma eta_rng : rng (-50) 127 (tau + N * B).
Proof.
  apply (rng_add (-50) 50 126 tau (N * B) tau_rng). pose proof B_b. pose proof N2. destruct N_rng as [_ H26]. split; [apply Rmult_le_pos; lra|].
  change 126%Z with (26 + 100)%Z. rewrite bpow_plus. apply Rmult_le_compat; lra.
Qed.
Lemma c_eta : close 2 (fadd (fsqrt t) (fmul (c_n_f c : f64) b)) (tau + N * B).
Proof.
  apply (close_add 1); [exact c_tau| |lia|exact (rng_mid _ _ _ eta_rng ltac:(lia) ltac:(lia))].
  apply (close_mul 0 0); [exact c_nf|exact c_b|lia|]. apply (mid_mulB 1 26); [exact N_rng|lia|lia].
Qed.
Lemma tb_rng : rng (-50) 101 (tau + B).
Proof. apply (rng_add (-50) 50 100 tau B tau_rng B_b). Qed.
Definition alpha : R := B / tau.
Lemma mid_alpha : mid alpha /\ mid (alpha * alpha).
Proof.
  unfold alpha, B. destruct Hb as [->|K]; [split; left; unfold Rdiv; ring|]. pose proof (rng_div _ _ _ _ _ _ K tau_rng) as Rd.
  split; [exact (rng_mid _ _ _ Rd ltac:(lia) ltac:(lia))|exact (rng_mid _ _ _ (rng_mul _ _ _ _ _ _ Rd Rd) ltac:(lia) ltac:(lia))].
Qed.
Lemma alpha_sq : alpha * alpha = B * B / val t.
Proof. rewrite <- tau_sq. pose proof (rng_pos _ _ _ tau_rng). unfold alpha. field. lra. Qed.
Lemma accepted : Bltb t (fmul b b) = false -> alpha * alpha <= 1001 / 1000.
Proof.
  intros H. rewrite alpha_sq. pose proof (rng_pos _ _ _ Ht) as Pt. pose proof B_b as HB.
  apply Rmult_le_reg_r with (val t); auto. replace (B * B / val t * val t) with (B * B) by (field; lra).
  assert (M : mid (B * B)). { unfold B. destruct Hb as [->|K]; [left; ring|]. apply (rng_mid _ _ _ (rng_mul _ _ _ _ _ _ K K)); lia. }
  destruct (close_mul 0 0 b b B B c_b c_b ltac:(lia) M) as (Fm & _ & H1 & _).
  rewrite fltb_fin in H by auto. revert H. case Rlt_bool_spec; [discriminate|]. intros H _.
  pose proof u_b as U. cbn [pow] in H1. rewrite Rmult_1_r in H1.
  assert (B * B * (1 - 1 / 1000000000) <= val t).
  { apply Rle_trans with (B * B * (1 - u)); [apply Rmult_le_compat_l; [apply Rmult_le_pos; lra|lra]|]. apply Rle_trans with (1 := H1). exact H. }
  assert (0 <= B * B) by (apply Rmult_le_pos; lra). lra.
Qed.
Lemma sqrt_accepted : Bltb (fsqrt t) b = false -> alpha * alpha <= 1001 / 1000.
Proof.
  intros H. pose proof B_b as HB. pose proof (rng_pos _ _ _ tau_rng) as Pt. destruct c_tau as (Fm & _ & _ & H1).
  rewrite fltb_fin in H by auto. revert H. case Rlt_bool_spec; [discriminate|]. intros H _. pose proof u_b as U. cbn [pow] in H1. rewrite Rmult_1_r in H1.
  fold B in H. assert (B * (1 - 1 / 1000000000) <= tau).
  { apply Rle_trans with (B * (1 - u)); [apply Rmult_le_compat_l; lra|]. apply Rle_trans with (val (fsqrt t) * (1 - u)); [apply Rmult_le_compat_r; lra|exact H1]. }
  assert (A : 0 <= alpha <= 10001 / 10000).
  { unfold alpha. split; [unfold Rdiv; apply Rmult_le_pos; [lra|left; now apply Rinv_0_lt_compat]|].
    apply Rmult_le_reg_r with tau; auto. replace (B / tau * tau) with B by (field; lra). lra. }
  apply Rle_trans with (10001 / 10000 * (10001 / 10000)); [apply Rmult_le_compat; lra|lra].
Qed.
Lemma delta_abs (w c1 : f64) A : close 5 w A -> 0 <= A <= 1001 / 1000 -> close 1 c1 C1 ->
  fin (fmul c1 (fsub (fofZ 1) w)) = true /\ Rabs (val (fmul c1 (fsub (fofZ 1) w)) - C1 * (1 - A)) <= 24 * u.
Proof.
  intros Hw HA Hc. pose proof u_b as U. pose proof C1_b as CB. destruct (fint 1 ltac:(lia)) as [O1 O2].
  pose proof (close_abs 5 w A Hw ltac:(lia)) as W1. pose proof (close_abs 1 c1 C1 Hc ltac:(lia)) as W2. destruct Hw as (Fw & _). destruct Hc as (Fc & _).
  replace (INR 5) with 5 in W1 by (rewrite INR_IZR_INZ; reflexivity). change (INR 1) with 1 in W2.
  set (v := val w) in *. set (k := val c1) in *.
  assert (W3 : Rabs (v - A) <= 1002 / 100 * u).
  { apply Rle_trans with (1 := W1). replace (2 * 5 * u * A) with (10 * A * u) by ring. apply Rmult_le_compat_r; lra. }
  assert (W4 : Rabs (k - C1) <= 267 / 100 * u).
  { apply Rle_trans with (1 := W2). replace (2 * 1 * u * C1) with (2 * C1 * u) by ring. apply Rmult_le_compat_r; lra. }
  apply Rabs_le_inv in W3. apply Rabs_le_inv in W4.
  assert (Z1 : Rabs (1 - v) <= 2) by (apply Rabs_le; lra).
  destruct (rnd_abs (1 - v) Z1) as [R1 R2]. rewrite <- O1 in R2. destruct (fsub_fin (fofZ 1) w O2 Fw R2) as [Es Fs]. rewrite O1 in Es. fold v in Es.
  apply Rabs_le_inv in R1. set (s := val (fsub (fofZ 1) w)) in *. rewrite <- Es in R1.
  assert (S1 : Rabs (s - (1 - A)) <= 1202 / 100 * u) by (apply Rabs_le; lra).
  assert (S2 : Rabs s <= 1001 / 1000) by (apply Rabs_le; apply Rabs_le_inv in S1; lra).
  assert (P1 : Rabs (k * s - C1 * (1 - A)) <= 1871 / 100 * u).
  { replace (k * s - C1 * (1 - A)) with ((k - C1) * s + C1 * (s - (1 - A))) by ring. eapply Rle_trans; [apply Rabs_triang|]. rewrite !Rabs_mult.
    assert (Q1 : Rabs (k - C1) * Rabs s <= 267 / 100 * u * (1001 / 1000)) by (apply Rmult_le_compat; try apply Rabs_pos; [apply Rabs_le; lra|exact S2]).
    assert (Q2 : Rabs C1 * Rabs (s - (1 - A)) <= 4 / 3 * (1202 / 100 * u)) by (apply Rmult_le_compat; try apply Rabs_pos; [rewrite Rabs_pos_eq; lra|exact S1]).
    lra. }
  apply Rabs_le_inv in P1.
  assert (C2 : -1 <= C1 * (1 - A) <= 4 / 3).
  { assert (0 <= C1 * A) by (apply Rmult_le_pos; lra). assert (C1 * A <= 4 / 3 * (1001 / 1000)) by (apply Rmult_le_compat; lra). lra. }
  assert (Z2 : Rabs (k * s) <= 2) by (apply Rabs_le; lra).
  destruct (rnd_abs (k * s) Z2) as [R3 R4]. destruct (fmul_fin c1 (fsub (fofZ 1) w) Fc Fs R4) as [Em Fm]. split; auto. rewrite Em. fold k s.
  apply Rabs_le_inv in R3. apply Rabs_le. lra.
Qed.
Lemma bias_core rho sigma delta : alpha * alpha <= 1001 / 1000 ->
  core_bias_cut_fast (N := F) c b (fsqrt t) (fadd (fsqrt t) (fmul (c_n_f c : f64) b)) = (rho, sigma, delta) ->
  close 3 rho ((tau + N * B) / (N + 1)) /\ close 7 sigma (2 * ((tau + N * B) / (N + 1)) / (tau + B)) /\
  fin delta = true /\ Rabs (val delta - C1 * (1 - alpha * alpha)) <= 24 * u.
Proof.
  intros HA E.
  change ((fdiv (fadd (fsqrt t) (fmul (c_n_f c : f64) b)) (c_n_plus_1 c : f64),
           fdiv (fmul (fofZ 2) (fdiv (fadd (fsqrt t) (fmul (c_n_f c : f64) b)) (c_n_plus_1 c : f64))) (fadd (fsqrt t) b),
           fmul (c_cst1 c : f64) (fsub (fofZ 1) (fmul (fdiv b (fsqrt t)) (fdiv b (fsqrt t))))) = (rho, sigma, delta)) in E.
  pose proof N2. pose proof B_b as BB. pose proof (rng_pos _ _ _ tau_rng) as Pt.
  pose proof (rng_div _ _ _ _ _ _ eta_rng N1_rng) as Rr. pose proof (rng_mul _ _ _ _ _ _ two_rng Rr) as R2. pose proof (rng_div _ _ _ _ _ _ R2 tb_rng) as R3.
  assert (Cr : close 3 (fdiv (fadd (fsqrt t) (fmul (c_n_f c : f64) b)) (c_n_plus_1 c : f64)) ((tau + N * B) / (N + 1))).
  { apply (close_div 2 0); [exact c_eta|exact c_n1|lra|lia|exact (rng_mid _ _ _ Rr ltac:(lia) ltac:(lia))]. }
  assert (Ca : close 2 (fdiv b (fsqrt t)) alpha).
  { apply (close_div 0 1); [exact c_b|exact c_tau|exact Pt|lia|apply mid_alpha]. }
  injection E as E1 E2 E3. subst rho sigma delta. split; [exact Cr|split; [|apply delta_abs; [|split; [|exact HA]|exact c_c1]]].
  - apply (close_div 4 2); [| |lra|lia|exact (rng_mid _ _ _ R3 ltac:(lia) ltac:(lia))].
    + apply (close_mul 0 3); [exact c_two|exact Cr|lia|exact (rng_mid _ _ _ R2 ltac:(lia) ltac:(lia))].
    + apply (close_add 1); [exact c_tau|apply (close_weak 0); [lia|exact c_b]|lia|exact (rng_mid _ _ _ tb_rng ltac:(lia) ltac:(lia))].
  - apply (close_mul 2 2); [exact Ca|exact Ca|lia|apply mid_alpha].
  - apply Rle_0_sqr.
Qed.
Lemma bias_close rho sigma delta : calc_bias_cut (N := F) (calc_new n) b t = (Success, (rho, sigma, delta)) ->
  close 3 rho ((tau + N * B) / (N + 1)) /\ close 7 sigma (2 * ((tau + N * B) / (N + 1)) / (tau + B)) /\
  fin delta = true /\ Rabs (val delta - C1 * (1 - alpha * alpha)) <= 24 * u.
Proof.
  intros E. unfold calc_bias_cut in E. change (nltb (n := F) t (nmul (n := F) b b)) with (Bltb t (fmul b b)) in E.
  destruct (Bltb t (fmul b b)) eqn:T; [discriminate|]. apply bias_core; [apply accepted; exact T|exact (f_equal snd E)].
Qed.
Lemma bias_q_close rho sigma delta : calc_bias_cut_q (N := F) (calc_new n) b t = (Success, (rho, sigma, delta)) ->
  close 3 rho ((tau + N * B) / (N + 1)) /\ close 7 sigma (2 * ((tau + N * B) / (N + 1)) / (tau + B)) /\
  fin delta = true /\ Rabs (val delta - C1 * (1 - alpha * alpha)) <= 24 * u.
Proof.
  intros E. unfold calc_bias_cut_q in E. change (nltb (n := F) (nsqrt (n := F) t) b) with (Bltb (fsqrt t) b) in E.
  destruct (Bltb (fsqrt t) b) eqn:T; [discriminate|].
  destruct (nltb (n := F) _ _); [discriminate|]. apply bias_core; [apply sqrt_accepted; exact T|exact (f_equal snd E)].
Qed.
End Bias.

Section Pair.
Variable b : f64.
Hypotheses (Fb : fin b = true) (Hb : rng (-100) 100 (val b)) (Hin : Bleb t (fmul b b) = false).
Let B := val b.
Let A := B * B / val t.
Let H := N / 2 * A.
Let X := 1 - A + H * H.
Let root := H + sqrt X.
Lemma B_pos : 0 < B. Proof. exact (rng_pos _ _ _ Hb). Qed.
Lemma cl_b : close 0 b B. Proof. apply close_val; auto. left. exact B_pos. Qed.
Lemma c_bb : close 1 (fmul b b) (B * B).
Proof. apply (close_mul 0 0); [exact cl_b|exact cl_b|lia|]. exact (rng_mid _ _ _ (rng_mul _ _ _ _ _ _ Hb Hb) ltac:(lia) ltac:(lia)). Qed.
Lemma bb_lt : B * B < val t.
Proof.
  destruct c_bb as (Fm & _). rewrite fleb_fin in Hin by auto. revert Hin. case Rle_bool_spec; [discriminate|]. intros G _.
  destruct (Rlt_le_dec (B * B) (val t)) as [|K]; auto. exfalso.
  assert (rnd (val t) <= rnd (B * B)) by now apply rnd_le. rewrite rnd_val in H0.
  assert (E : val (fmul b b) = rnd (B * B)). { apply fmul_fin; auto.
    assert (M : mid (B * B)) by exact (rng_mid _ _ _ (rng_mul _ _ _ _ _ _ Hb Hb) ltac:(lia) ltac:(lia)).
    apply (step 0 (B * B) (B * B) M); [lia|cbn [pow]; lra|cbn [pow]; lra]. }
  lra.
Qed.
Lemma A_rng : rng (-300) 300 A.
Proof. exact (rng_div _ _ _ _ _ _ (rng_mul _ _ _ _ _ _ Hb Hb) Ht). Qed.
Lemma A_b : 0 < A < 1.
Proof.
  split; [exact (rng_pos _ _ _ A_rng)|]. pose proof (rng_pos _ _ _ Ht). pose proof bb_lt. unfold A. apply Rmult_lt_reg_r with (val t); auto.
  replace (B * B / val t * val t) with (B * B) by (field; lra). lra.
Qed.
Lemma half_rng : rng 0 25 (N / 2).
Proof. exact (rng_div _ _ _ _ _ _ N_rng two_rng). Qed.
Lemma H_rng : rng (-300) 25 H.
Proof.
  split; [exact (proj1 (rng_mul _ _ _ _ _ _ half_rng A_rng))|]. pose proof A_b. pose proof half_rng as [_ K]. pose proof N2. unfold H.
  apply Rle_trans with (N / 2 * 1); [apply Rmult_le_compat_l; lra|lra].
Qed.
Lemma H_A : A <= H. Proof. pose proof A_b. pose proof N2. unfold H. apply Rle_trans with (1 * A); [lra|apply Rmult_le_compat_r; lra]. Qed.
Lemma X_b : 3 / 4 <= X /\ H * H <= X /\ (1 - H) * (1 - H) <= X.
Proof.
  pose proof A_b as HA. pose proof H_A as HH. unfold X. assert (A * A <= H * H) by (apply Rmult_le_compat; lra).
  assert (0 <= (A - 1 / 2) * (A - 1 / 2)) by apply Rle_0_sqr. split; [lra|split; lra].
Qed.
Lemma X_rng : rng (-1) 51 X.
Proof.
  destruct X_b as (X1 & _). pose proof A_b. destruct H_rng as [H1 H2]. pose proof (rng_pos _ _ _ H_rng). split.
  - change (bpow radix2 (-1)) with (/ 2). lra.
  - unfold X. assert (H * H <= bpow radix2 50). { change 50%Z with (25 + 25)%Z. rewrite bpow_plus. apply Rmult_le_compat; lra. }
    change 51%Z with (50 + 1)%Z. rewrite bpow_plus. change (bpow radix2 1) with 2. assert (1 <= bpow radix2 50) by (apply (bpow_le radix2 0 50); lia). lra.
Qed.
Lemma sqX_rng : rng (-1) 26 (sqrt X).
Proof. apply rng_sqrt. apply (rng_weak _ _ _ _ _ X_rng); lia. Qed.
Lemma root_rng : rng (-1) 27 root.
Proof. unfold root. rewrite Rplus_comm. apply (rng_add (-1) 26 25 _ _ sqX_rng). pose proof (rng_pos _ _ _ H_rng). destruct H_rng. lra. Qed.
Lemma root_1 : 1 <= root.
Proof.
  destruct X_b as (_ & _ & X3). unfold root. destruct (Rle_lt_dec 1 H) as [|K]; [pose proof (sqrt_pos X); lra|].
  assert (1 - H <= sqrt X). { rewrite <- (sqrt_square (1 - H)) by lra. now apply sqrt_le_1_alt. } lra.
Qed.
Let a1 := fdiv (fmul b b) t.
Let hv := fmul (c_half_n c : f64) a1.
Lemma c_t : close 0 t (val t). Proof. apply close_val; auto. left. exact (rng_pos _ _ _ Ht). Qed.
Lemma c_a1 : close 2 a1 A.
Proof. apply (close_div 1 0); [exact c_bb|exact c_t|exact (rng_pos _ _ _ Ht)|lia|exact (rng_mid _ _ _ A_rng ltac:(lia) ltac:(lia))]. Qed.
Lemma c_hv : close 4 hv H.
Proof. apply (close_mul 1 2); [exact c_half|exact c_a1|lia|exact (rng_mid _ _ _ H_rng ltac:(lia) ltac:(lia))]. Qed.
Lemma c_hh : close 9 (fmul hv hv) (H * H).
Proof. apply (close_mul 4 4); [exact c_hv|exact c_hv|lia|exact (rng_mid _ _ _ (rng_mul _ _ _ _ _ _ H_rng H_rng) ltac:(lia) ltac:(lia))]. Qed.
Lemma c_X : close 28 (fadd (fsub (fofZ 1) a1) (fmul hv hv)) X.
Proof.
  pose proof u_b as U. pose proof A_b as HA. destruct X_b as (X1 & X2 & _). destruct (fint 1 ltac:(lia)) as [O1 O2].
  pose proof (close_abs 2 _ _ c_a1 ltac:(lia)) as W1. pose proof (close_abs 9 _ _ c_hh ltac:(lia)) as W2. destruct c_a1 as (Fa & _). destruct c_hh as (Fh & HH0 & _).
  replace (INR 9) with 9 in W2 by (rewrite INR_IZR_INZ; reflexivity). replace (INR 2) with 2 in W1 by (rewrite INR_IZR_INZ; reflexivity).
  set (v := val a1) in *. set (w := val (fmul hv hv)) in *.
  assert (W3 : Rabs (v - A) <= 4 * u). { apply Rle_trans with (1 := W1). replace (2 * 2 * u * A) with (4 * A * u) by ring. apply Rmult_le_compat_r; lra. }
  apply Rabs_le_inv in W3. assert (Z1 : Rabs (1 - v) <= 2) by (apply Rabs_le; lra).
  destruct (rnd_abs (1 - v) Z1) as [R1 R2]. rewrite <- O1 in R2. destruct (fsub_fin (fofZ 1) a1 O2 Fa R2) as [Es Fs]. rewrite O1 in Es. fold v in Es.
  apply Rabs_le_inv in R1. rewrite <- Es in R1. set (s := val (fsub (fofZ 1) a1)) in *.
  assert (Wz : Rabs (s + w - X) <= INR 26 * u * X).
  { replace (INR 26) with 26 by (rewrite INR_IZR_INZ; reflexivity). apply Rabs_le_inv in W2. replace (2 * 9 * u * (H * H)) with (18 * (u * (H * H))) in W2 by ring.
    assert (K1 : u * (H * H) <= u * X) by (apply Rmult_le_compat_l; lra). assert (K2 : u * (3 / 4) <= u * X) by (apply Rmult_le_compat_l; lra).
    replace (26 * u * X) with (26 * (u * X)) by ring. 
    assert (XE : X = 1 - A + H * H) by reflexivity. clearbody X. set (ux := u * X) in *. set (uh := u * (H * H)) in *. clear - W2 K1 K2 XE R1 W3. apply Rabs_le. split; lra. }
  destruct (abs_close 26 (s + w) X ltac:(lra) ltac:(lia) Wz) as [L1 L2].
  destruct (step 27 X (s + w) (rng_mid _ _ _ X_rng ltac:(lia) ltac:(lia)) ltac:(lia) L1 L2) as (K1 & K2 & K3).
  destruct (fadd_fin (fsub (fofZ 1) a1) (fmul hv hv) Fs Fh) as [Ea Fa']; [exact K1|].
  split; [exact Fa'|split; [lra|]]. rewrite Ea. split; assumption.
Qed.
Lemma c_root : close 30 (fadd hv (fsqrt (fadd (fsub (fofZ 1) a1) (fmul hv hv)))) root.
Proof.
  apply (close_add 29); [apply (close_weak 4); [lia|exact c_hv]| |lia|exact (rng_mid _ _ _ root_rng ltac:(lia) ltac:(lia))].
  apply (close_sqrt 28); [exact c_X|lia|exact (rng_mid _ _ _ sqX_rng ltac:(lia) ltac:(lia))].
Qed.
Lemma pair_close rho sigma delta : calc_parallel_central_cut (N := F) (calc_new n) b t = (Success, (rho, sigma, delta)) ->
  close 32 rho (B / (root + 1)) /\ close 32 sigma (2 / (root + 1)) /\ close 152 delta (root / (root - 1 / N)).
Proof.
  intros E. unfold calc_parallel_central_cut in E.
  destruct (nltb (n := F) b _); [discriminate|].
  change (nleb (n := F) t (nmul (n := F) b b)) with (Bleb t (fmul b b)) in E. rewrite Hin in E. change (ec_use_parallel_cut (calc_new (N := F) n)) with true in E. cbn [orb negb] in E.
  apply (f_equal snd) in E. cbn [snd] in E. set (rt := fadd hv (fsqrt (fadd (fsub (fofZ 1) a1) (fmul hv hv)))).
  change ((fdiv b (fadd rt (fofZ 1)), fdiv (fofZ 2) (fadd rt (fofZ 1)), fdiv rt (fsub rt (c_inv_n c : f64))) = (rho, sigma, delta)) in E.
  pose proof c_root as Cr. fold rt in Cr. pose proof root_1 as R1. pose proof N2 as HN.
  assert (R1r : rng (-1) 28 (root + 1)). { apply (rng_add (-1) 27 0 root 1 root_rng). change (bpow radix2 0) with 1. lra. }
  assert (C1' : close 31 (fadd rt (fofZ 1)) (root + 1)).
  { apply (close_add 30); [exact Cr|apply (close_weak 0); [lia|exact c_one]|lia|exact (rng_mid _ _ _ R1r ltac:(lia) ltac:(lia))]. }
  assert (I2 : 0 < 1 / N <= 1 / 2).
  { split; [apply Rdiv_lt_0_compat; lra|]. apply Rmult_le_compat_l; [lra|]. apply Rinv_le; lra. }
  assert (Rd : rng (-2) 27 (root - 1 / N)). { destruct root_rng as [_ K]. change (bpow radix2 27) with (bpow radix2 27). split; [change (bpow radix2 (-2)) with (/ 4); lra|lra]. }
  injection E as E1 E2 E3. subst rho sigma delta. split; [|split].
  - apply (close_div 0 31); [exact cl_b|exact C1'|lra|lia|exact (rng_mid _ _ _ (rng_div _ _ _ _ _ _ Hb R1r) ltac:(lia) ltac:(lia))].
  - apply (close_div 0 31); [exact c_two|exact C1'|lra|lia|exact (rng_mid _ _ _ (rng_div _ _ _ _ _ _ two_rng R1r) ltac:(lia) ltac:(lia))].
  - apply (close_div 30 121); [exact Cr| |lra|lia|exact (rng_mid _ _ _ (rng_div _ _ _ _ _ _ root_rng Rd) ltac:(lia) ltac:(lia))].
    apply (close_sub 30); [exact Cr|apply (close_weak 1); [lia|exact c_inv]|lia|lra|exact (rng_mid _ _ _ Rd ltac:(lia) ltac:(lia))].
Qed.
End Pair.
End Tables.

(** *** the decision to reject a cut *)
Lemma bias_nosoln (e : EllCalc F) (b t : f64) x : fin b = true -> fin t = true -> calc_bias_cut (N := F) e b t = (NoSoln, x) -> val t < val b * val b.
Proof.
  intros Fb Ft E. unfold calc_bias_cut in E. change (nltb (n := F) t (nmul (n := F) b b)) with (Bltb t (fmul b b)) in E.
  destruct (Bltb t (fmul b b)) eqn:T; [|discriminate]. destruct (Rlt_le_dec (val t) (val b * val b)) as [|K]; auto. exfalso.
  apply rnd_le in K. rewrite (rnd_val t) in K. assert (P : 0 <= rnd (val b * val b)) by (rewrite <- rnd_0; apply rnd_le; apply Rle_0_sqr).
  pose proof (abs_B2R_lt_emax _ _ t) as L. assert (M : Rabs (rnd (val b * val b)) < bpow radix2 femax).
  { rewrite Rabs_pos_eq by exact P. rewrite Rabs_pos_eq in L by lra. lra. }
  destruct (fmul_fin b b Fb Fb M) as [V Fm]. rewrite fltb_fin in T by auto. revert T. case Rlt_bool_spec; [|discriminate]. intros G _. lra.
Qed.
Lemma bias_q_nosoln (e : EllCalc F) (b t : f64) x : fin b = true -> fin t = true -> 0 <= val t -> calc_bias_cut_q (N := F) e b t = (NoSoln, x) -> sqrt (val t) < val b.
Proof.
  intros Fb Ft P E. unfold calc_bias_cut_q in E. change (nltb (n := F) (nsqrt (n := F) t) b) with (Bltb (fsqrt t) b) in E.
  destruct (Bltb (fsqrt t) b) eqn:T; [|destruct (nltb (n := F) _ _); discriminate].
  destruct (Rlt_le_dec (sqrt (val t)) (val b)) as [|K]; auto. exfalso. apply rnd_le in K. rewrite (rnd_val b) in K.
  destruct (fsqrt_fin t Ft P) as [V Fs]. rewrite fltb_fin in T by auto. revert T. case Rlt_bool_spec; [|discriminate]. intros G _. lra.
Qed.
Lemma bias_accepts (e : EllCalc F) (b t : f64) x : fin b = true -> fin t = true -> rng (-100) 100 (val t) -> val b = 0 \/ rng (-100) 100 (val b) ->
  calc_bias_cut (N := F) e b t = (Success, x) -> val b * val b * (1 - u) <= val t.
Proof.
  intros Fb Ft Ht Hb E. unfold calc_bias_cut in E. change (nltb (n := F) t (nmul (n := F) b b)) with (Bltb t (fmul b b)) in E.
  destruct (Bltb t (fmul b b)) eqn:T; [discriminate|].
  assert (Cb : close 0 b (val b)). { apply close_val; auto. destruct Hb as [->|K]; [lra|left; exact (rng_pos _ _ _ K)]. }
  assert (M : mid (val b * val b)). { destruct Hb as [->|K]; [left; ring|exact (rng_mid _ _ _ (rng_mul _ _ _ _ _ _ K K) ltac:(lia) ltac:(lia))]. }
  destruct (close_mul 0 0 b b _ _ Cb Cb ltac:(lia) M) as (Fm & _ & H1 & _). cbn [pow] in H1. rewrite Rmult_1_r in H1.
  rewrite fltb_fin in T by auto. revert T. case Rlt_bool_spec; [discriminate|]. intros G _. lra.
Qed.
End A.
