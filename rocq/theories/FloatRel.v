(** Relative accuracy of binary64 computations: a small calculus. *)
From Coq Require Import ZArith Reals Lra Lia Bool Psatz Arith.
From Flocq Require Import Core Relative IEEE754.BinarySingleNaN.
From Verif Require Import Num FloatLemmas AccSpec.
Local Open Scope R_scope.

#[local] Opaque fadd fsub fmul fdiv fsqrt fofZ.
Notation u := (bpow radix2 (-53)).
Notation q := (1 - u).
Lemma u_b : 0 < u <= 1 / 1000000000.
Proof.
  split; [apply bpow_gt_0|]. change (bpow radix2 (-53)) with (/ IZR (2 ^ 53)). unfold Rdiv. rewrite Rmult_1_l.
  apply Rinv_le_contravar; [lra|]. apply IZR_le. vm_compute. discriminate.
Qed.
Lemma q_b : 1 / 2 < q < 1. Proof. pose proof u_b. lra. Qed.
Lemma qk_pos k : 0 < q ^ k. Proof. pose proof q_b. apply pow_lt. lra. Qed.
Lemma qk_le1 k : q ^ k <= 1. Proof. apply Rle_trans with (1 ^ k); [apply pow_incr; pose proof q_b; lra|rewrite pow1; lra]. Qed.
Lemma qk_ge k : 1 - INR k * u <= q ^ k.
Proof.
  induction k as [|k IH]; [simpl; lra|]. rewrite S_INR. cbn [pow]. pose proof u_b. pose proof q_b. pose proof (pos_INR k).
  apply Rle_trans with (q * (1 - INR k * u)); [|apply Rmult_le_compat_l; lra]. assert (0 <= INR k * u * u) by (apply Rmult_le_pos; [apply Rmult_le_pos|]; lra). lra.
Qed.
Lemma qk_half k : (k <= 200)%nat -> 1 / 2 <= q ^ k.
Proof.
  intros H. apply le_INR in H. replace (INR 200) with 200 in H by (rewrite INR_IZR_INZ; reflexivity). pose proof (qk_ge k). pose proof u_b.
  assert (INR k * u <= 200 * (1 / 1000000000)) by (apply Rmult_le_compat; try lra; apply pos_INR). lra.
Qed.
Lemma qk_mono j k : (j <= k)%nat -> q ^ k <= q ^ j.
Proof. intros H. replace k with (j + (k - j))%nat by lia. rewrite pow_add. pose proof (qk_pos j). pose proof (qk_le1 (k - j)). rewrite <- (Rmult_1_r (q ^ j)) at 2. apply Rmult_le_compat_l; lra. Qed.

Lemma rnd_near z : bpow radix2 (-1022) <= z -> z * q <= rnd z /\ rnd z * q <= z.
Proof.
  intros H. pose proof (bpow_gt_0 radix2 (-1022)) as P.
  pose proof (relative_error_N_FLT radix2 (3 - femax - fprec) fprec fprec_gt_0 (fun x => negb (Z.even x)) z) as E.
  change (3 - femax - fprec + fprec - 1)%Z with (-1022)%Z in E. rewrite Rabs_pos_eq in E by lra. specialize (E H).
  change (/ 2 * bpow radix2 (- fprec + 1)) with (/ 2 * bpow radix2 (-52)) in E.
  replace (/ 2 * bpow radix2 (-52)) with u in E.
  2:{ change (/ 2) with (bpow radix2 (-1)). rewrite <- bpow_plus. reflexivity. }
  change (round radix2 (FLT_exp (3 - femax - fprec) fprec) (Znearest (fun x : Z => negb (Z.even x))) z) with (rnd z) in E.
  apply Rabs_le_inv in E. pose proof u_b. split; [lra|]. assert (rnd z <= z * (1 + u)) by lra. 
  apply Rle_trans with (z * (1 + u) * q); [apply Rmult_le_compat_r; [pose proof q_b; lra|assumption]|].
  assert (0 <= z * (u * u)) by (apply Rmult_le_pos; [lra|apply Rmult_le_pos; lra]). lra.
Qed.

(** one rounding *)
Lemma step k X z : mid X -> (k <= 200)%nat -> X * q ^ k <= z -> z * q ^ k <= X ->
  Rabs (rnd z) < bpow radix2 femax /\ X * q ^ S k <= rnd z /\ rnd z * q ^ S k <= X.
Proof.
  intros HM Hk H1 H2. pose proof (qk_pos k) as P. pose proof (qk_half k Hk) as HH. pose proof q_b as Q.
  destruct HM as [->|[M1 M2]].
  - assert (z = 0) by nra. subst z. rewrite rnd_0, Rabs_R0. split; [apply bpow_gt_0|]. lra.
  - pose proof (bpow_gt_0 radix2 (-1000)) as B.
    assert (Z1 : bpow radix2 (-1022) <= z).
    { apply Rle_trans with (bpow radix2 (-1001)); [apply bpow_le; lia|]. change (-1001)%Z with (-1000 + -1)%Z. rewrite bpow_plus.
      change (bpow radix2 (-1)) with (/ 2). nra. }
    assert (Z2 : z <= bpow radix2 1001).
    { change 1001%Z with (1000 + 1)%Z. rewrite bpow_plus. change (bpow radix2 1) with 2. pose proof (bpow_gt_0 radix2 (-1022)). nra. }
    destruct (rnd_near z Z1) as [R1 R2]. pose proof (bpow_gt_0 radix2 (-1022)).
    assert (0 <= rnd z) by (rewrite <- rnd_0; apply rnd_le; lra).
    split.
    { rewrite Rabs_pos_eq by assumption. apply Rle_lt_trans with (bpow radix2 1001); [|apply bpow_lt; unfold femax; lia].
      rewrite <- (rnd_generic (bpow radix2 1001)) by (apply bpow_generic; lia). now apply rnd_le. }
    cbn [pow]. split.
    + replace (X * (q * q ^ k)) with (X * q ^ k * q) by ring. apply Rle_trans with (z * q); [apply Rmult_le_compat_r; lra|exact R1].
    + replace (rnd z * (q * q ^ k)) with (rnd z * q * q ^ k) by ring. apply Rle_trans with (z * q ^ k); [apply Rmult_le_compat_r; lra|exact H2].
Qed.
Lemma close_val (x : f64) : fin x = true -> 0 <= val x -> close 0 x (val x).
Proof. intros. split; auto. simpl. split; [auto|]. lra. Qed.
Lemma close_int z : (0 <= z <= 2 ^ 53)%Z -> close 0 (fofZ z) (IZR z).
Proof. intros H. destruct (fofZ_small z) as [E F]; [lia|]. rewrite <- E. apply close_val; auto. rewrite E. apply IZR_le. lia. Qed.
Lemma close_weak j k x X : (j <= k)%nat -> close j x X -> close k x X.
Proof.
  intros H (F & P & H1 & H2). pose proof (qk_mono j k H) as M. pose proof (qk_pos k). pose proof (qk_pos j).
  assert (0 <= val x) by (apply Rle_trans with (X * q ^ j); [apply Rmult_le_pos; lra|exact H1]).
  split; auto. split; auto. split; [apply Rle_trans with (2 := H1)|apply Rle_trans with (2 := H2)]; apply Rmult_le_compat_l; lra.
Qed.
Lemma close_pos k x X : close k x X -> 0 <= val x.
Proof. intros (F & P & H1 & H2). pose proof (qk_pos k). apply Rle_trans with (X * q ^ k); [apply Rmult_le_pos; lra|exact H1]. Qed.
Lemma close_mul j k x y X Y : close j x X -> close k y Y -> (j + k <= 200)%nat -> mid (X * Y) -> close (S (j + k)) (fmul x y) (X * Y).
Proof.
  intros Hx Hy Hk HM. pose proof (close_pos _ _ _ Hx) as Px. pose proof (close_pos _ _ _ Hy) as Py.
  destruct Hx as (Fx & PX & H1 & H2). destruct Hy as (Fy & PY & H3 & H4). pose proof (qk_pos j). pose proof (qk_pos k).
  destruct (step (j + k) (X * Y) (val x * val y) HM Hk) as (S1 & S2 & S3).
  - rewrite pow_add. replace (X * Y * (q ^ j * q ^ k)) with (X * q ^ j * (Y * q ^ k)) by ring. apply Rmult_le_compat; auto; apply Rmult_le_pos; lra.
  - rewrite pow_add. replace (val x * val y * (q ^ j * q ^ k)) with (val x * q ^ j * (val y * q ^ k)) by ring. apply Rmult_le_compat; auto; apply Rmult_le_pos; lra.
  - destruct (fmul_fin x y Fx Fy S1) as [E F]. split; auto. rewrite E. split; [apply Rmult_le_pos; lra|]. auto.
Qed.
Lemma close_div j k x y X Y : close j x X -> close k y Y -> 0 < Y -> (j + k <= 200)%nat -> mid (X / Y) -> close (S (j + k)) (fdiv x y) (X / Y).
Proof.
  intros Hx Hy HY Hk HM. pose proof (close_pos _ _ _ Hx) as Px. pose proof (close_pos _ _ _ Hy) as Py.
  destruct Hx as (Fx & PX & H1 & H2). destruct Hy as (Fy & PY & H3 & H4). pose proof (qk_pos j). pose proof (qk_pos k).
  assert (Pv : 0 < val y) by (apply Rlt_le_trans with (Y * q ^ k); [apply Rmult_lt_0_compat; lra|exact H3]).
  assert (Xi : 0 < / Y) by now apply Rinv_0_lt_compat. assert (Yi : 0 < / val y) by now apply Rinv_0_lt_compat.
  destruct (step (j + k) (X / Y) (val x / val y) HM Hk) as (S1 & S2 & S3).
  - rewrite pow_add. apply Rmult_le_reg_r with (val y * Y); [apply Rmult_lt_0_compat; lra|].
    replace (X / Y * (q ^ j * q ^ k) * (val y * Y)) with (X * q ^ j * (val y * q ^ k)) by (field; lra).
    replace (val x / val y * (val y * Y)) with (val x * Y) by (field; lra). apply Rmult_le_compat; auto; apply Rmult_le_pos; lra.
  - rewrite pow_add. apply Rmult_le_reg_r with (val y * Y); [apply Rmult_lt_0_compat; lra|].
    replace (val x / val y * (q ^ j * q ^ k) * (val y * Y)) with (val x * q ^ j * (Y * q ^ k)) by (field; lra).
    replace (X / Y * (val y * Y)) with (X * val y) by (field; lra). apply Rmult_le_compat; auto; apply Rmult_le_pos; lra.
  - destruct (fdiv_fin x y Fx ltac:(lra) S1) as [E F]. split; auto. rewrite E. split; [unfold Rdiv; apply Rmult_le_pos; lra|]. auto.
Qed.
Lemma close_add k x y X Y : close k x X -> close k y Y -> (k <= 200)%nat -> mid (X + Y) -> close (S k) (fadd x y) (X + Y).
Proof.
  intros (Fx & PX & H1 & H2) (Fy & PY & H3 & H4) Hk HM.
  destruct (step k (X + Y) (val x + val y) HM Hk) as (S1 & S2 & S3); [lra|lra|].
  destruct (fadd_fin x y Fx Fy S1) as [E F]. split; auto. rewrite E. split; [lra|]. auto.
Qed.
Lemma fsqrt_fin (x : f64) : fin x = true -> 0 <= val x -> val (fsqrt x) = rnd (sqrt (val x)) /\ fin (fsqrt x) = true.
Proof.
  intros F H. generalize (Bsqrt_correct fprec femax fprec_gt_0 fprec_lt_emax mode_NE x). change (Bsqrt mode_NE x) with (fsqrt x). intros (E & G & _).
  split; [exact E|]. rewrite G. destruct x as [s|s| |[] m e Hb]; try discriminate F; try reflexivity.
  exfalso. assert (val (B754_finite true m e Hb) < 0); [|lra]. apply F2R_lt_0. reflexivity.
Qed.
Lemma close_sqrt k x X : close k x X -> (k <= 200)%nat -> mid (sqrt X) -> close (S k) (fsqrt x) (sqrt X).
Proof.
  intros Hx Hk HM. pose proof (close_pos _ _ _ Hx) as Px. destruct Hx as (Fx & PX & H1 & H2). pose proof (qk_pos k) as Q0. pose proof (qk_le1 k) as Q1.
  assert (QQ : q ^ k * q ^ k <= q ^ k) by (rewrite <- (Rmult_1_r (q ^ k)) at 3; apply Rmult_le_compat_l; lra).
  assert (S0 : forall A, 0 <= A -> sqrt A * q ^ k <= sqrt (A * q ^ k)).
  { intros A HA. rewrite sqrt_mult by lra. apply Rmult_le_compat_l; [apply sqrt_pos|]. rewrite <- (sqrt_square (q ^ k)) at 1 by lra. apply sqrt_le_1; try lra. apply Rmult_le_pos; lra. }
  destruct (step k (sqrt X) (sqrt (val x)) HM Hk) as (S1 & S2 & S3).
  - apply Rle_trans with (sqrt (X * q ^ k)); [apply S0; auto|]. apply sqrt_le_1; auto. apply Rmult_le_pos; lra.
  - apply Rle_trans with (sqrt (val x * q ^ k)); [apply S0; auto|]. apply sqrt_le_1; auto. apply Rmult_le_pos; lra.
  - destruct (fsqrt_fin x Fx Px) as [E F]. split; auto. rewrite E. split; [apply sqrt_pos|auto].
Qed.
Lemma sub_shape t : 9 / 10 <= t <= 1 -> 0 <= 2 * t ^ 2 - 1 - t ^ 5 /\ 0 <= 1 - 2 * t ^ 3 + t ^ 5.
Proof.
  intros H. replace (2 * t ^ 2 - 1 - t ^ 5) with ((1 - t) * (t ^ 4 + t ^ 3 + t ^ 2 - t - 1)) by ring.
  replace (1 - 2 * t ^ 3 + t ^ 5) with ((1 - t) * (1 + t + t ^ 2 - t ^ 3 - t ^ 4)) by ring.
  assert (T2 : 81 / 100 <= t ^ 2 <= 1) by (split; nra). assert (T3 : 729 / 1000 <= t ^ 3 <= 1) by (replace (t ^ 3) with (t * t ^ 2) by ring; split; nra).
  assert (T4 : 6561 / 10000 <= t ^ 4 <= 1) by (replace (t ^ 4) with (t ^ 2 * t ^ 2) by ring; split; nra).
  split; apply Rmult_le_pos; lra.
Qed.
Lemma close_sub k x y X Y : close k x X -> close k y Y -> (4 * k <= 200)%nat -> Y <= X / 2 -> mid (X - Y) -> close (S (4 * k)) (fsub x y) (X - Y).
Proof.
  intros Hx Hy Hk HXY HM. pose proof (close_pos _ _ _ Hx) as Px. pose proof (close_pos _ _ _ Hy) as Py.
  destruct Hx as (Fx & PX & H1 & H2). destruct Hy as (Fy & PY & H3 & H4).
  assert (Ht : 9 / 10 <= q ^ k).
  { pose proof (qk_ge k). pose proof u_b. assert (Hk2 : (k <= 50)%nat) by lia. apply le_INR in Hk2. replace (INR 50) with 50 in Hk2 by (rewrite INR_IZR_INZ; reflexivity).
    assert (INR k * u <= 50 * (1 / 1000000000)) by (apply Rmult_le_compat; try lra; apply pos_INR). lra. }
  pose proof (qk_le1 k) as Ht1. pose proof (pow_mult q k 4) as PM. rewrite (Nat.mul_comm k 4) in PM.
  destruct (step (4 * k) (X - Y) (val x - val y) HM Hk) as (S1 & S2 & S3).
  - rewrite PM. set (t := q ^ k) in *. clearbody t. destruct (sub_shape t (conj Ht Ht1)) as [A1 A2].
    apply Rmult_le_reg_r with t; [lra|]. apply Rle_trans with (X * t * t - Y).
    + assert (0 <= X / 2 * (2 * t ^ 2 - 1 - t ^ 5)) by (apply Rmult_le_pos; lra).
      assert (0 <= 1 - t ^ 5). { assert (t ^ 5 <= 1); [|lra]. rewrite <- (pow1 5). apply pow_incr. lra. }
      assert (0 <= (X / 2 - Y) * (1 - t ^ 5)) by (apply Rmult_le_pos; lra). 
      replace ((X - Y) * t ^ 4 * t) with ((X - Y) * t ^ 5) by ring. nra.
    + rewrite Rmult_minus_distr_r. assert (X * t * t <= val x * t) by (apply Rmult_le_compat_r; lra). lra.
  - rewrite PM. set (t := q ^ k) in *. clearbody t. destruct (sub_shape t (conj Ht Ht1)) as [A1 A2].
    apply Rle_trans with ((X - Y * t ^ 2) * t ^ 3).
    + replace ((val x - val y) * t ^ 4) with ((val x * t - val y * t) * t ^ 3) by ring. apply Rmult_le_compat_r; [apply pow_le; lra|].
      assert (Y * t * t <= val y * t) by (apply Rmult_le_compat_r; lra). replace (Y * t ^ 2) with (Y * t * t) by ring. lra.
    + assert (0 <= X / 2 * (1 - 2 * t ^ 3 + t ^ 5)) by (apply Rmult_le_pos; lra).
      assert (0 <= 1 - t ^ 5). { assert (t ^ 5 <= 1); [|lra]. rewrite <- (pow1 5). apply pow_incr. lra. }
      assert (0 <= (X / 2 - Y) * (1 - t ^ 5)) by (apply Rmult_le_pos; lra). nra.
  - destruct (fsub_fin x y Fx Fy S1) as [E F]. split; auto. rewrite E. split; [lra|auto].
Qed.

(** absolute errors near 1 *)
Lemma close_abs k x X : close k x X -> (k <= 200)%nat -> Rabs (val x - X) <= 2 * INR k * u * X.
Proof.
  intros (F & P & H1 & H2) Hk. pose proof (qk_ge k) as G. pose proof (qk_half k Hk) as HH. pose proof u_b. pose proof (pos_INR k) as Pk.
  assert (K : 0 <= INR k * u) by (apply Rmult_le_pos; lra). set (e := INR k * u) in *.
  assert (E1 : X * (1 - e) <= X * q ^ k) by (apply Rmult_le_compat_l; lra).
  assert (V : val x <= 2 * X) by nra. assert (0 <= X * e) by (apply Rmult_le_pos; lra).
  assert (Vp : 0 <= val x) by (apply Rle_trans with (X * q ^ k); [apply Rmult_le_pos; lra|exact H1]).
  assert (E2 : val x * (1 - e) <= X) by (apply Rle_trans with (val x * q ^ k); [apply Rmult_le_compat_l; lra|exact H2]).
  assert (E3 : val x * e <= 2 * X * e) by (apply Rmult_le_compat_r; lra).
  replace (2 * INR k * u * X) with (2 * (X * e)) by (unfold e; ring). apply Rabs_le. split; lra.
Qed.
Lemma rnd_abs z : Rabs z <= 2 -> Rabs (rnd z - z) <= 2 * u /\ Rabs (rnd z) < bpow radix2 femax.
Proof.
  intros H. split.
  - eapply Rle_trans; [apply error_le_half_ulp; typeclasses eauto|].
    replace (2 * u) with (/ 2 * bpow radix2 (-51)).
    2:{ change (/ 2) with (bpow radix2 (-1)). change 2 with (bpow radix2 1). rewrite <- !bpow_plus. reflexivity. }
    apply Rmult_le_compat_l; [lra|]. apply Rle_trans with (ulp radix2 fexp64 (bpow radix2 1)).
    + apply ulp_le; [typeclasses eauto..|]. rewrite (Rabs_pos_eq (bpow radix2 1)) by apply bpow_ge_0. exact H.
    + rewrite ulp_bpow. apply bpow_le. vm_compute. discriminate.
  - apply Rle_lt_trans with (bpow radix2 1); [|apply bpow_lt; unfold femax; lia].
    apply abs_round_le_generic; [typeclasses eauto..| |exact H]. apply bpow_generic. lia.
Qed.
Lemma abs_close m z X : 0 <= X -> (m <= 100)%nat -> Rabs (z - X) <= INR m * u * X -> X * q ^ S m <= z /\ z * q ^ S m <= X.
Proof.
  intros HX Hm H. apply Rabs_le_inv in H. pose proof u_b as U. pose proof (qk_pos (S m)) as P. pose proof (qk_le1 (S m)) as P1.
  apply le_INR in Hm. replace (INR 100) with 100 in Hm by (rewrite INR_IZR_INZ; reflexivity). pose proof (pos_INR m) as Pm.
  assert (B : q ^ S m * (1 + INR (S m) * u) <= 1).
  { assert (B1 : forall k, 1 + INR k * u <= (1 + u) ^ k).
    { induction k as [|k IH]; [simpl; lra|]. rewrite S_INR. cbn [pow]. pose proof (pos_INR k). assert (0 <= INR k * u * u) by (apply Rmult_le_pos; [apply Rmult_le_pos|]; lra).
      apply Rle_trans with ((1 + u) * (1 + INR k * u)); [lra|apply Rmult_le_compat_l; lra]. }
    apply Rle_trans with (q ^ S m * (1 + u) ^ S m); [apply Rmult_le_compat_l; [lra|apply B1]|].
    rewrite <- Rpow_mult_distr. replace (q * (1 + u)) with (1 - u * u) by ring. apply Rle_trans with (1 ^ S m); [apply pow_incr|rewrite pow1; lra].
    assert (0 <= u * u <= 1) by (split; nra). lra. }
  rewrite S_INR in B. set (d := INR m) in *. set (t := q ^ S m) in *. clearbody t d.
  assert (D0 : 0 <= d * u) by (apply Rmult_le_pos; lra). assert (D1 : (d + 1) * u * (d * u) <= u).
  { replace ((d + 1) * u * (d * u)) with (u * ((d + 1) * (d * u))) by ring. rewrite <- (Rmult_1_r u) at 3. apply Rmult_le_compat_l; [lra|].
    assert (d * u <= 100 * (1 / 1000000000)) by (apply Rmult_le_compat; lra). assert ((d + 1) * (d * u) <= 101 * (100 * (1 / 1000000000))) by (apply Rmult_le_compat; lra). lra. }
  assert (T : t <= 1 - d * u).
  { apply Rmult_le_reg_r with (1 + (d + 1) * u); [assert (0 <= (d + 1) * u) by (apply Rmult_le_pos; lra); lra|].
    apply Rle_trans with (1 := B). replace ((1 - d * u) * (1 + (d + 1) * u)) with (1 + u - (d + 1) * u * (d * u)) by ring. lra. }
  assert (X * t <= X * (1 - d * u)) by (apply Rmult_le_compat_l; lra).
  split; [lra|]. apply Rle_trans with (X * (1 + d * u) * t); [apply Rmult_le_compat_r; lra|].
  replace (X * (1 + d * u) * t) with (X * (t * (1 + d * u))) by ring. rewrite <- (Rmult_1_r X) at 2. apply Rmult_le_compat_l; [lra|].
  apply Rle_trans with (2 := B). apply Rmult_le_compat_l; lra.
Qed.

(** magnitudes *)
Definition rng (a b : Z) (X : R) : Prop := bpow radix2 a <= X <= bpow radix2 b.
Lemma rng_pos a b X : rng a b X -> 0 < X.
Proof. intros [H _]. pose proof (bpow_gt_0 radix2 a). lra. Qed.
Lemma rng_mid a b X : rng a b X -> (-1000 <= a)%Z -> (b <= 1000)%Z -> mid X.
Proof. intros [H1 H2] Ha Hb. right. split; [apply Rle_trans with (2 := H1)|apply Rle_trans with (1 := H2)]; apply bpow_le; auto. Qed.
Lemma rng_mul a b c d X Y : rng a b X -> rng c d Y -> rng (a + c) (b + d) (X * Y).
Proof. intros [H1 H2] [H3 H4]. unfold rng. rewrite !bpow_plus. pose proof (bpow_gt_0 radix2 a). pose proof (bpow_gt_0 radix2 c). split; apply Rmult_le_compat; lra. Qed.
Lemma rng_inv c d Y : rng c d Y -> rng (- d) (- c) (/ Y).
Proof. intros H. pose proof (rng_pos _ _ _ H) as P. destruct H as [H3 H4]. unfold rng. rewrite !bpow_opp. pose proof (bpow_gt_0 radix2 c). split; apply Rinv_le_contravar; auto. Qed.
Lemma rng_div a b c d X Y : rng a b X -> rng c d Y -> rng (a - d) (b - c) (X / Y).
Proof. intros H1 H2. unfold Rdiv, Z.sub. apply rng_mul; auto. now apply rng_inv. Qed.
Lemma rng_add a b d X Y : rng a b X -> 0 <= Y <= bpow radix2 d -> rng a (Z.max b d + 1) (X + Y).
Proof.
  intros [H1 H2] [H3 H4]. split; [lra|]. rewrite bpow_plus. change (bpow radix2 1) with 2.
  pose proof (bpow_le radix2 b (Z.max b d) ltac:(lia)). pose proof (bpow_le radix2 d (Z.max b d) ltac:(lia)). lra.
Qed.
Lemma rng_sqrt a b X : rng (2 * a) (2 * b) X -> rng a b (sqrt X).
Proof.
  intros [H1 H2]. assert (E : forall c, sqrt (bpow radix2 (2 * c)) = bpow radix2 c).
  { intros c. replace (2 * c)%Z with (c + c)%Z by lia. rewrite bpow_plus. apply sqrt_square, bpow_ge_0. }
  split; rewrite <- E; apply sqrt_le_1; auto; try apply bpow_ge_0; pose proof (bpow_gt_0 radix2 (2 * a)); lra.
Qed.
Lemma rng_weak a b a' b' X : rng a b X -> (a' <= a)%Z -> (b <= b')%Z -> rng a' b' X.
Proof. intros [H1 H2] Ha Hb. split; [apply Rle_trans with (2 := H1)|apply Rle_trans with (1 := H2)]; apply bpow_le; auto. Qed.
