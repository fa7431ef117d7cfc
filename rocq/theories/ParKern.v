(** Accuracy of the calculator for a pair of parallel cuts in binary64 (C109). *)
From Coq Require Import ZArith Reals Lra Lia Bool Psatz Arith.
From Flocq Require Import Core IEEE754.BinarySingleNaN.
From Verif Require Import Num Res CuttingPlane EllCalc FloatLemmas KappaSign AccSpec FloatRel AccProofs FloatErr StepRel EllReal ParGeom.
Local Open Scope R_scope.
#[local] Opaque fadd fsub fmul fdiv fsqrt fofZ.

(** *** absolute errors *)
Definition nr (e : R) (x : f64) (X : R) : Prop := fin x = true /\ Rabs (val x - X) <= e.
Lemma nr_weak e f x X : e <= f -> nr e x X -> nr f x X. Proof. intros H [A B]. split; [exact A|lra]. Qed.
Lemma nr_pos e x X : nr e x X -> 0 <= e. Proof. intros [_ H]. pose proof (Rabs_pos (val x - X)). lra. Qed.
Lemma big_ok z : Rabs z <= bpow radix2 900 -> Rabs (rnd z) < bpow radix2 femax.
Proof.
  intros H. apply Rle_lt_trans with (bpow radix2 900); [|apply bpow_lt; reflexivity].
  apply abs_round_le_generic; [typeclasses eauto|typeclasses eauto|apply bpow_generic; lia|exact H].
Qed.
Lemma nr_rnd e z Z f : Rabs (z - Z) <= e -> Rabs Z + e <= bpow radix2 900 -> e + uu * (Rabs Z + e) + ee <= f -> Rabs (rnd z) < bpow radix2 femax /\ Rabs (rnd z - Z) <= f.
Proof.
  intros H B Hf. assert (S : Rabs z <= Rabs Z + e). { replace z with (Z + (z - Z)) by ring. eapply Rle_trans; [apply Rabs_triang|]. lra. }
  split; [apply big_ok; lra|]. pose proof (rnd_err z) as R. pose proof (bpow_gt_0 radix2 (-53)) as U. assert (uu * Rabs z <= uu * (Rabs Z + e)) by (apply Rmult_le_compat_l; lra).
  replace (rnd z - Z) with ((rnd z - z) + (z - Z)) by ring. eapply Rle_trans; [apply Rabs_triang|]. lra.
Qed.
Lemma nr_add ex ey f x y X Y S : nr ex x X -> nr ey y Y -> Rabs (X + Y) <= S -> S + (ex + ey) <= bpow radix2 900 -> ex + ey + uu * (S + (ex + ey)) + ee <= f -> nr f (fadd x y) (X + Y).
Proof.
  intros [Fx Hx] [Fy Hy] HS B Hf. pose proof (bpow_gt_0 radix2 (-53)) as U.
  assert (H : Rabs (val x + val y - (X + Y)) <= ex + ey) by (replace (val x + val y - (X + Y)) with ((val x - X) + (val y - Y)) by ring; eapply Rle_trans; [apply Rabs_triang|lra]).
  assert (uu * (Rabs (X + Y) + (ex + ey)) <= uu * (S + (ex + ey))) by (apply Rmult_le_compat_l; lra).
  destruct (nr_rnd (ex + ey) (val x + val y) (X + Y) f H ltac:(lra) ltac:(lra)) as [R1 R2]. destruct (fadd_fin x y Fx Fy R1) as [E F]. split; [exact F|]. now rewrite E.
Qed.
Lemma nr_sub ex ey f x y X Y S : nr ex x X -> nr ey y Y -> Rabs (X - Y) <= S -> S + (ex + ey) <= bpow radix2 900 -> ex + ey + uu * (S + (ex + ey)) + ee <= f -> nr f (fsub x y) (X - Y).
Proof.
  intros [Fx Hx] [Fy Hy] HS B Hf. pose proof (bpow_gt_0 radix2 (-53)) as U.
  assert (H : Rabs (val x - val y - (X - Y)) <= ex + ey) by (replace (val x - val y - (X - Y)) with ((val x - X) + - (val y - Y)) by ring; eapply Rle_trans; [apply Rabs_triang|rewrite Rabs_Ropp; lra]).
  assert (uu * (Rabs (X - Y) + (ex + ey)) <= uu * (S + (ex + ey))) by (apply Rmult_le_compat_l; lra).
  destruct (nr_rnd (ex + ey) (val x - val y) (X - Y) f H ltac:(lra) ltac:(lra)) as [R1 R2]. destruct (fsub_fin x y Fx Fy R1) as [E F]. split; [exact F|]. now rewrite E.
Qed.
Lemma nr_mul ex ey f x y X Y A B E S : nr ex x X -> nr ey y Y -> Rabs X <= A -> Rabs Y <= B -> A * ey + B * ex + ex * ey <= E -> Rabs (X * Y) <= S -> S + E <= bpow radix2 900 -> E + uu * (S + E) + ee <= f -> nr f (fmul x y) (X * Y).
Proof.
  intros Nx Ny HA HB HE HS Hb Hf. pose proof (nr_pos _ _ _ Nx) as E0. pose proof (nr_pos _ _ _ Ny) as E1. destruct Nx as [Fx Hx]. destruct Ny as [Fy Hy]. pose proof (bpow_gt_0 radix2 (-53)) as U.
  assert (H : Rabs (val x * val y - X * Y) <= E).
  { replace (val x * val y - X * Y) with (X * (val y - Y) + Y * (val x - X) + (val x - X) * (val y - Y)) by ring. eapply Rle_trans; [apply Rabs_triang|].
    eapply Rle_trans; [apply Rplus_le_compat_r; apply Rabs_triang|]. rewrite !Rabs_mult.
    assert (Rabs X * Rabs (val y - Y) <= A * ey) by (apply Rmult_le_compat; auto using Rabs_pos). assert (Rabs Y * Rabs (val x - X) <= B * ex) by (apply Rmult_le_compat; auto using Rabs_pos).
    assert (Rabs (val x - X) * Rabs (val y - Y) <= ex * ey) by (apply Rmult_le_compat; auto using Rabs_pos). lra. }
  assert (uu * (Rabs (X * Y) + E) <= uu * (S + E)) by (apply Rmult_le_compat_l; lra).
  destruct (nr_rnd E (val x * val y) (X * Y) f H ltac:(lra) ltac:(lra)) as [R1 R2]. destruct (fmul_fin x y Fx Fy R1) as [Ev F]. split; [exact F|]. now rewrite Ev.
Qed.

(** *** relative errors *)
Definition frel (e : R) (x : f64) (X : R) : Prop := fin x = true /\ rel e (val x) X.
Definition fair (X : R) : Prop := bpow radix2 (-800) <= X <= bpow radix2 800.
Lemma fair_pos X : fair X -> 0 < X. Proof. intros [A _]. pose proof (bpow_gt_0 radix2 (-800)). lra. Qed.
Lemma fair_rng a b X : rng a b X -> (-800 <= a)%Z -> (b <= 800)%Z -> fair X.
Proof. intros [A B] Ha Hb. split; [eapply Rle_trans; [|exact A]|eapply Rle_trans; [exact B|]]; apply bpow_le; lia. Qed.
Lemma frel_weak e f x X : 0 <= X -> e <= f -> frel e x X -> frel f x X.
Proof. intros A B [C D]. split; [exact C|apply (rel_weak e); auto]. Qed.
Lemma close_frel k x X e : close k x X -> (k <= 200)%nat -> 2 * INR k * uu <= e -> frel e x X.
Proof.
  intros C Hk H. pose proof (close_abs k x X C Hk) as A. destruct C as (F & P & _). split; [exact F|]. apply rel_abs. eapply Rle_trans; [exact A|]. rewrite Rmult_comm, (Rmult_comm e). apply Rmult_le_compat_l; [exact P|exact H].
Qed.
Lemma rel_near z Z e : fair Z -> 0 <= e <= 1 / 1000 -> rel e z Z -> Rabs (rnd z) < bpow radix2 femax /\ rel (e + 2 * uu) (rnd z) Z.
Proof.
  intros [F1 F2] He [H1 H2]. pose proof (bpow_gt_0 radix2 (-800)) as P. pose proof u_b as U.
  assert (Z1 : 999 / 1000 * Z <= z) by nra. assert (Z2 : z <= 1001 / 1000 * Z) by nra.
  assert (B : z <= bpow radix2 900). { apply Rle_trans with (2 * bpow radix2 800); [lra|]. change 2 with (bpow radix2 1). rewrite <- bpow_plus. apply bpow_le. lia. }
  split; [apply big_ok; rewrite Rabs_pos_eq; lra|]. pose proof (rnd_err z) as R. rewrite (Rabs_pos_eq z) in R by lra.
  assert (E : ee <= 1 / 100 * (uu * Z)).
  { apply Rle_trans with (bpow radix2 (-10) * (uu * bpow radix2 (-800))); [rewrite <- !bpow_plus; apply bpow_le; lia|]. change (bpow radix2 (-10)) with (/ 1024).
    assert (uu * bpow radix2 (-800) <= uu * Z) by (apply Rmult_le_compat_l; lra). assert (0 <= uu * bpow radix2 (-800)) by (apply Rmult_le_pos; lra). lra. }
  assert (M : uu * z <= uu * (1001 / 1000 * Z)) by (apply Rmult_le_compat_l; lra). apply Rabs_le_inv in R. unfold rel in *. assert (0 <= uu * Z) by (apply Rmult_le_pos; lra). lra.
Qed.
Lemma rel_mul e f x y X Y : 0 <= X -> 0 <= Y -> 0 <= e <= 1 / 100 -> 0 <= f <= 1 / 100 -> rel e x X -> rel f y Y -> rel (101 / 100 * (e + f)) (x * y) (X * Y).
Proof.
  unfold rel. intros HX HY He Hf [A B] [C D]. assert (XY : 0 <= X * Y) by now apply Rmult_le_pos.
  assert (P1 : 0 <= X * (1 - e)) by (apply Rmult_le_pos; lra). assert (P2 : 0 <= Y * (1 - f)) by (apply Rmult_le_pos; lra).
  assert (L : X * (1 - e) * (Y * (1 - f)) <= x * y) by (apply Rmult_le_compat; lra). assert (R : x * y <= X * (1 + e) * (Y * (1 + f))) by (apply Rmult_le_compat; lra).
  assert (G : e * f <= 1 / 100 * (e + f)) by nra. assert (G0 : 0 <= e * f) by (apply Rmult_le_pos; lra). assert (X * Y * (e * f) <= X * Y * (1 / 100 * (e + f))) by (apply Rmult_le_compat_l; lra). assert (0 <= X * Y * (e * f)) by (apply Rmult_le_pos; lra).
  split; lra.
Qed.
Lemma frel_mul e f h x y X Y : 0 <= X -> 0 <= Y -> fair (X * Y) -> 0 <= e <= 1 / 10000 -> 0 <= f <= 1 / 10000 -> 101 / 100 * (e + f) + 2 * uu <= h -> frel e x X -> frel f y Y -> frel h (fmul x y) (X * Y).
Proof.
  intros HX HY HF He Hf Hh [Fx Rx] [Fy Ry]. pose proof (rel_mul e f _ _ _ _ HX HY ltac:(lra) ltac:(lra) Rx Ry) as R.
  destruct (rel_near _ _ (101 / 100 * (e + f)) HF ltac:(lra) R) as [B Q]. destruct (fmul_fin x y Fx Fy B) as [E F]. split; [exact F|]. rewrite E. eapply rel_weak; [apply Rlt_le, fair_pos, HF|exact Hh|exact Q].
Qed.
Lemma frel_div e f h x y X Y : 0 <= X -> 0 < Y -> fair (X / Y) -> 0 <= e <= 1 / 10000 -> 0 <= f <= 1 / 10000 -> 103 / 100 * (e + f) + 2 * uu <= h -> frel e x X -> frel f y Y -> frel h (fdiv x y) (X / Y).
Proof.
  intros HX HY HF He Hf Hh [Fx Rx] [Fy Ry]. pose proof (rel_div e f (103 / 100 * (e + f)) _ _ _ _ HX HY ltac:(lra) ltac:(lra) ltac:(lra) Rx Ry) as R.
  destruct (rel_near _ _ (103 / 100 * (e + f)) HF ltac:(lra) R) as [B Q]. assert (Yp : 0 < val y) by (destruct Ry as [L _]; nra).
  destruct (fdiv_fin x y Fx ltac:(lra) B) as [E F]. split; [exact F|]. rewrite E. eapply rel_weak; [apply Rlt_le, fair_pos, HF|exact Hh|exact Q].
Qed.
Lemma frel_add e f h x y X Y : 0 <= X -> 0 <= Y -> fair (X + Y) -> 0 <= e -> e <= f -> f <= 1 / 10000 -> f + 2 * uu <= h -> frel e x X -> frel f y Y -> frel h (fadd x y) (X + Y).
Proof.
  intros HX HY HF He Hf Hf1 Hh [Fx Rx] [Fy Ry]. apply (rel_weak e f) in Rx; auto. assert (R : rel f (val x + val y) (X + Y)) by (unfold rel in *; lra).
  destruct (rel_near _ _ f HF ltac:(lra) R) as [B Q]. destruct (fadd_fin x y Fx Fy B) as [E F]. split; [exact F|]. rewrite E. eapply rel_weak; [apply Rlt_le, fair_pos, HF|exact Hh|exact Q].
Qed.
Lemma frel_sqrt e h x X : fair (sqrt X) -> 0 < X -> 0 <= e <= 1 / 10000 -> e + 2 * uu <= h -> frel e x X -> frel h (fsqrt x) (sqrt X).
Proof.
  intros HF HX He Hh [Fx Rx]. assert (Xp : 0 <= val x) by (destruct Rx as [L _]; nra). pose proof (rel_sqrt e _ _ (Rlt_le _ _ HX) ltac:(lra) Rx) as R.
  destruct (rel_near _ _ e HF ltac:(lra) R) as [_ Q]. destruct (fsqrt_fin x Fx Xp) as [E F]. split; [exact F|]. rewrite E. eapply rel_weak; [apply Rlt_le, fair_pos, HF|exact Hh|exact Q].
Qed.

Section Kern.
Variable lm : Libm.
Notation F := (FNum lm).
Variable n : nat.
Hypotheses (Hn : (2 <= n)%nat) (Hz : (Z.of_nat n <= 2 ^ 26)%Z).
Let N := INR n.
Let c := core_new (N := F) (nN n).
Variables (t b0 b1 : f64).
Hypotheses (Ft : fin t = true) (Ht : rng (-100) 100 (val t)).
Hypotheses (F0 : fin b0 = true) (R0 : val b0 = 0 \/ rng (-100) 100 (val b0)) (F1 : fin b1 = true) (R1 : rng (-100) 100 (val b1)).
Hypotheses (H01 : val b0 < val b1) (Hq : 4 * (val b0 * val b0) <= val t) (Hin : Bleb t (fmul b1 b1) = false).
Let T := val t.
Let x0 := val b0.
Let x1 := val b1.
Let v := N * uu.
Let z0 := T - x0 * x0.
Let z1 := T - x1 * x1.
Let tm := N / 2 * (x1 * x1 - x0 * x0).
Let xi := sqrt (z0 * z1 + tm * tm).
Let eta := T + N * (x0 * x1).
Let den := T + x0 * x1 + N / 2 * ((x0 + x1) * (x0 + x1)) + xi.
Let sigma := 2 * eta / den.
Let rho := sigma * (x0 + x1) / 2.
Let K1 := N * N / (N * N - 1).
Let delta := K1 * ((z0 + z1) / 2 + xi / N) / T.

Lemma kN : 2 <= N. Proof. exact (N2 n Hn Hz). Qed.
Lemma kx0 : 0 <= x0. Proof. unfold x0. destruct R0 as [->|R]; [lra|left; exact (rng_pos _ _ _ R)]. Qed.
Lemma kx1 : 0 < x1. Proof. exact (rng_pos _ _ _ R1). Qed.
Lemma kT : 0 < T. Proof. exact (rng_pos _ _ _ Ht). Qed.
Lemma kx1T : x1 * x1 < T. Proof. exact (bb_lt n Hn t Ft b1 F1 R1 Hin). Qed.
Lemma kv : 0 < v <= 1 / 1000000 /\ uu <= v / 2.
Proof.
  pose proof kN as A. pose proof (N_rng n Hn Hz) as [_ B]. pose proof u_b as U. unfold v. fold N in B. assert (C : N * uu <= bpow radix2 26 * uu) by (apply Rmult_le_compat_r; lra).
  rewrite <- bpow_plus in C. assert (D : bpow radix2 (26 + -53) <= bpow radix2 (-20)) by (apply bpow_le; lia). change (bpow radix2 (-20)) with (/ 1048576) in D.
  assert (2 * uu <= N * uu) by (apply Rmult_le_compat_r; lra). lra.
Qed.
Lemma kee a : bpow radix2 (-300) <= a -> ee <= 1 / 1000 * (uu * a).
Proof.
  intros H. apply Rle_trans with (bpow radix2 (-10) * (uu * bpow radix2 (-300))); [rewrite <- !bpow_plus; apply bpow_le; lia|]. change (bpow radix2 (-10)) with (/ 1024). pose proof u_b as U.
  assert (uu * bpow radix2 (-300) <= uu * a) by (apply Rmult_le_compat_l; lra). assert (0 <= uu * bpow radix2 (-300)) by (apply Rmult_le_pos; [lra|apply bpow_ge_0]). lra.
Qed.
Lemma keT : ee <= 1 / 1000 * (uu * T). Proof. apply kee. eapply Rle_trans; [|apply Ht]. apply bpow_le. lia. Qed.
Lemma T2_rng : rng (-200) 200 (T * T). Proof. exact (rng_mul _ _ _ _ _ _ Ht Ht). Qed.
Lemma keT2 : ee <= 1 / 1000 * (uu * (T * T)). Proof. apply kee. eapply Rle_trans; [|apply T2_rng]. apply bpow_le. lia. Qed.
Lemma kbig a k : 0 <= a <= bpow radix2 800 -> k <= 1000 -> k * a <= bpow radix2 900.
Proof.
  intros [A B] K. apply Rle_trans with (bpow radix2 10 * bpow radix2 800); [|rewrite <- bpow_plus; apply bpow_le; lia]. change (bpow radix2 10) with 1024. apply Rle_trans with (1024 * a); [apply Rmult_le_compat_r; lra|apply Rmult_le_compat_l; lra].
Qed.
Lemma T_big k : k <= 1000 -> k * T <= bpow radix2 900.
Proof. apply kbig. pose proof kT. destruct Ht as [_ B]. split; [lra|]. eapply Rle_trans; [exact B|apply bpow_le; lia]. Qed.
Lemma T2_big k : k <= 1000 -> k * (T * T) <= bpow radix2 900.
Proof. apply kbig. pose proof (rng_pos _ _ _ T2_rng). destruct T2_rng as [_ B]. split; [lra|]. eapply Rle_trans; [exact B|apply bpow_le; lia]. Qed.
Lemma uT : 0 < uu * T <= 1 / 1000000 * T.
Proof. pose proof u_b. pose proof kT. split; [apply Rmult_lt_0_compat; lra|apply Rmult_le_compat_r; lra]. Qed.
Lemma vT : 0 < v * T <= 1 / 1000000 * T /\ uu * T <= v * T / 2.
Proof. pose proof kv as [A B]. pose proof kT. split; [split; [apply Rmult_lt_0_compat; lra|apply Rmult_le_compat_r; lra]|]. apply Rle_trans with (v / 2 * T); [apply Rmult_le_compat_r; lra|lra]. Qed.

Lemma sq_near b : fin b = true -> val b * val b <= T -> nr (101 / 100 * (uu * T)) (fmul b b) (val b * val b).
Proof.
  intros Fb Hb. assert (P : 0 <= val b * val b) by apply Rle_0_sqr. pose proof (rnd_err (val b * val b)) as R. rewrite (Rabs_pos_eq _ P) in R. pose proof keT as E. pose proof u_b as U. pose proof (T_big 1 ltac:(lra)) as B.
  destruct (fmul_fin b b Fb Fb) as [Ev Ff]; [apply big_ok; rewrite Rabs_pos_eq; lra|]. split; [exact Ff|]. rewrite Ev. assert (uu * (val b * val b) <= uu * T) by (apply Rmult_le_compat_l; lra). pose proof uT. lra.
Qed.
Lemma s0_near : nr (26 / 100 * (uu * T)) (fmul b0 b0) (x0 * x0).
Proof.
  assert (P : 0 <= x0 * x0) by apply Rle_0_sqr. pose proof (rnd_err (x0 * x0)) as R. rewrite (Rabs_pos_eq _ P) in R. pose proof keT as E. pose proof u_b as U. pose proof (T_big 1 ltac:(lra)) as B. fold x0 T in Hq.
  destruct (fmul_fin b0 b0 F0 F0) as [Ev Ff]; [apply big_ok; fold x0; rewrite Rabs_pos_eq; lra|]. split; [exact Ff|]. rewrite Ev. fold x0. assert (uu * (x0 * x0) <= uu * (T / 4)) by (apply Rmult_le_compat_l; lra). pose proof uT. lra.
Qed.
Lemma s1_near : nr (101 / 100 * (uu * T)) (fmul b1 b1) (x1 * x1). Proof. apply sq_near; [exact F1|]. pose proof kx1T. unfold x1 in *. lra. Qed.
Lemma t_near : nr 0 t T. Proof. split; [exact Ft|]. unfold T. rewrite Rminus_diag_eq, Rabs_R0 by reflexivity. lra. Qed.
Let Z0 := fsub t (fmul b0 b0).
Let Z1 := fsub t (fmul b1 b1).
Let Df := fsub (fmul b1 b1) (fmul b0 b0).
Let Tm := fmul (c_half_n c : f64) Df.
Let XX := fadd (fmul Z0 Z1) (fmul Tm Tm).
Let Xi := fsqrt XX.
Lemma pz : 3 / 4 * T <= z0 <= T /\ 0 < z1 <= T. Proof. exact (pg_z T x0 x1 Hq kx1T). Qed.
Lemma pD : 0 <= x1 * x1 - x0 * x0 <= T. Proof. exact (pg_D T x0 x1 kx0 H01 kx1T). Qed.
Lemma Z0_near : nr (13 / 10 * (uu * T)) Z0 z0.
Proof.
  pose proof pz as [A _]. pose proof uT as U. pose proof keT as E. pose proof u_b as Ub. pose proof kT as T0.
  apply (nr_sub 0 (26 / 100 * (uu * T)) _ _ _ _ _ T t_near s0_near); [fold z0; rewrite Rabs_pos_eq; lra| |].
  - pose proof (T_big 2 ltac:(lra)). lra.
  - assert (uu * (T + (0 + 26 / 100 * (uu * T))) <= uu * (1001 / 1000 * T)) by (apply Rmult_le_compat_l; lra). lra.
Qed.
Lemma Z1_near : nr (21 / 10 * (uu * T)) Z1 z1.
Proof.
  pose proof pz as [_ A]. pose proof uT as U. pose proof keT as E. pose proof u_b as Ub. pose proof kT as T0.
  apply (nr_sub 0 (101 / 100 * (uu * T)) _ _ _ _ _ T t_near s1_near); [fold z1; rewrite Rabs_pos_eq; lra| |].
  - pose proof (T_big 2 ltac:(lra)). lra.
  - assert (uu * (T + (0 + 101 / 100 * (uu * T))) <= uu * (1001 / 1000 * T)) by (apply Rmult_le_compat_l; lra). lra.
Qed.
Lemma Df_near : nr (23 / 10 * (uu * T)) Df (x1 * x1 - x0 * x0).
Proof.
  pose proof pD as A. pose proof uT as U. pose proof keT as E. pose proof u_b as Ub. pose proof kT as T0.
  apply (nr_sub (101 / 100 * (uu * T)) (26 / 100 * (uu * T)) _ _ _ _ _ T s1_near s0_near); [rewrite Rabs_pos_eq; lra| |].
  - pose proof (T_big 2 ltac:(lra)). lra.
  - assert (uu * (T + (101 / 100 * (uu * T) + 26 / 100 * (uu * T))) <= uu * (1001 / 1000 * T)) by (apply Rmult_le_compat_l; lra). lra.
Qed.
Lemma half_near : nr v (c_half_n c : f64) (N / 2).
Proof. pose proof (c_half lm n Hn Hz) as C. pose proof (close_abs 1 _ _ C ltac:(lia)) as A. destruct C as (Ff & _). split; [exact Ff|]. eapply Rle_trans; [exact A|]. change (INR 1) with 1. unfold v. fold N. lra. Qed.
Lemma ptm : 0 <= tm <= N / 2 * T. Proof. exact (pg_tm N T x0 x1 kN kx0 H01 kx1T). Qed.
Lemma NT_big : N * T <= bpow radix2 800.
Proof. pose proof (N_rng n Hn Hz) as [_ A]. fold N in A. pose proof kN. pose proof kT. destruct Ht as [_ B]. fold T in B. apply Rle_trans with (bpow radix2 26 * bpow radix2 100); [apply Rmult_le_compat; lra|]. rewrite <- bpow_plus. apply bpow_le. lia. Qed.
Lemma Tm_near : nr (27 / 10 * (v * T)) Tm tm.
Proof.
  pose proof pD as A. pose proof ptm as B. pose proof uT as U. pose proof keT as E. pose proof u_b as Ub. pose proof kT as T0. pose proof kN as N0. pose proof vT as [V1 V2]. pose proof kv as [V3 V4].
  assert (Eq : N * (uu * T) = v * T) by (unfold v; ring). assert (S1 : v * (uu * T) <= 1 / 1000000 * (v * T)) by (replace (v * (uu * T)) with (uu * (v * T)) by ring; apply Rmult_le_compat_r; lra).
  assert (S2 : T <= N * T) by (rewrite <- (Rmult_1_l T) at 1; apply Rmult_le_compat_r; lra).
  apply (nr_mul v (23 / 10 * (uu * T)) _ _ _ _ _ (N / 2) T (216 / 100 * (v * T)) (N / 2 * T) half_near Df_near); [rewrite Rabs_pos_eq; lra|rewrite Rabs_pos_eq; lra| |fold tm; rewrite Rabs_pos_eq; lra| |].
  - replace (N / 2 * (23 / 10 * (uu * T))) with (23 / 20 * (N * (uu * T))) by field. rewrite Eq. replace (v * (23 / 10 * (uu * T))) with (23 / 10 * (v * (uu * T))) by ring. lra.
  - pose proof (kbig (N * T) 4 ltac:(split; [lra|exact NT_big]) ltac:(lra)). lra.
  - assert (S3 : uu * (N / 2 * T + 216 / 100 * (v * T)) <= uu * (51 / 100 * (N * T))) by (apply Rmult_le_compat_l; lra). replace (uu * (51 / 100 * (N * T))) with (51 / 100 * (N * (uu * T))) in S3 by ring. rewrite Eq in S3. lra.
Qed.
Lemma pX : 27 / 64 * (T * T) <= z0 * z1 + tm * tm /\ tm * tm <= z0 * z1 + tm * tm. Proof. exact (pg_X N T x0 x1 kN kT kx0 Hq H01 kx1T). Qed.
Lemma pxi : tm <= xi /\ 3 / 5 * T <= xi. Proof. exact (pg_xi_low N T x0 x1 kN kT kx0 Hq H01 kx1T). Qed.
Lemma pxi2 : xi * xi = z0 * z1 + tm * tm. Proof. exact (pg_xi2 N T x0 x1 kN kT kx0 Hq H01 kx1T). Qed.
Let X := z0 * z1 + tm * tm.
Lemma X_low : 27 / 64 * (T * T) <= X /\ tm * T <= 5 / 3 * X /\ 0 < X.
Proof.
  pose proof pX as [A _]. pose proof pxi as [B C]. pose proof pxi2 as D. pose proof ptm as E. pose proof kT as T0. assert (TT : 0 < T * T) by (apply Rmult_lt_0_compat; lra). split; [exact A|]. split; [|unfold X; lra].
  unfold X. rewrite <- D. assert (tm * (3 / 5 * T) <= xi * xi) by (apply Rmult_le_compat; lra). lra.
Qed.
Lemma NT2_big : N * T * (N * T) <= bpow radix2 800.
Proof.
  pose proof (N_rng n Hn Hz) as [_ A]. fold N in A. pose proof kN. pose proof kT. destruct Ht as [_ B]. fold T in B. assert (C : N * T <= bpow radix2 126). { change 126%Z with (26 + 100)%Z. rewrite bpow_plus. apply Rmult_le_compat; lra. }
  assert (0 <= N * T) by (apply Rmult_le_pos; lra). apply Rle_trans with (bpow radix2 126 * bpow radix2 126); [apply Rmult_le_compat; lra|]. rewrite <- bpow_plus. apply bpow_le. lia.
Qed.
Lemma X_up : X <= N * T * (N * T).
Proof.
  pose proof pz as [A B]. pose proof ptm as C. pose proof kN as N0. pose proof kT as T0. unfold X. assert (z0 * z1 <= T * T) by (apply Rmult_le_compat; lra).
  assert (tm * tm <= N / 2 * T * (N / 2 * T)) by (apply Rmult_le_compat; lra). assert (T * T <= N / 2 * T * (N / 2 * T)). { assert (1 * T <= N / 2 * T) by (apply Rmult_le_compat_r; lra). apply Rmult_le_compat; lra. }
  assert (0 <= N * T * (N * T)) by apply Rle_0_sqr. lra.
Qed.
Lemma X_big k : k <= 1000 -> k * X <= bpow radix2 900.
Proof. intros H. apply kbig; [|exact H]. pose proof X_low as (_ & _ & P). pose proof X_up. pose proof NT2_big. lra. Qed.
Lemma uX : 0 < uu * X /\ uu * X <= v * X / 2 /\ 0 < v * X <= 1 / 1000000 * X.
Proof.
  pose proof u_b. pose proof X_low as (_ & _ & P). pose proof kv as [A B]. split; [apply Rmult_lt_0_compat; lra|]. split; [apply Rle_trans with (v / 2 * X); [apply Rmult_le_compat_r; lra|lra]|]. split; [apply Rmult_lt_0_compat; lra|apply Rmult_le_compat_r; lra].
Qed.
Lemma zz_near : nr (54 / 10 * (v * X)) (fmul Z0 Z1) (z0 * z1).
Proof.
  pose proof pz as [A B]. pose proof uT as U. pose proof keT2 as E. pose proof u_b as Ub. pose proof kT as T0. pose proof X_low as (L & _ & P). pose proof uX as (U1 & U2 & U3). assert (TT : 0 < T * T) by (apply Rmult_lt_0_compat; lra).
  assert (UT : 0 < uu * (T * T) <= 1 / 1000000 * (T * T)) by (split; [apply Rmult_lt_0_compat; lra|apply Rmult_le_compat_r; lra]).
  assert (UX : uu * (27 / 64 * (T * T)) <= uu * X) by (apply Rmult_le_compat_l; lra).
  assert (Q : uu * T * (uu * T) <= 1 / 1000000 * (uu * (T * T))). { replace (uu * T * (uu * T)) with (uu * (uu * (T * T))) by ring. apply Rmult_le_compat_r; lra. }
  apply (nr_weak (4425 / 1000 * (uu * (T * T)))); [lra|].
  apply (nr_mul (13 / 10 * (uu * T)) (21 / 10 * (uu * T)) _ _ _ _ _ T T (341 / 100 * (uu * (T * T))) (T * T) Z0_near Z1_near); [rewrite Rabs_pos_eq; lra|rewrite Rabs_pos_eq; lra| | | |].
  - replace (13 / 10 * (uu * T) * (21 / 10 * (uu * T))) with (273 / 100 * (uu * T * (uu * T))) by field. lra.
  - rewrite Rabs_pos_eq by (apply Rmult_le_pos; lra). apply Rmult_le_compat; lra.
  - pose proof (T2_big 2 ltac:(lra)). lra.
  - assert (uu * (T * T + 341 / 100 * (uu * (T * T))) <= uu * (1001 / 1000 * (T * T))) by (apply Rmult_le_compat_l; lra). lra.
Qed.
Lemma tt_near : nr (96 / 10 * (v * X)) (fmul Tm Tm) (tm * tm).
Proof.
  pose proof ptm as B. pose proof u_b as Ub. pose proof kT as T0. pose proof X_low as (L & L2 & P). pose proof uX as (U1 & U2 & U3). pose proof kv as [V3 V4]. pose proof pX as [_ TX]. fold X in TX. assert (TT : 0 < T * T) by (apply Rmult_lt_0_compat; lra).
  assert (E : ee <= 1 / 1000 * (uu * X)). { pose proof keT2 as E. apply kee. apply Rle_trans with (27 / 64 * (T * T)); [|exact L]. destruct T2_rng as [G _]. apply Rle_trans with (bpow radix2 (-2) * bpow radix2 (-200)); [rewrite <- bpow_plus; apply bpow_le; lia|]. change (bpow radix2 (-2)) with (/ 4). pose proof (bpow_gt_0 radix2 (-200)). lra. }
  assert (W : v * (tm * T) <= v * (5 / 3 * X)) by (apply Rmult_le_compat_l; lra).
  assert (Q : v * T * (v * T) <= 1 / 100000 * (v * X)). { replace (v * T * (v * T)) with (v * (v * (T * T))) by ring. replace (1 / 100000 * (v * X)) with (v * (1 / 100000 * X)) by ring. apply Rmult_le_compat_l; [lra|]. assert (v * (T * T) <= 1 / 1000000 * (T * T)) by (apply Rmult_le_compat_r; lra). lra. }
  apply (nr_mul (27 / 10 * (v * T)) (27 / 10 * (v * T)) _ _ _ _ _ tm tm (902 / 100 * (v * X)) X Tm_near Tm_near); [rewrite Rabs_pos_eq; lra|rewrite Rabs_pos_eq; lra| | | |].
  - replace (27 / 10 * (v * T) * (27 / 10 * (v * T))) with (729 / 100 * (v * T * (v * T))) by field. replace (tm * (27 / 10 * (v * T))) with (27 / 10 * (v * (tm * T))) by ring. lra.
  - rewrite Rabs_pos_eq by apply Rle_0_sqr. exact TX.
  - pose proof (X_big 2 ltac:(lra)). lra.
  - assert (uu * (X + 902 / 100 * (v * X)) <= uu * (1001 / 1000 * X)) by (apply Rmult_le_compat_l; lra). lra.
Qed.
Lemma XX_rel : frel (16 * v) XX X.
Proof.
  pose proof u_b as Ub. pose proof X_low as (L & L2 & P). pose proof uX as (U1 & U2 & U3). pose proof T2_rng as [G _].
  assert (E : ee <= 1 / 1000 * (uu * X)). { apply kee. apply Rle_trans with (27 / 64 * (T * T)); [|exact L]. apply Rle_trans with (bpow radix2 (-2) * bpow radix2 (-200)); [rewrite <- bpow_plus; apply bpow_le; lia|]. change (bpow radix2 (-2)) with (/ 4). pose proof (bpow_gt_0 radix2 (-200)). lra. }
  assert (Nr : nr (16 * (v * X)) XX X).
  { apply (nr_add (54 / 10 * (v * X)) (96 / 10 * (v * X)) _ _ _ _ _ X zz_near tt_near); [fold X; rewrite Rabs_pos_eq; lra| |].
    - pose proof (X_big 2 ltac:(lra)). lra.
    - assert (uu * (X + (54 / 10 * (v * X) + 96 / 10 * (v * X))) <= uu * (1001 / 1000 * X)) by (apply Rmult_le_compat_l; lra). lra. }
  destruct Nr as [A B]. split; [exact A|]. apply rel_abs. lra.
Qed.
Lemma xi_fair : bpow radix2 (-101) <= xi <= bpow radix2 200.
Proof.
  pose proof pxi as [_ L]. pose proof X_up as U. pose proof kT. pose proof kN. split.
  - apply Rle_trans with (3 / 5 * T); [|exact L]. destruct Ht as [A _]. fold T in A. change (-101)%Z with (-1 + -100)%Z. rewrite bpow_plus. change (bpow radix2 (-1)) with (/ 2). pose proof (bpow_gt_0 radix2 (-100)). lra.
  - assert (NT : 0 <= N * T) by (apply Rmult_le_pos; lra). apply Rle_trans with (N * T).
    + rewrite <- (sqrt_square (N * T)) by exact NT. apply sqrt_le_1_alt. exact U.
    + pose proof (N_rng n Hn Hz) as [_ A]. fold N in A. destruct Ht as [_ B]. fold T in B. apply Rle_trans with (bpow radix2 26 * bpow radix2 100); [apply Rmult_le_compat; lra|]. rewrite <- bpow_plus. apply bpow_le. lia.
Qed.
Lemma Xi_rel : frel (17 * v) Xi xi.
Proof.
  pose proof kv as [A B]. pose proof X_low as (_ & _ & P). pose proof xi_fair as X1. apply (frel_sqrt (16 * v) (17 * v)); [apply (fair_rng (-101) 200); [exact X1|lia|lia]|exact P|lra|lra|exact XX_rel].
Qed.

Lemma k_b0c : close 0 b0 x0. Proof. apply close_val; [exact F0|exact kx0]. Qed.
Lemma k_b1c : close 0 b1 x1. Proof. apply close_val; [exact F1|]. pose proof kx1. unfold x1 in *. lra. Qed.
Lemma k_tc : close 0 t T. Proof. apply close_val; [exact Ft|]. pose proof kT. unfold T in *. lra. Qed.
Lemma b01_ok : x0 * x1 = 0 \/ rng (-200) 200 (x0 * x1).
Proof. destruct R0 as [E|R]; [left; unfold x0; rewrite E; ring|right]. exact (rng_mul _ _ _ _ _ _ R R1). Qed.
Lemma b01_up : 0 <= x0 * x1 <= T.
Proof. pose proof kx0. pose proof kx1. pose proof kx1T. fold x0 x1 in H01. split; [apply Rmult_le_pos; lra|]. apply Rle_trans with (x1 * x1); [apply Rmult_le_compat_r; lra|lra]. Qed.
Lemma T_le k : 0 <= k -> (k <= bpow radix2 50) -> k * T <= bpow radix2 150.
Proof. intros A B. pose proof kT. destruct Ht as [_ C]. fold T in C. apply Rle_trans with (bpow radix2 50 * bpow radix2 100); [apply Rmult_le_compat; lra|]. rewrite <- bpow_plus. apply bpow_le. lia. Qed.
Lemma T_mid z k : 1 <= k -> k <= bpow radix2 50 -> T <= z <= k * T -> rng (-100) 150 z.
Proof. intros A B [C D]. split; [eapply Rle_trans; [apply Ht|exact C]|eapply Rle_trans; [exact D|apply T_le; lra]]. Qed.
Lemma k50 k : k <= 1000 -> k <= bpow radix2 50. Proof. intros H. apply Rle_trans with (bpow radix2 10); [change (bpow radix2 10) with 1024; lra|apply bpow_le; lia]. Qed.
Lemma N50 : 5 * N <= bpow radix2 50.
Proof. pose proof (N_rng n Hn Hz) as [_ A]. fold N in A. apply Rle_trans with (bpow radix2 3 * bpow radix2 26); [change (bpow radix2 3) with 8; pose proof kN; lra|]. rewrite <- bpow_plus. apply bpow_le. lia. Qed.
Lemma k_p : close 1 (fmul b0 b1) (x0 * x1).
Proof. apply (close_mul 0 0 b0 b1 x0 x1); [exact k_b0c|exact k_b1c|lia|]. destruct b01_ok as [E|R]; [left; exact E|exact (rng_mid _ _ _ R ltac:(lia) ltac:(lia))]. Qed.
Lemma k_np : close 2 (fmul (c_n_f c : f64) (fmul b0 b1)) (N * (x0 * x1)).
Proof.
  apply (close_mul 0 1); [exact (c_nf lm n Hn Hz)|exact k_p|lia|]. destruct b01_ok as [E|R]; [left; rewrite E; ring|]. exact (rng_mid _ _ _ (rng_mul _ _ _ _ _ _ (N_rng n Hn Hz) R) ltac:(lia) ltac:(lia)).
Qed.
Lemma eta_up : T <= eta <= 2 * N * T.
Proof. pose proof b01_up as [A B]. pose proof kN as C. pose proof kT. unfold eta. assert (0 <= N * (x0 * x1)) by (apply Rmult_le_pos; lra). assert (N * (x0 * x1) <= N * T) by (apply Rmult_le_compat_l; lra). assert (1 * T <= N * T) by (apply Rmult_le_compat_r; lra). lra. Qed.
Lemma k_eta : close 3 (fadd t (fmul (c_n_f c : f64) (fmul b0 b1))) eta.
Proof.
  apply (close_add 2); [apply (close_weak 0); [lia|exact k_tc]|exact k_np|lia|]. pose proof kN. pose proof N50. pose proof eta_up. apply (rng_mid (-100) 150); [apply (T_mid _ (2 * N)); [lra|lra|exact eta_up]|lia|lia].
Qed.
Let Eta := fadd t (fmul (c_n_f c : f64) (fmul b0 b1)).
Lemma k_2eta : frel (4 * v) (fmul (fofZ 2) Eta) (2 * eta).
Proof.
  apply (close_frel 4); [|lia|change (INR 4) with (1 + 1 + 1 + 1); pose proof kv; lra]. apply (close_mul 0 3); [exact (close_int 2 ltac:(lia))|exact k_eta|lia|].
  pose proof kN. pose proof N50. pose proof eta_up. pose proof kT. apply (rng_mid (-100) 150); [apply (T_mid _ (4 * N)); [lra|lra|lra]|lia|lia].
Qed.
Let Bs := fadd b0 b1.
Lemma bs_rng : rng (-100) 101 (x0 + x1).
Proof. destruct R1 as [A B]. fold x1 in A, B. pose proof kx0. fold x0 x1 in H01. split; [lra|]. change 101%Z with (1 + 100)%Z. rewrite bpow_plus. change (bpow radix2 1) with 2. lra. Qed.
Lemma k_bs : close 1 Bs (x0 + x1).
Proof. apply (close_add 0); [exact k_b0c|exact k_b1c|lia|]. exact (rng_mid _ _ _ bs_rng ltac:(lia) ltac:(lia)). Qed.
Lemma bs2 : 0 <= (x0 + x1) * (x0 + x1) <= 4 * T.
Proof. pose proof kx0. pose proof kx1T. fold x0 x1 in H01. split; [apply Rle_0_sqr|]. apply Rle_trans with (2 * x1 * (2 * x1)); [apply Rmult_le_compat; lra|lra]. Qed.
Lemma k_bs2 : close 3 (fmul Bs Bs) ((x0 + x1) * (x0 + x1)).
Proof. apply (close_mul 1 1); [exact k_bs|exact k_bs|lia|]. exact (rng_mid _ _ _ (rng_mul _ _ _ _ _ _ bs_rng bs_rng) ltac:(lia) ltac:(lia)). Qed.
Lemma k_hb : close 5 (fmul (c_half_n c : f64) (fmul Bs Bs)) (N / 2 * ((x0 + x1) * (x0 + x1))).
Proof. apply (close_mul 1 3); [exact (c_half lm n Hn Hz)|exact k_bs2|lia|]. exact (rng_mid _ _ _ (rng_mul _ _ _ _ _ _ (half_rng n Hn Hz) (rng_mul _ _ _ _ _ _ bs_rng bs_rng)) ltac:(lia) ltac:(lia)). Qed.
Lemma k_tp : close 2 (fadd t (fmul b0 b1)) (T + x0 * x1).
Proof.
  apply (close_add 1); [apply (close_weak 0); [lia|exact k_tc]|exact k_p|lia|]. pose proof b01_up. apply (rng_mid (-100) 150); [apply (T_mid _ 2); [lra|apply k50; lra|lra]|lia|lia].
Qed.
Lemma hb_up : 0 <= N / 2 * ((x0 + x1) * (x0 + x1)) <= 2 * N * T.
Proof. pose proof bs2 as [A B]. pose proof kN. split; [apply Rmult_le_pos; lra|]. apply Rle_trans with (N / 2 * (4 * T)); [apply Rmult_le_compat_l; lra|lra]. Qed.
Lemma NT1 : T <= N * T / 2. Proof. pose proof kN. pose proof kT. assert (2 * T <= N * T) by (apply Rmult_le_compat_r; lra). lra. Qed.
Lemma k_d1 : close 6 (fadd (fadd t (fmul b0 b1)) (fmul (c_half_n c : f64) (fmul Bs Bs))) (T + x0 * x1 + N / 2 * ((x0 + x1) * (x0 + x1))).
Proof.
  apply (close_add 5); [apply (close_weak 2); [lia|exact k_tp]|exact k_hb|lia|]. pose proof b01_up. pose proof hb_up. pose proof N50. pose proof kN. pose proof NT1. apply (rng_mid (-100) 150); [apply (T_mid _ (4 * N)); lra|lia|lia].
Qed.
Lemma xi_up : 0 <= xi <= N * T.
Proof.
  pose proof kT. pose proof kN. assert (NT : 0 <= N * T) by (apply Rmult_le_pos; lra). split; [apply sqrt_pos|]. unfold xi. rewrite <- (sqrt_square (N * T)) by exact NT. apply sqrt_le_1_alt. exact X_up.
Qed.
Lemma den_up : T <= den <= 5 * N * T.
Proof. pose proof b01_up. pose proof hb_up. pose proof xi_up. pose proof NT1. unfold den. lra. Qed.
Let Den := fadd (fadd (fadd t (fmul b0 b1)) (fmul (c_half_n c : f64) (fmul Bs Bs))) Xi.
Lemma k_den : frel (18 * v) Den den.
Proof.
  pose proof kv as [A B]. pose proof b01_up. pose proof hb_up. pose proof kT. pose proof N50. pose proof kN. apply (frel_add (6 * v) (17 * v)); [lra|apply xi_up| |lra|lra|lra|lra| |exact Xi_rel].
  - apply (fair_rng (-100) 150); [apply (T_mid _ (5 * N)); [lra|lra|exact den_up]|lia|lia].
  - apply (close_frel 6); [exact k_d1|lia|]. change (INR 6) with (1 + 1 + 1 + 1 + 1 + 1). lra.
Qed.
Lemma sigma_low : 2 / (5 * N) <= sigma.
Proof.
  pose proof den_up as [A B]. pose proof eta_up as [C _]. pose proof kT as T0. pose proof kN as N0. unfold sigma. apply Rmult_le_reg_r with den; [lra|]. replace (2 * eta / den * den) with (2 * eta) by (field; lra).
  apply Rle_trans with (2 / (5 * N) * (5 * N * T)); [apply Rmult_le_compat_l; [|lra]; apply Rlt_le, Rdiv_lt_0_compat; lra|]. replace (2 / (5 * N) * (5 * N * T)) with (2 * T) by (field; lra). lra.
Qed.
Lemma sigma_01 : 0 < sigma < 1. Proof. exact (pg_sigma N T x0 x1 kN kT kx0 H01). Qed.
Lemma sigma_rng : rng (-28) 0 sigma.
Proof.
  pose proof sigma_low as A. pose proof sigma_01 as [_ B]. split; [|change (bpow radix2 0) with 1; lra]. eapply Rle_trans; [|exact A]. pose proof (N_rng n Hn Hz) as [_ C]. fold N in C. pose proof kN as D.
  apply Rmult_le_reg_r with (5 * N); [lra|]. replace (2 / (5 * N) * (5 * N)) with 2 by (field; lra). apply Rle_trans with (bpow radix2 (-28) * (5 * bpow radix2 26)); [apply Rmult_le_compat_l; [apply bpow_ge_0|lra]|].
  replace (bpow radix2 (-28) * (5 * bpow radix2 26)) with (5 * bpow radix2 (-28 + 26)) by (rewrite bpow_plus; ring). change (bpow radix2 (-28 + 26)) with (/ 4). lra.
Qed.
Let Sg := fdiv (fmul (fofZ 2) Eta) Den.
Lemma k_sigma : frel (237 / 10 * v) Sg sigma.
Proof.
  pose proof kv as [A B]. pose proof eta_up. pose proof den_up. pose proof kT. apply (frel_div (4 * v) (18 * v)); [lra|lra|apply (fair_rng (-28) 0); [exact sigma_rng|lia|lia]|lra|lra|lra|exact k_2eta|exact k_den].
Qed.
Lemma k_two : frel 0 (fofZ 2) 2. Proof. apply (close_frel 0); [exact (close_int 2 ltac:(lia))|lia|simpl INR; lra]. Qed.
Lemma k_sb : frel (26 * v) (fmul Sg Bs) (sigma * (x0 + x1)).
Proof.
  pose proof kv as [A B]. pose proof sigma_01. pose proof bs_rng as R. pose proof (rng_pos _ _ _ R). apply (frel_mul (237 / 10 * v) v); [lra|lra|apply (fair_rng (-28 + -100) (0 + 101)); [exact (rng_mul _ _ _ _ _ _ sigma_rng R)|lia|lia]|lra|lra|lra|exact k_sigma|].
  apply (close_frel 1); [exact k_bs|lia|]. change (INR 1) with 1. lra.
Qed.
Lemma two_rng : rng 1 1 2. Proof. split; change (bpow radix2 1) with 2; lra. Qed.
Lemma rho_rng : rng (-129) 100 rho.
Proof. exact (rng_div _ _ _ _ _ _ (rng_mul _ _ _ _ _ _ sigma_rng bs_rng) two_rng). Qed.
Lemma k_rho : frel (28 * v) (fdiv (fmul Sg Bs) (fofZ 2)) rho.
Proof.
  pose proof kv as [A B]. pose proof sigma_01. pose proof bs_rng as R. pose proof (rng_pos _ _ _ R). apply (frel_div (26 * v) 0); [apply Rmult_le_pos; lra|lra|apply (fair_rng (-129) 100); [exact rho_rng|lia|lia]|lra|lra|lra|exact k_sb|exact k_two].
Qed.
Lemma k_zs : frel (37 / 10 * v) (fadd Z0 Z1) (z0 + z1).
Proof.
  pose proof pz as [A B]. pose proof uT as U. pose proof keT as E. pose proof u_b as Ub. pose proof kT as T0. pose proof kv as [V1 V2].
  assert (Nr : nr (55 / 10 * (uu * T)) (fadd Z0 Z1) (z0 + z1)).
  { apply (nr_add (13 / 10 * (uu * T)) (21 / 10 * (uu * T)) _ _ _ _ _ (2 * T) Z0_near Z1_near); [rewrite Rabs_pos_eq; lra| |].
    - pose proof (T_big 3 ltac:(lra)). lra.
    - assert (uu * (2 * T + (13 / 10 * (uu * T) + 21 / 10 * (uu * T))) <= uu * (2001 / 1000 * T)) by (apply Rmult_le_compat_l; lra). lra. }
  destruct Nr as [F H]. split; [exact F|]. apply rel_abs. eapply Rle_trans; [exact H|]. assert (uu * (3 / 4 * T) <= v / 2 * (z0 + z1)) by (apply Rmult_le_compat; lra). lra.
Qed.
Lemma zs_rng k : 1 / 4 <= k <= 1 -> rng (-103) 150 (k * (z0 + z1)).
Proof.
  intros K. pose proof pz as [A B]. pose proof kT as T0. destruct Ht as [C D]. fold T in C, D. split.
  - apply Rle_trans with (1 / 4 * (3 / 4 * T)); [|apply Rmult_le_compat; lra]. change (-103)%Z with (-3 + -100)%Z. rewrite bpow_plus. change (bpow radix2 (-3)) with (/ 8). pose proof (bpow_gt_0 radix2 (-100)). lra.
  - apply Rle_trans with (1 * (2 * T)); [apply Rmult_le_compat; lra|]. rewrite Rmult_1_l. apply T_le; [lra|apply k50; lra].
Qed.
Lemma k_zh : frel (49 / 10 * v) (fdiv (fadd Z0 Z1) (fofZ 2)) ((z0 + z1) / 2).
Proof.
  pose proof pz as [A B]. pose proof kv as [V1 V2]. apply (frel_div (37 / 10 * v) 0); [pose proof kT; lra|lra| |lra|lra|lra|exact k_zs|exact k_two].
  apply (fair_rng (-103) 150); [|lia|lia]. replace ((z0 + z1) / 2) with (1 / 2 * (z0 + z1)) by field. apply zs_rng. lra.
Qed.
Lemma k_xn : frel (186 / 10 * v) (fdiv Xi (c_n_f c : f64)) (xi / N).
Proof.
  pose proof kv as [V1 V2]. pose proof kN. apply (frel_div (17 * v) 0); [apply xi_up|lra| |lra|lra|lra|exact Xi_rel|].
  - apply (fair_rng (-101 - 26) (200 - 1)); [exact (rng_div _ _ _ _ _ _ xi_fair (N_rng n Hn Hz))|lia|lia].
  - apply (close_frel 0); [exact (c_nf lm n Hn Hz)|lia|simpl INR; lra].
Qed.
Let w := (z0 + z1) / 2 + xi / N.
Lemma w_b : 3 / 4 * T <= w <= 3 / 2 * T. Proof. exact (pg_sum N T x0 x1 kN kT kx0 Hq H01 kx1T). Qed.
Lemma w_rng k : 1 <= k <= 4 / 3 -> rng (-103) 150 (k * w).
Proof.
  intros K. pose proof w_b as [A B]. pose proof kT as T0. destruct Ht as [C D]. fold T in C, D. split.
  - apply Rle_trans with (1 * (3 / 4 * T)); [|apply Rmult_le_compat; lra]. change (-103)%Z with (-3 + -100)%Z. rewrite bpow_plus. change (bpow radix2 (-3)) with (/ 8). pose proof (bpow_gt_0 radix2 (-100)). lra.
  - apply Rle_trans with (4 / 3 * (3 / 2 * T)); [apply Rmult_le_compat; lra|]. replace (4 / 3 * (3 / 2 * T)) with (2 * T) by field. apply T_le; [lra|apply k50; lra].
Qed.
Let W := fadd (fdiv (fadd Z0 Z1) (fofZ 2)) (fdiv Xi (c_n_f c : f64)).
Lemma k_w : frel (196 / 10 * v) W w.
Proof.
  pose proof kv as [V1 V2]. pose proof pz as [A B]. pose proof kN. apply (frel_add (49 / 10 * v) (186 / 10 * v)); [pose proof kT; lra| | |lra|lra|lra|lra|exact k_zh|exact k_xn].
  - apply Rmult_le_pos; [apply xi_up|apply Rlt_le, Rinv_0_lt_compat; lra].
  - apply (fair_rng (-103) 150); [|lia|lia]. fold w. rewrite <- (Rmult_1_l w). apply w_rng. lra.
Qed.
Lemma K1_b : 1 <= K1 <= 4 / 3. Proof. exact (pg_C1 N kN). Qed.
Lemma k_kw : frel (219 / 10 * v) (fmul (c_cst1 c : f64) W) (K1 * w).
Proof.
  pose proof kv as [V1 V2]. pose proof K1_b. pose proof w_b. pose proof kT. apply (frel_mul v (196 / 10 * v)); [lra|lra|apply (fair_rng (-103) 150); [apply w_rng; lra|lia|lia]|lra|lra|lra| |exact k_w].
  apply (close_frel 1); [exact (c_c1 lm n Hn Hz)|lia|]. change (INR 1) with 1. lra.
Qed.
Lemma delta_b : 3 / 4 <= delta <= 2. Proof. exact (pg_delta N T x0 x1 kN kT kx0 Hq H01 kx1T). Qed.
Lemma k_delta : frel (24 * v) (fdiv (fmul (c_cst1 c : f64) W) t) delta.
Proof.
  pose proof kv as [V1 V2]. pose proof K1_b as [A1 A2]. pose proof w_b as [A3 A4]. pose proof kT as T0. pose proof delta_b as [D1 D2]. apply (frel_div (219 / 10 * v) 0).
  - fold w. apply Rmult_le_pos; lra.
  - lra.
  - change (fair delta). apply (fair_rng (-1) 1); [|lia|lia]. split; [change (bpow radix2 (-1)) with (/ 2)|change (bpow radix2 1) with 2]; lra.
  - lra.
  - lra.
  - lra.
  - exact k_kw.
  - apply (close_frel 0); [exact k_tc|lia|simpl INR; lra].
Qed.
Lemma par_kernel r s d : core_parallel_bias_cut_fast (N := F) c b0 b1 t (fmul b0 b1) (fadd t (fmul (c_n_f c : f64) (fmul b0 b1))) = (r, s, d) ->
  frel (28 * v) r rho /\ frel (28 * v) s sigma /\ frel (28 * v) d delta /\ rng (-129) 100 rho /\ rng (-28) 0 sigma.
Proof.
  intros E. change (fdiv (fmul Sg Bs) (fofZ 2), Sg, fdiv (fmul (c_cst1 c : f64) W) t) with (core_parallel_bias_cut_fast (N := F) c b0 b1 t (fmul b0 b1) (fadd t (fmul (c_n_f c : f64) (fmul b0 b1)))) in *. 
  assert (E2 : (fdiv (fmul Sg Bs) (fofZ 2), Sg, fdiv (fmul (c_cst1 c : f64) W) t) = (r, s, d)) by exact E. injection E2 as <- <- <-. pose proof kv as [V1 V2]. pose proof delta_b. pose proof sigma_01.
  split; [exact k_rho|]. split; [apply (frel_weak (237 / 10 * v)); [lra|lra|exact k_sigma]|]. split; [apply (frel_weak (24 * v)); [lra|lra|exact k_delta]|]. split; [exact rho_rng|exact sigma_rng].
Qed.
End Kern.
