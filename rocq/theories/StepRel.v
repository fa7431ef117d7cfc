(** Relative errors of the numbers one step is made of (C100). *)
From Coq Require Import Reals Lra Lia Psatz.
From Flocq Require Import Core.Raux.
Open Scope R_scope.

(** [x] is [X] up to the factor 1 +- e *)
Definition rel (e x X : R) : Prop := X * (1 - e) <= x <= X * (1 + e).
Lemma rel_abs e x X : rel e x X <-> Rabs (x - X) <= e * X.
Proof. unfold rel. split; [intros; apply Rabs_le; lra|]. intros H. apply Rabs_le_inv in H. lra. Qed.
Lemma rel_weak e f x X : 0 <= X -> e <= f -> rel e x X -> rel f x X.
Proof. unfold rel. intros. assert (X * e <= X * f) by (apply Rmult_le_compat_l; auto). lra. Qed.
Lemma rel_trans e f h x y X : 0 <= X -> 0 <= e <= 1 / 100 -> 0 <= f -> f <= 1 -> e + f + e * f <= h -> rel e y X -> rel f x y -> rel h x X.
Proof.
  unfold rel. intros HX He Hf Hf1 Hh [H1 H2] [H3 H4].
  assert (X * (1 - e) * (1 - f) <= y * (1 - f)) by (apply Rmult_le_compat_r; lra). assert (y * (1 + f) <= X * (1 + e) * (1 + f)) by (apply Rmult_le_compat_r; lra).
  assert (X * (e + f + e * f) <= X * h) by (apply Rmult_le_compat_l; auto). assert (0 <= X * (e * f)) by (apply Rmult_le_pos; nra). lra.
Qed.
Lemma rel_div e f h x y X Y : 0 <= X -> 0 < Y -> 0 <= e <= 1 / 100 -> 0 <= f <= 1 / 100 -> 103 / 100 * (e + f) <= h -> rel e x X -> rel f y Y -> rel h (x / y) (X / Y).
Proof.
  unfold rel. intros HX HY He Hf Hh [H1 H2] [H3 H4].
  assert (Py : 0 < y) by nra. assert (PX : 0 <= X / Y) by (apply Rmult_le_pos; [auto|left; now apply Rinv_0_lt_compat]).
  assert (L : X / Y * (103 / 100 * (e + f)) <= X / Y * h) by (apply Rmult_le_compat_l; auto).
  assert (E : X = X / Y * Y) by (field; lra). set (Z := X / Y) in *.
  split.
  - apply Rmult_le_reg_r with y; auto. replace (x / y * y) with x by (field; lra). apply Rle_trans with (X * (1 - e)); auto. rewrite E.
    apply Rle_trans with (Z * (1 - 103 / 100 * (e + f)) * y); [apply Rmult_le_compat_r; lra|].
    apply Rle_trans with (Z * (1 - 103 / 100 * (e + f)) * (Y * (1 + f))); [apply Rmult_le_compat_l; [apply Rmult_le_pos; lra|auto]|].
    replace (Z * (1 - 103 / 100 * (e + f)) * (Y * (1 + f))) with (Z * Y * ((1 - 103 / 100 * (e + f)) * (1 + f))) by ring. apply Rmult_le_compat_l; [apply Rmult_le_pos; lra|]. nra.
  - apply Rmult_le_reg_r with y; auto. replace (x / y * y) with x by (field; lra). apply Rle_trans with (X * (1 + e)); auto. rewrite E.
    apply Rle_trans with (Z * (1 + 103 / 100 * (e + f)) * y); [|apply Rmult_le_compat_r; lra].
    apply Rle_trans with (Z * (1 + 103 / 100 * (e + f)) * (Y * (1 - f))); [|apply Rmult_le_compat_l; [apply Rmult_le_pos; lra|auto]].
    replace (Z * (1 + 103 / 100 * (e + f)) * (Y * (1 - f))) with (Z * Y * ((1 + 103 / 100 * (e + f)) * (1 - f))) by ring. apply Rmult_le_compat_l; [apply Rmult_le_pos; lra|]. nra.
Qed.
Lemma rel_sqrt e x X : 0 <= X -> 0 <= e <= 1 -> rel e x X -> rel e (sqrt x) (sqrt X).
Proof.
  unfold rel. intros HX He [H1 H2]. pose proof (sqrt_pos X) as S0. split.
  - rewrite <- (sqrt_square (sqrt X * (1 - e))) by (apply Rmult_le_pos; lra). apply sqrt_le_1_alt. replace (sqrt X * (1 - e) * (sqrt X * (1 - e))) with (sqrt X * sqrt X * ((1 - e) * (1 - e))) by ring.
    rewrite sqrt_sqrt by auto. assert (X * ((1 - e) * (1 - e)) <= X * (1 - e)) by (apply Rmult_le_compat_l; [auto|nra]). lra.
  - rewrite <- (sqrt_square (sqrt X * (1 + e))) by (apply Rmult_le_pos; lra). apply sqrt_le_1_alt. replace (sqrt X * (1 + e) * (sqrt X * (1 + e))) with (sqrt X * sqrt X * ((1 + e) * (1 + e))) by ring.
    rewrite sqrt_sqrt by auto. assert (X * (1 + e) <= X * ((1 + e) * (1 + e))) by (apply Rmult_le_compat_l; [auto|nra]). lra.
Qed.

Section Params.
Variables (m kappa om ot tt beta rf sf df rt st kt th : R).
Hypotheses (Hm : 2 <= m) (Hk : 0 < kappa) (Ho : 0 < om) (Hth : 0 < th <= 1 / 4000).
Hypotheses (Rot : rel th ot om) (Rtt : rel (th / 16) tt (kappa * ot)).
Hypotheses (Hb : 0 <= beta) (Hbt : 2 * beta <= sqrt tt).
Let t := kappa * om.
Let tau := sqrt t.
Let C1 := m * m / (m * m - 1).
Let rho T := (T + m * beta) / (m + 1).
Let sigma T := 2 * rho T / (T + beta).
Hypotheses (Rrf : rel (th / 4) rf (rho (sqrt tt))) (Rsf : rel (th / 2) sf (sigma (sqrt tt))).
Hypothesis (Rdf : Rabs (df - C1 * (1 - beta / sqrt tt * (beta / sqrt tt))) <= 3 / 4 * th).
Hypotheses (Rrt : rel (th / 16) rt (rf / ot)) (Rst : rel (th / 16) st (sf / ot)) (Rkt : rel (th / 16) kt (kappa * df)).

Lemma pt_pos : 0 < t. Proof. unfold t. nra. Qed.
Lemma ptau : 0 < tau. Proof. apply sqrt_lt_R0, pt_pos. Qed.
Lemma tau2 : tau * tau = t. Proof. apply sqrt_sqrt. left. apply pt_pos. Qed.
Lemma r_t : rel (11 / 10 * th) tt t.
Proof.
  apply (rel_trans th (th / 16)) with (y := kappa * ot); [left; apply pt_pos|lra|lra|lra|nra| |exact Rtt].
  unfold rel, t in *. destruct Rot as [H1 H2]. split; [replace (kappa * om * (1 - th)) with (kappa * (om * (1 - th))) by ring|replace (kappa * om * (1 + th)) with (kappa * (om * (1 + th))) by ring]; apply Rmult_le_compat_l; lra.
Qed.
Lemma r_tau : rel (11 / 10 * th) (sqrt tt) tau.
Proof. apply rel_sqrt; [left; apply pt_pos|lra|apply r_t]. Qed.
Lemma tt_tau : 0 < sqrt tt /\ sqrt tt * sqrt tt = tt /\ 0 < tt.
Proof.
  pose proof r_t as [H1 _]. pose proof pt_pos. assert (0 < tt) by nra. split; [now apply sqrt_lt_R0|split; [apply sqrt_sqrt; lra|auto]].
Qed.
Lemma beta_le : beta <= 501 / 1000 * tau.
Proof. pose proof r_tau as [_ H]. pose proof ptau. nra. Qed.
Lemma r_rho : rel (11 / 10 * th) (rho (sqrt tt)) (rho tau).
Proof.
  pose proof r_tau as [H1 H2]. unfold rel, rho. pose proof ptau. assert (0 < / (m + 1)) by (apply Rinv_0_lt_compat; lra). assert (0 <= m * beta) by (apply Rmult_le_pos; lra).
  split; [replace ((tau + m * beta) / (m + 1) * (1 - 11 / 10 * th)) with ((tau + m * beta) * (1 - 11 / 10 * th) / (m + 1)) by (field; lra)|
    replace ((tau + m * beta) / (m + 1) * (1 + 11 / 10 * th)) with ((tau + m * beta) * (1 + 11 / 10 * th) / (m + 1)) by (field; lra)];
  apply Rmult_le_compat_r; try lra; nra.
Qed.
Lemma rho_pos : 0 < rho tau.
Proof. unfold rho. pose proof ptau. apply Rdiv_lt_0_compat; [|lra]. assert (0 <= m * beta) by (apply Rmult_le_pos; lra). lra. Qed.
Lemma sigma_pos : 0 < sigma tau.
Proof. unfold sigma. pose proof ptau. pose proof rho_pos. apply Rdiv_lt_0_compat; lra. Qed.
Lemma r_sigma : rel (228 / 100 * th) (sigma (sqrt tt)) (sigma tau).
Proof.
  pose proof ptau. pose proof rho_pos. apply (rel_div (11 / 10 * th) (11 / 10 * th)); try lra.
  - pose proof r_rho as [H1 H2]. unfold rel. lra.
  - pose proof r_tau as [H1 H2]. unfold rel. nra.
Qed.
Lemma r_rt : rel (4 * th) rt (rho tau / om).
Proof.
  pose proof rho_pos as R. apply (rel_trans (25 / 10 * th) (th / 16)) with (y := rf / ot); [left; apply Rdiv_lt_0_compat; auto|lra|lra|lra|nra| |exact Rrt].
  apply (rel_div (14 / 10 * th) th); try lra; auto. apply (rel_trans (11 / 10 * th) (th / 4)) with (y := rho (sqrt tt)); try lra; [nra|apply r_rho|exact Rrf].
Qed.
Lemma r_st : rel (4 * th) st (sigma tau / om).
Proof.
  pose proof sigma_pos as R. apply (rel_trans (3915 / 1000 * th) (th / 16)) with (y := sf / ot); [left; apply Rdiv_lt_0_compat; auto|lra|lra|lra|nra| |exact Rst].
  apply (rel_div (28 / 10 * th) th); try lra; auto. apply (rel_trans (228 / 100 * th) (th / 2)) with (y := sigma (sqrt tt)); try lra; [nra|apply r_sigma|exact Rsf].
Qed.
Lemma C1_b : 1 <= C1 <= 4 / 3.
Proof. unfold C1. split; [apply Rmult_le_reg_r with (m * m - 1)|apply Rmult_le_reg_r with (m * m - 1)]; try nra; replace (m * m / (m * m - 1) * (m * m - 1)) with (m * m) by (field; nra); nra. Qed.
Let delta := C1 * (1 - beta / tau * (beta / tau)).
Lemma delta_low : 7 / 10 <= delta.
Proof.
  unfold delta. pose proof C1_b. pose proof ptau as P. pose proof beta_le as B. assert (A : 0 <= beta / tau <= 501 / 1000).
  { split; [apply Rmult_le_pos; [auto|left; now apply Rinv_0_lt_compat]|]. apply Rmult_le_reg_r with tau; auto. replace (beta / tau * tau) with beta by (field; lra). exact B. }
  assert (beta / tau * (beta / tau) <= 501 / 1000 * (501 / 1000)) by (apply Rmult_le_compat; lra). nra.
Qed.
Lemma df_low : delta * (1 - 2 * th) <= df.
Proof.
  pose proof C1_b as C. pose proof delta_low as D. destruct tt_tau as (T1 & T2 & T3). pose proof tau2 as T4. pose proof ptau as T5. pose proof r_t as [R1 R2]. pose proof pt_pos as P.
  apply Rabs_le_inv in Rdf. assert (E1 : beta / sqrt tt * (beta / sqrt tt) = beta * beta / tt) by (rewrite <- T2 at 3; field; lra).
  assert (E2 : beta / tau * (beta / tau) = beta * beta / t) by (rewrite <- T4; field; lra). unfold delta in *. rewrite E1 in Rdf. rewrite E2 in *.
  assert (Bq : 0 <= beta * beta <= tt / 4). { split; [nra|]. assert (2 * beta * (2 * beta) <= sqrt tt * sqrt tt) by (apply Rmult_le_compat; lra). lra. }
  assert (K : beta * beta / tt - beta * beta / t <= 3 / 10 * th).
  { replace (beta * beta / tt - beta * beta / t) with (beta * beta / tt * ((t - tt) / t)) by (field; split; lra).
    assert (X1 : 0 <= beta * beta / tt <= 1 / 4). { split; [apply Rmult_le_pos; [lra|left; now apply Rinv_0_lt_compat]|]. apply Rmult_le_reg_r with tt; auto. replace (beta * beta / tt * tt) with (beta * beta) by (field; lra). lra. }
    assert (X2 : (t - tt) / t <= 11 / 10 * th). { apply Rmult_le_reg_r with t; auto. replace ((t - tt) / t * t) with (t - tt) by (field; lra). lra. }
    destruct (Rle_lt_dec 0 ((t - tt) / t)); [apply Rle_trans with (1 / 4 * (11 / 10 * th)); [apply Rmult_le_compat; lra|lra]|]. nra. }
  assert (C1 * (beta * beta / tt - beta * beta / t) <= 4 / 3 * (3 / 10 * th)).
  { destruct (Rle_lt_dec 0 (beta * beta / tt - beta * beta / t)); [apply Rmult_le_compat; lra|nra]. }
  set (dd := C1 * (1 - beta * beta / t)) in *. assert (E3 : C1 * (1 - beta * beta / tt) = dd - C1 * (beta * beta / tt - beta * beta / t)) by (unfold dd; ring). nra.
Qed.
Lemma kt_low : kappa * delta * (1 - 4 * th) <= kt.
Proof.
  destruct Rkt as [H _]. pose proof df_low as D. pose proof delta_low as D2. apply Rle_trans with (kappa * df * (1 - th / 16)); auto.
  apply Rle_trans with (kappa * (delta * (1 - 2 * th)) * (1 - th / 16)); [|apply Rmult_le_compat_r; [lra|]; apply Rmult_le_compat_l; lra].
  replace (kappa * (delta * (1 - 2 * th)) * (1 - th / 16)) with (kappa * delta * ((1 - 2 * th) * (1 - th / 16))) by ring. apply Rmult_le_compat_l; [apply Rmult_le_pos; lra|]. nra.
Qed.
Lemma df_high : df <= delta * (1 + 2 * th).
Proof.
  pose proof C1_b as C. pose proof delta_low as D. destruct tt_tau as (T1 & T2 & T3). pose proof tau2 as T4. pose proof ptau as T5. pose proof r_t as [R1 R2]. pose proof pt_pos as P.
  apply Rabs_le_inv in Rdf. assert (E1 : beta / sqrt tt * (beta / sqrt tt) = beta * beta / tt) by (rewrite <- T2 at 3; field; lra).
  assert (E2 : beta / tau * (beta / tau) = beta * beta / t) by (rewrite <- T4; field; lra). unfold delta in *. rewrite E1 in Rdf. rewrite E2 in *.
  assert (Bq : 0 <= beta * beta <= tt / 4). { split; [nra|]. assert (2 * beta * (2 * beta) <= sqrt tt * sqrt tt) by (apply Rmult_le_compat; lra). lra. }
  assert (K : beta * beta / t - beta * beta / tt <= 3 / 10 * th).
  { replace (beta * beta / t - beta * beta / tt) with (beta * beta / tt * ((tt - t) / t)) by (field; split; lra).
    assert (X1 : 0 <= beta * beta / tt <= 1 / 4). { split; [apply Rmult_le_pos; [lra|left; now apply Rinv_0_lt_compat]|]. apply Rmult_le_reg_r with tt; auto. replace (beta * beta / tt * tt) with (beta * beta) by (field; lra). lra. }
    assert (X2 : (tt - t) / t <= 11 / 10 * th). { apply Rmult_le_reg_r with t; auto. replace ((tt - t) / t * t) with (tt - t) by (field; lra). lra. }
    destruct (Rle_lt_dec 0 ((tt - t) / t)); [apply Rle_trans with (1 / 4 * (11 / 10 * th)); [apply Rmult_le_compat; lra|lra]|]. nra. }
  assert (C1 * (beta * beta / t - beta * beta / tt) <= 4 / 3 * (3 / 10 * th)).
  { destruct (Rle_lt_dec 0 (beta * beta / t - beta * beta / tt)); [apply Rmult_le_compat; lra|nra]. }
  set (dd := C1 * (1 - beta * beta / t)) in *. assert (E3 : C1 * (1 - beta * beta / tt) = dd + C1 * (beta * beta / t - beta * beta / tt)) by (unfold dd; ring). nra.
Qed.
Lemma kt_high : kt <= kappa * delta * (1 + 4 * th).
Proof.
  destruct Rkt as [_ H]. pose proof df_high as D. pose proof delta_low as D2. apply Rle_trans with (kappa * df * (1 + th / 16)); auto.
  apply Rle_trans with (kappa * (delta * (1 + 2 * th)) * (1 + th / 16)); [apply Rmult_le_compat_r; [lra|]; apply Rmult_le_compat_l; lra|].
  replace (kappa * (delta * (1 + 2 * th)) * (1 + th / 16)) with (kappa * delta * ((1 + 2 * th) * (1 + th / 16))) by ring. apply Rmult_le_compat_l; [apply Rmult_le_pos; lra|]. nra.
Qed.
Lemma sigma_le : sigma tau <= 9 / 10.
Proof.
  unfold sigma, rho. pose proof ptau as P. pose proof beta_le as B. apply Rmult_le_reg_r with ((m + 1) * (tau + beta)); [apply Rmult_lt_0_compat; lra|].
  replace (2 * ((tau + m * beta) / (m + 1)) / (tau + beta) * ((m + 1) * (tau + beta))) with (2 * (tau + m * beta)) by (field; split; lra).
  assert (0 <= (m - 2) * (9 / 10 * tau - 11 / 10 * beta)) by (apply Rmult_le_pos; lra). nra.
Qed.
Lemma rho_tau : 0 <= rho tau /\ rho tau * rho tau <= kappa * om.
Proof.
  pose proof rho_pos as R. split; [lra|]. fold t. rewrite <- tau2. assert (rho tau <= tau); [|apply Rmult_le_compat; lra].
  unfold rho. pose proof ptau as P. pose proof beta_le as B. apply Rmult_le_reg_r with (m + 1); [lra|]. replace ((tau + m * beta) / (m + 1) * (m + 1)) with (tau + m * beta) by (field; lra). nra.
Qed.
End Params.
