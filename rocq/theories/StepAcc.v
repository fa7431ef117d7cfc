(** One ellipsoid step in binary64 (C101). *)
From Coq Require Import ZArith Reals Lra Lia Bool Psatz Arith List.
From Flocq Require Import Core IEEE754.BinarySingleNaN.
From Verif Require Import Num Res Arr CuttingPlane EllCalc Ell ArrLemmas EllLemmas Spec RealLin EllReal FloatLemmas AccSpec FloatRel AccProofs FloatErr LdltErr StepErr StepRel StepAccSpec Det DetLemmas VolScalar.
Local Open Scope R_scope.

#[local] Opaque fadd fsub fmul fdiv fsqrt fofZ.
Lemma rnd_size z e : (-1074 <= e)%Z -> Rabs z <= bpow radix2 e -> Rabs (rnd z) <= bpow radix2 e.
Proof. intros He Hz. apply abs_round_le_generic; [typeclasses eauto|typeclasses eauto|apply bpow_generic; auto|auto]. Qed.
Lemma rnd_ok z : Rabs z <= bpow radix2 1000 -> Rabs (rnd z) < bpow radix2 femax.
Proof. intros H. eapply Rle_lt_trans; [apply rnd_size; [|exact H]; lia|]. apply bpow_lt. reflexivity. Qed.
Lemma b_le a b : (a <= b)%Z -> bpow radix2 a <= bpow radix2 b. Proof. apply bpow_le. Qed.
Lemma mul_size x y a b : Rabs x <= bpow radix2 a -> Rabs y <= bpow radix2 b -> Rabs (x * y) <= bpow radix2 (a + b).
Proof. intros H K. rewrite Rabs_mult, bpow_plus. apply Rmult_le_compat; auto using Rabs_pos. Qed.
Lemma unit_quad n M k : (k < n)%nat -> quad n M (fun i => if Nat.eqb i k then 1 else 0) = M k k.
Proof.
  intros Hk. unfold quad, dot. rewrite (Rsum_one n k); auto.
  - rewrite Nat.eqb_refl. unfold mulmv. rewrite (Rsum_one n k); auto; [rewrite Nat.eqb_refl; ring|]. intros i Hi Hne. destruct (Nat.eqb_spec i k); [contradiction|ring].
  - intros i Hi Hne. destruct (Nat.eqb_spec i k); [contradiction|ring].
Qed.
Lemma unit_dot n y k : (k < n)%nat -> dot n (fun i => if Nat.eqb i k then 1 else 0) y = y k.
Proof. intros Hk. unfold dot. rewrite (Rsum_one n k); auto; [rewrite Nat.eqb_refl; ring|]. intros i Hi Hne. destruct (Nat.eqb_spec i k); [contradiction|ring]. Qed.

Lemma rel_rng x0 X0 ex lo hi : 0 <= ex <= 1 / 2 -> rel ex x0 X0 -> rng lo hi X0 -> rng (lo - 1) (hi + 1) x0.
Proof.
  intros Hx [R1 R2] [A B]. pose proof (bpow_gt_0 radix2 lo) as L.
  assert (X0 * ex <= X0 * (1 / 2)) by (apply Rmult_le_compat_l; lra). split.
  - unfold Z.sub. rewrite bpow_plus. change (bpow radix2 (- (1))) with (/ 2). lra.
  - rewrite bpow_plus. change (bpow radix2 1) with 2. lra.
Qed.

(** What the exact step does to an ellipsoid that is a little too large: the excess
    grows by a bounded factor. *)
Lemma deep3_grow m t beta s eps : 1 < m -> 0 < t -> 0 <= beta -> beta < sqrt t -> 0 <= eps ->
  s * s <= t * (1 + eps) -> s + beta <= 0 ->
  let al := beta / sqrt t in
  let '(rho, sigma, delta) := deep3 m (sqrt t) beta in
  keeps (t * (1 + eps)) rho sigma (delta * (1 + eps * ((m + 1) / m / (1 - al) * ((m + 1) / m / (1 - al)))) / (1 + eps)) s.
Proof.
  intros Hm Ht Hb Hbt He Hs Hc al. pose proof (sqrt_lt_R0 _ Ht) as T0. pose proof (sqrt_sqrt t (Rlt_le _ _ Ht)) as TT. set (T := sqrt t) in *. unfold deep3.
  set (rho := (T + m * beta) / (m + 1)). set (sigma := 2 * rho / (T + beta)). set (C := m * m / (m * m - 1)). set (delta := C * (1 - beta / T * (beta / T))).
  set (w := (m + 1) / m / (1 - al) * ((m + 1) / m / (1 - al))). assert (MB : 0 <= m * beta) by (apply Rmult_le_pos; lra).
  assert (R0 : 0 <= rho). { unfold rho. apply Rmult_le_pos; [lra|]. left. apply Rinv_0_lt_compat. lra. }
  assert (TB : 0 < T - beta) by lra. assert (PM : 0 < (m - 1) * (T - beta)) by (apply Rmult_lt_0_compat; lra).
  assert (S1 : 1 - sigma = (m - 1) * (T - beta) / ((m + 1) * (T + beta))) by (unfold sigma, rho; field; lra).
  assert (SG : sigma < 1). { assert (0 < 1 - sigma); [|lra]. rewrite S1. apply Rmult_lt_0_compat; [exact PM|]. apply Rinv_0_lt_compat. apply Rmult_lt_0_compat; lra. }
  assert (S0 : 0 <= sigma). { unfold sigma. apply Rmult_le_pos; [lra|]. left. apply Rinv_0_lt_compat. lra. }
  assert (AL : 1 - al = (T - beta) / T) by (unfold al; field; lra).
  assert (W : (1 - sigma) * delta * w = 1). { rewrite S1. unfold w. rewrite AL. unfold delta, C. assert (m * m - 1 <> 0) by nra. field. repeat split; try lra. }
  left. split; [exact SG|]. replace (delta * (1 + eps * w) / (1 + eps) * (t * (1 + eps))) with (delta * (1 + eps * w) * t) by (field; lra).
  replace ((1 - sigma) * (delta * (1 + eps * w) * t)) with ((1 - sigma) * (delta * t) + (1 - sigma) * delta * w * (eps * t)) by ring. rewrite W.
  assert (base : forall s', - T <= s' -> s' + beta <= 0 -> (1 - sigma) * t + rho * rho + 2 * rho * s' + sigma * (s' * s') <= (1 - sigma) * (delta * t)).
  { intros s' A B. pose proof (deep3_keeps m t beta s' Hm Ht) as K. fold T in K. specialize (K ltac:(lra) ltac:(lra) A B). unfold deep3 in K. fold rho sigma C delta in K. destruct K as [[_ K]|[K _]]; [exact K|lra]. }
  assert (ET : 0 <= eps * t) by (apply Rmult_le_pos; lra). assert (SE : sigma * (eps * t) <= 1 * (eps * t)) by (apply Rmult_le_compat_r; lra).
  assert (SE0 : 0 <= sigma * (eps * t)) by (apply Rmult_le_pos; lra).
  destruct (Rle_dec (- T) s) as [Q|Q].
  - pose proof (base s Q Hc). lra.
  - pose proof (base (- T) ltac:(lra) ltac:(lra)) as B. replace (- T * - T) with t in B by lra.
    assert (D1 : sigma * (s * s) <= sigma * (t * (1 + eps))) by (apply Rmult_le_compat_l; lra).
    assert (D2 : rho * s <= rho * - T) by (apply Rmult_le_compat_l; lra). lra.
Qed.

(** The determinant grows with the matrix. *)
Lemma det_mono n : forall A B, sym n A -> sym n B -> pd n A -> (forall z, quad n A z <= quad n B z) -> det n A <= det n B.
Proof.
  induction n as [|n IH]; intros A B SA SB PA H; [simpl; lra|].
  assert (PB : pd (S n) B) by (intros z Hz; eapply Rlt_le_trans; [apply PA; exact Hz|apply H]).
  pose proof (pd_corner _ _ PA) as A0. pose proof (pd_corner _ _ PB) as B0. rewrite !det_schur by lra.
  apply Rmult_le_compat; [lra|left; apply det_pos; [apply schur_sym; auto; lra|apply schur_pd; auto]| |].
  - specialize (H (fun i => if Nat.eqb i 0 then 1 else 0)). rewrite !unit_quad in H by lia. exact H.
  - apply IH; [apply schur_sym; auto; lra|apply schur_sym; auto; lra|apply schur_pd; auto|]. intros y.
    rewrite <- (lift_quad n B SB) by lra. eapply Rle_trans; [|apply H]. rewrite (quad_schur n A SA) by lra.
    assert (0 <= mulmv (S n) A (lift n B y) 0%nat * mulmv (S n) A (lift n B y) 0%nat / A 0%nat 0%nat) by (apply Rmult_le_pos; [apply Rle_0_sqr|left; now apply Rinv_0_lt_compat]).
    change (fun i => lift n B y (S i)) with y. lra.
Qed.
Lemma quad_scale n M c z : quad n (fun i j => M i j * c) z = c * quad n M z.
Proof.
  unfold quad, dot. rewrite <- Rsum_scal. apply Rsum_ext. intros i Hi. unfold mulmv. rewrite (Rsum_ext n (fun j => M i j * c * z j) (fun j => c * (M i j * z j))) by (intros; ring). rewrite Rsum_scal. ring.
Qed.

Section Step.
Variable lm : Libm.
Notation F := (FNum lm).
Variables (n : nat) (e : Ell F) (g : Arr F) (lam Lam X : R).
Hypotheses (He : tame n e lam Lam X) (Hg : grad_ok n g).
Let M := fshape n e.
Let gv := fcoords g.
Let p := mulmv n M gv.
Let om := quad n M gv.
Let kap := fkap e.
Let pf i : f64 := gt e g n i.
Let of : f64 := omega e g n.
Let G := Rsum n (fun i => Rabs (gv i)).
Let P := Lam * G.
Let N := INR n.

Lemma N_b : 2 <= N <= bpow radix2 26.
Proof.
  destruct (t_dim _ _ _ _ _ He) as [H1 H2]. unfold N. split; [apply (le_INR 2 n) in H1; simpl in H1; lra|].
  rewrite INR_IZR_INZ. change (bpow radix2 26) with (IZR (2 ^ 26)). now apply IZR_le.
Qed.
Lemma nu3 : 3 * N * uu <= 1 / 1000.
Proof.
  pose proof N_b as [_ H]. assert (N * uu <= bpow radix2 (-27)). { change (-27)%Z with (26 + -53)%Z. rewrite bpow_plus. apply Rmult_le_compat_r; [apply bpow_ge_0|auto]. }
  assert (bpow radix2 (-27) <= bpow radix2 (-13)) by (apply b_le; lia). change (bpow radix2 (-13)) with (/ 8192) in *. lra.
Qed.
Lemma n8 : 8 * N * uu <= 1. Proof. pose proof nu3. lra. Qed.
Lemma npos : (0 < n)%nat. Proof. destruct (t_dim _ _ _ _ _ He). lia. Qed.
Lemma ewf : ell_wf n e.
Proof. destruct (t_mq _ _ _ _ _ He) as (A & B & C). split; [apply npos|]. split; [split; auto|exact (t_xc _ _ _ _ _ He)]. Qed.
Lemma gvec : is_vec n g. Proof. destruct Hg as (A & B & _). split; auto. Qed.
Lemma mq_fin i j : (i < n)%nat -> (j < n)%nat -> fin (mget n (adata (e_mq e)) i j : f64) = true.
Proof. intros Hi Hj. destruct (t_fin _ _ _ _ _ He) as [A _]. destruct (t_mq _ _ _ _ _ He) as (L & _). unfold all_finite in A. rewrite Forall_forall in A. apply A. unfold mget. apply nth_In. rewrite L. nia. Qed.
Lemma xc_fin i : (i < n)%nat -> fin (vget (e_xc e) i : f64) = true.
Proof. intros Hi. destruct (t_fin _ _ _ _ _ He) as [_ A]. unfold all_finite in A. rewrite Forall_forall in A. apply A. unfold vget. apply nth_In. rewrite (t_xc _ _ _ _ _ He). auto. Qed.
Lemma g_fin i : (i < n)%nat -> fin (vget g i : f64) = true.
Proof. intros Hi. destruct Hg as (L & _ & A & _). unfold all_finite in A. rewrite Forall_forall in A. apply A. unfold vget. apply nth_In. rewrite L. auto. Qed.
Lemma gv_b i : (i < n)%nat -> Rabs (gv i) <= bpow radix2 200. Proof. destruct Hg as (_ & _ & _ & B). apply B. Qed.
Lemma M_b i j : (i < n)%nat -> (j < n)%nat -> Rabs (M i j) <= Lam. Proof. destruct (t_Lam _ _ _ _ _ He) as [_ B]. apply B. Qed.
Lemma lam_pos : 0 < lam. Proof. destruct (t_lam _ _ _ _ _ He) as [B _]. pose proof (bpow_gt_0 radix2 (-100)). lra. Qed.
Lemma lam_Lam : lam <= Lam.
Proof.
  destruct (t_lam _ _ _ _ _ He) as [_ B]. specialize (B (fun i => if Nat.eqb i 0 then 1 else 0)). rewrite unit_quad in B by apply npos. rewrite unit_dot in B by apply npos. cbn in B.
  pose proof (M_b 0 0 npos npos) as C. unfold M in C. apply Rabs_le_inv in C. lra.
Qed.
Lemma Lam_b : bpow radix2 (-100) <= Lam <= bpow radix2 100.
Proof. destruct (t_Lam _ _ _ _ _ He) as [B _]. destruct (t_lam _ _ _ _ _ He) as [C _]. pose proof lam_Lam. lra. Qed.
Lemma kap_b : fin (e_kappa e : f64) = true /\ bpow radix2 (-100) <= kap <= bpow radix2 100. Proof. exact (t_kap _ _ _ _ _ He). Qed.
Lemma G_b : 0 <= G <= bpow radix2 226.
Proof.
  split; [apply Rsum_nonneg; intros; apply Rabs_pos|]. apply Rle_trans with (Rsum n (fun _ => bpow radix2 200)); [apply Rsum_le; apply gv_b|].
  rewrite LdltErr.Rsum_const. fold N. change 226%Z with (26 + 200)%Z. rewrite bpow_plus. apply Rmult_le_compat_r; [apply bpow_ge_0|apply N_b].
Qed.
Lemma P_b : 0 <= P <= bpow radix2 326.
Proof. pose proof Lam_b as [A B]. pose proof G_b as [C D]. pose proof (bpow_gt_0 radix2 (-100)). unfold P. split; [apply Rmult_le_pos; lra|]. change 326%Z with (100 + 226)%Z. rewrite bpow_plus. apply Rmult_le_compat; lra. Qed.
Lemma row_abs i : (i < n)%nat -> Rsum n (fun j => Rabs (M i j * gv j)) <= P.
Proof. intros Hi. unfold P, G. rewrite <- Rsum_scal. apply Rsum_le. intros j Hj. rewrite Rabs_mult. apply Rmult_le_compat_r; [apply Rabs_pos|now apply M_b]. Qed.
Lemma p_b i : (i < n)%nat -> Rabs (p i) <= P.
Proof. intros Hi. unfold p, mulmv. eapply Rle_trans; [apply Rabs_Rsum|now apply row_abs]. Qed.
Lemma pf_fin i : (i < n)%nat -> fin (pf i) = true.
Proof.
  intros Hi. apply (accum_small lm (n0 (N := F)) (fun j => mget n (adata (e_mq e)) i j) (fun j => vget g j)); [apply n0_val|apply n0_fin|apply (t_dim _ _ _ _ _ He)|].
  intros j Hj. split; [now apply mq_fin|]. split; [now apply g_fin|]. change (Rabs (M i j * gv j) <= bpow radix2 600).
  eapply Rle_trans; [apply (mul_size _ _ 100 200)|apply b_le; lia]; [|now apply gv_b]. eapply Rle_trans; [now apply M_b|apply Lam_b].
Qed.
Lemma pf_err i : (i < n)%nat -> Rabs (val (pf i) - p i) <= 3 * N * uu * P + 4 * N * ee.
Proof.
  intros Hi. pose proof (accum_err lm (fun j => mget n (adata (e_mq e)) i j) (fun j => vget g j) n (pf_fin i Hi) n8) as K.
  eapply Rle_trans; [exact K|]. fold N. apply Rplus_le_compat_r. apply Rmult_le_compat_l; [|exact (row_abs i Hi)]. pose proof N_b. pose proof (bpow_ge_0 radix2 (-53)). apply Rmult_le_pos; lra.
Qed.
Lemma tiny4 : 4 * N * ee <= bpow radix2 (-1000).
Proof.
  pose proof N_b as [_ H]. apply Rle_trans with (bpow radix2 2 * bpow radix2 26 * ee); [apply Rmult_le_compat_r; [apply bpow_ge_0|]; change (bpow radix2 2) with 4; lra|].
  rewrite <- !bpow_plus. apply b_le. lia.
Qed.
Lemma pf_b i : (i < n)%nat -> Rabs (val (pf i)) <= 1001 / 1000 * P + bpow radix2 (-1000).
Proof.
  intros Hi. pose proof (pf_err i Hi) as K. pose proof (p_b i Hi) as B. pose proof tiny4. pose proof nu3. pose proof P_b as [P0 _].
  assert (3 * N * uu * P <= 1 / 1000 * P) by (apply Rmult_le_compat_r; auto). apply Rabs_le_inv in K, B. apply Rabs_le. lra.
Qed.
Lemma pf_b2 i : (i < n)%nat -> Rabs (val (pf i)) <= bpow radix2 327.
Proof.
  intros Hi. eapply Rle_trans; [now apply pf_b|]. pose proof P_b as [_ B]. change 327%Z with (1 + 326)%Z. rewrite bpow_plus. change (bpow radix2 1) with 2.
  assert (bpow radix2 (-1000) <= bpow radix2 300) by (apply b_le; lia). assert (bpow radix2 300 <= 1 / 1000 * bpow radix2 326).
  { apply Rle_trans with (bpow radix2 (-10) * bpow radix2 326); [rewrite <- bpow_plus; apply b_le; lia|]. apply Rmult_le_compat_r; [apply bpow_ge_0|]. change (bpow radix2 (-10)) with (/ 1024). lra. } pose proof (bpow_gt_0 radix2 326). lra.
Qed.
Lemma sum0_val : val (nsum0 (n := F) : f64) = 0 /\ fin (nsum0 (n := F) : f64) = true. Proof. split; reflexivity. Qed.
Lemma of_fin : fin of = true.
Proof.
  apply (accum_small lm (nsum0 (n := F)) (fun i => vget g i) pf); [apply sum0_val|apply sum0_val|apply (t_dim _ _ _ _ _ He)|].
  intros i Hi. split; [now apply g_fin|]. split; [now apply pf_fin|]. change (Rabs (gv i * val (pf i)) <= bpow radix2 600).
  eapply Rle_trans; [apply (mul_size _ _ 200 327); [now apply gv_b|now apply pf_b2]|apply b_le; lia].
Qed.
Lemma gp_abs B : 0 <= B -> (forall i, (i < n)%nat -> Rabs (val (pf i)) <= B) -> Rsum n (fun i => Rabs (gv i * val (pf i))) <= G * B.
Proof. intros HB H. unfold G. rewrite <- Rsum_scal_r. apply Rsum_le. intros i Hi. rewrite Rabs_mult. apply Rmult_le_compat_l; [apply Rabs_pos|auto]. Qed.
Lemma of_err B : 0 <= B -> (forall i, (i < n)%nat -> Rabs (val (pf i)) <= B) -> Rabs (val of - Rsum n (fun i => gv i * val (pf i))) <= 3 * N * uu * (G * B) + 4 * N * ee.
Proof.
  intros HB H. pose proof (accum_err_z lm (nsum0 (n := F)) (fun i => vget g i) pf (proj1 sum0_val) n of_fin n8) as K. eapply Rle_trans; [exact K|]. fold N.
  apply Rplus_le_compat_r. apply Rmult_le_compat_l; [|exact (gp_abs B HB H)]. pose proof N_b. pose proof (bpow_ge_0 radix2 (-53)). apply Rmult_le_pos; lra.
Qed.
Let tt : f64 := fmul (e_kappa e) of.
Hypothesis Ht : moderate tt.
Lemma tt_val : val tt = rnd (kap * val of).
Proof. destruct Ht as [A _]. apply fmul_inv in A. apply A. Qed.
Lemma of_low : bpow radix2 (-201) <= val of <= bpow radix2 201 /\ bpow radix2 (-101) <= kap * val of <= bpow radix2 101.
Proof.
  destruct Ht as [_ [A B]]. rewrite tt_val in A, B. pose proof kap_b as [_ [K1 K2]]. pose proof (bpow_gt_0 radix2 (-100)) as K0.
  assert (L : bpow radix2 (-101) <= kap * val of).
  { apply Rnot_lt_le. intros C. assert (rnd (kap * val of) <= bpow radix2 (-101)). { rewrite <- (rnd_generic (bpow radix2 (-101))) by (apply bpow_generic; lia). apply rnd_le. lra. }
    assert (bpow radix2 (-101) < bpow radix2 (-100)) by (apply bpow_lt; lia). lra. }
  assert (U : kap * val of <= bpow radix2 101).
  { apply Rnot_lt_le. intros C. assert (bpow radix2 101 <= rnd (kap * val of)). { rewrite <- (rnd_generic (bpow radix2 101)) by (apply bpow_generic; lia). apply rnd_le. lra. }
    assert (bpow radix2 100 < bpow radix2 101) by (apply bpow_lt; lia). lra. }
  split; [split|split; auto].
  - apply Rmult_le_reg_l with (bpow radix2 100); [apply bpow_gt_0|]. rewrite <- bpow_plus. cbn [Z.add]. pose proof (bpow_gt_0 radix2 (-101)) as Z1.
    assert (V : 0 < val of) by nra. change (100 + -201)%Z with (-101)%Z. apply Rle_trans with (kap * val of); auto. apply Rmult_le_compat_r; lra.
  - apply Rmult_le_reg_l with (bpow radix2 (-100)); [apply bpow_gt_0|]. rewrite <- bpow_plus. change (-100 + 201)%Z with 101%Z. pose proof (bpow_gt_0 radix2 (-101)) as Z1.
    assert (V : 0 < val of) by nra. apply Rle_trans with (kap * val of); auto. apply Rmult_le_compat_r; lra.
Qed.
Lemma PG_low : bpow radix2 (-203) <= P * G.
Proof.
  pose proof of_low as [[A _] _]. pose proof P_b as [P0 _]. pose proof G_b as [G0 G1]. set (t := bpow radix2 (-1000)). assert (T0 : 0 < t) by apply bpow_gt_0.
  set (B := 1001 / 1000 * P + t). assert (B0 : 0 <= B) by (unfold B; lra).
  pose proof (of_err B B0 pf_b) as K. pose proof (gp_abs B B0 pf_b) as L. pose proof (Rabs_Rsum n (fun i => gv i * val (pf i))) as Z.
  assert (GB : 0 <= G * B) by (apply Rmult_le_pos; auto). pose proof nu3. assert (3 * N * uu * (G * B) <= 1 / 1000 * (G * B)) by (apply Rmult_le_compat_r; auto). pose proof tiny4 as T4. fold t in T4.
  assert (V : val of <= 1001 / 1000 * (G * B) + t). { apply Rabs_le_inv in K. pose proof (Rle_abs (Rsum n (fun i => gv i * val (pf i)))). lra. }
  assert (GT : G * t <= bpow radix2 (-774)). { change (-774)%Z with (226 + -1000)%Z. rewrite bpow_plus. apply Rmult_le_compat_r; [left; exact T0|exact G1]. }
  assert (E : G * B = 1001 / 1000 * (P * G) + G * t) by (unfold B; ring).
  assert (S1 : bpow radix2 (-774) <= bpow radix2 (-300)) by (apply b_le; lia). assert (S2 : t <= bpow radix2 (-300)) by (apply b_le; lia).
  assert (S3 : bpow radix2 (-300) <= / 1024 * bpow radix2 (-201)). { change (/ 1024) with (bpow radix2 (-10)). rewrite <- bpow_plus. apply b_le; lia. }
  assert (S4 : bpow radix2 (-203) = / 4 * bpow radix2 (-201)). { change (/ 4) with (bpow radix2 (-2)). rewrite <- bpow_plus. reflexivity. }
  pose proof (bpow_gt_0 radix2 (-201)). lra.
Qed.
Lemma P_low : bpow radix2 (-429) <= P.
Proof.
  pose proof PG_low as A. pose proof P_b as [P0 _]. pose proof G_b as [G0 G1]. apply Rmult_le_reg_r with (bpow radix2 226); [apply bpow_gt_0|]. rewrite <- bpow_plus. change (-429 + 226)%Z with (-203)%Z.
  apply Rle_trans with (P * G); auto. apply Rmult_le_compat_l; auto.
Qed.
Let a := 4 * N * uu * P.
Lemma a0 : 0 <= a. Proof. pose proof N_b. pose proof P_b. pose proof (bpow_ge_0 radix2 (-53)). unfold a. apply Rmult_le_pos; [|lra]. apply Rmult_le_pos; lra. Qed.
Lemma pf_close i : (i < n)%nat -> Rabs (val (pf i) - p i) <= a.
Proof.
  intros Hi. eapply Rle_trans; [now apply pf_err|]. unfold a. pose proof P_low as A. pose proof N_b as [N0 _].
  assert (4 * ee <= uu * P). { apply Rle_trans with (uu * bpow radix2 (-429)); [|apply Rmult_le_compat_l; [apply bpow_ge_0|auto]]. change 4 with (bpow radix2 2). rewrite <- !bpow_plus. apply b_le. lia. }
  assert (N * (4 * ee) <= N * (uu * P)) by (apply Rmult_le_compat_l; lra). lra.
Qed.
Let th := 8 * (N * N) * uu * (Lam / lam).
Lemma K1 : 1 <= Lam / lam.
Proof. pose proof lam_pos. pose proof lam_Lam. apply Rmult_le_reg_r with lam; auto. replace (Lam / lam * lam) with Lam by (field; lra). lra. Qed.
Lemma uu_th : 32 * uu <= th.
Proof. pose proof K1 as K. pose proof N_b as [N2 _]. pose proof (bpow_gt_0 radix2 (-53)) as U. unfold th. assert (4 <= N * N) by nra. apply Rle_trans with (8 * (N * N) * uu * 1); [nra|]. apply Rmult_le_compat_l; [nra|auto]. Qed.
Lemma om_low : lam * (G * G) <= N * om /\ lam * dot n gv gv <= om.
Proof.
  pose proof lam_pos. destruct (t_lam _ _ _ _ _ He) as [_ B]. specialize (B gv). fold M om in B. split; auto. pose proof (norm1_sq n gv) as C. fold G N in C. pose proof N_b.
  apply Rle_trans with (lam * (N * dot n gv gv)); [apply Rmult_le_compat_l; lra|]. replace (lam * (N * dot n gv gv)) with (N * (lam * dot n gv gv)) by ring. apply Rmult_le_compat_l; lra.
Qed.
Lemma om_pos : 0 < om.
Proof.
  pose proof om_low as [A _]. pose proof PG_low as B. pose proof (bpow_gt_0 radix2 (-203)) as C. pose proof lam_pos. pose proof N_b. assert (0 < G * G). { destruct G_b as [G0 _]. assert (G <> 0) by (intros Z; unfold P in B; rewrite Z in B; lra). nra. }
  assert (0 < lam * (G * G)) by (apply Rmult_lt_0_compat; auto). nra.
Qed.
Lemma PG_om : P * G <= N * (Lam / lam) * om.
Proof.
  pose proof om_low as [A _]. pose proof lam_pos. pose proof K1. unfold P. replace (Lam * G * G) with (Lam / lam * (lam * (G * G))) by (field; lra).
  replace (N * (Lam / lam) * om) with (Lam / lam * (N * om)) by ring. apply Rmult_le_compat_l; lra.
Qed.
Lemma of_close : rel th (val of) om.
Proof.
  apply rel_abs. pose proof P_b as [P0 _]. pose proof G_b as [G0 _]. pose proof PG_low as L. pose proof PG_om as Q. pose proof N_b as [N0 _]. pose proof (bpow_gt_0 radix2 (-53)) as U. pose proof a0 as A0. pose proof nu3 as N3.
  set (B := P + a). assert (B0 : 0 <= B) by (unfold B; lra).
  assert (PB : forall i, (i < n)%nat -> Rabs (val (pf i)) <= B). { intros i Hi. pose proof (pf_close i Hi) as K. pose proof (p_b i Hi) as K2. apply Rabs_le_inv in K, K2. apply Rabs_le. unfold B. lra. }
  pose proof (of_err B B0 PB) as K. set (S := Rsum n (fun i => gv i * val (pf i))) in *.
  assert (D : Rabs (S - om) <= G * a).
  { unfold S, om, quad, dot. fold p. rewrite <- Rsum_minus. eapply Rle_trans; [apply Rabs_Rsum|]. unfold G. rewrite <- Rsum_scal_r. apply Rsum_le. intros i Hi.
    replace (gv i * val (pf i) - gv i * p i) with (gv i * (val (pf i) - p i)) by ring. rewrite Rabs_mult. apply Rmult_le_compat_l; [apply Rabs_pos|now apply pf_close]. }
  assert (A1 : a <= 2 / 1000 * P). { unfold a. apply Rmult_le_compat_r; lra. }
  assert (GB : G * B <= 1002 / 1000 * (P * G)). { unfold B. replace (1002 / 1000 * (P * G)) with (G * (1002 / 1000 * P)) by ring. apply Rmult_le_compat_l; lra. }
  assert (E4 : 4 * ee <= 1 / 100 * (uu * (P * G))).
  { apply Rle_trans with (/ 128 * (uu * bpow radix2 (-203))); [|assert (uu * bpow radix2 (-203) <= uu * (P * G)) by (apply Rmult_le_compat_l; lra); assert (0 <= uu * bpow radix2 (-203)) by (apply Rmult_le_pos; [lra|apply bpow_ge_0]); lra].
    change (/ 128) with (bpow radix2 (-7)). change 4 with (bpow radix2 2). rewrite <- !bpow_plus. apply b_le. lia. }
  assert (T1 : 3 * N * uu * (G * B) <= 3 * N * uu * (1002 / 1000 * (P * G))) by (apply Rmult_le_compat_l; [nra|auto]).
  assert (T2 : N * (4 * ee) <= N * (1 / 100 * (uu * (P * G)))) by (apply Rmult_le_compat_l; lra).
  assert (T3 : G * a = 4 * (N * uu * (P * G))) by (unfold a; ring). assert (T4 : 0 <= N * uu * (P * G)) by (apply Rmult_le_pos; [nra|]; apply Rmult_le_pos; auto).
  assert (T5 : 8 * (N * uu) * (P * G) <= 8 * (N * uu) * (N * (Lam / lam) * om)) by (apply Rmult_le_compat_l; [nra|auto]).
  apply Rabs_le_inv in K, D. assert (th * om = 8 * (N * uu) * (N * (Lam / lam) * om)) by (unfold th; ring). apply Rabs_le. lra.
Qed.
Lemma a_small : a * a * N <= (4 * th) * (4 * th) * (lam * om).
Proof.
  pose proof lam_pos as Hl. pose proof om_low as [A _]. pose proof N_b as [N0 _]. pose proof K1 as K. pose proof (bpow_gt_0 radix2 (-53)) as U.
  set (K0 := Lam / lam) in *. assert (EL : Lam = K0 * lam) by (unfold K0; field; lra).
  assert (E : a * a * N = 16 * (N * N * N) * (uu * uu) * (K0 * K0) * lam * (lam * (G * G))) by (unfold a, P; rewrite EL; ring).
  rewrite E. apply Rle_trans with (16 * (N * N * N) * (uu * uu) * (K0 * K0) * lam * (N * om)).
  - apply Rmult_le_compat_l; [|exact A]. clear - N0 U K Hl. clearbody K0. repeat apply Rmult_le_pos; lra.
  - replace (16 * (N * N * N) * (uu * uu) * (K0 * K0) * lam * (N * om)) with (th * th / 4 * (lam * om)) by (unfold th; fold K0; field).
    apply Rmult_le_compat_r; [pose proof om_pos; nra|]. assert (0 <= th * th) by apply Rle_0_sqr. lra.
Qed.

(** the numbers the step is made of *)
Hypothesis Hsl : slack n lam Lam X kap <= 1 / 10.
Let ze0 := uu * (X * sqrt (N / (lam * kap))).
Lemma sl_eq : slack n lam Lam X kap = 400 * th + 20 * ze0.
Proof. unfold slack, th, ze0. fold N. ring. Qed.
Lemma ze0_pos : 0 <= ze0.
Proof. destruct (t_X _ _ _ _ _ He) as [[A _] _]. unfold ze0. apply Rmult_le_pos; [apply bpow_ge_0|]. apply Rmult_le_pos; [auto|apply sqrt_pos]. Qed.
Lemma th_b : 0 < th <= 1 / 4000.
Proof. pose proof uu_th as A. pose proof (bpow_gt_0 radix2 (-53)) as U. rewrite sl_eq in Hsl. pose proof ze0_pos. split; lra. Qed.
Lemma ze0_b : 0 <= ze0 <= 1 / 200.
Proof. pose proof th_b. rewrite sl_eq in Hsl. pose proof ze0_pos. split; lra. Qed.
Lemma rnd_rel z : bpow radix2 (-900) <= z -> rel (th / 16) (rnd z) z.
Proof.
  intros H. apply rel_abs. pose proof (bpow_gt_0 radix2 (-900)). pose proof (rnd_err z) as R. rewrite (Rabs_pos_eq z) in R by lra. pose proof uu_th as A.
  assert (ee <= uu * z). { apply Rle_trans with (uu * bpow radix2 (-900)); [rewrite <- bpow_plus; apply b_le; lia|apply Rmult_le_compat_l; [apply bpow_ge_0|auto]]. }
  assert (32 * uu * z <= th * z) by (apply Rmult_le_compat_r; lra). lra.
Qed.
Variables (beta : R) (rf sf df : f64).
Let tau := sqrt (val tt).
Let C1 := N * N / (N * N - 1).
Let rho T := (T + N * beta) / (N + 1).
Let sigma T := 2 * rho T / (T + beta).
Hypotheses (Hb : 0 <= beta) (Hbt : 2 * beta <= tau).
Hypotheses (Rrf : rel (th / 4) (val rf) (rho tau)) (Rsf : rel (th / 2) (val sf) (sigma tau)).
Hypothesis (Rdf : Rabs (val df - C1 * (1 - beta / tau * (beta / tau))) <= 3 / 4 * th).
Hypotheses (Frf : fin rf = true) (Fsf : fin sf = true) (Fdf : fin df = true).
Lemma tau_b : rng (-50) 50 tau.
Proof. destruct Ht as [_ A]. apply rng_sqrt. exact A. Qed.
Lemma N1_b : rng 0 27 (N + 1).
Proof. pose proof N_b as [A B]. split; [change (bpow radix2 0) with 1; lra|]. change 27%Z with (1 + 26)%Z. rewrite bpow_plus. change (bpow radix2 1) with 2. lra. Qed.
Lemma rho_b : rng (-77) 50 (rho tau).
Proof.
  pose proof tau_b as [A B]. pose proof N_b as [N2 _]. pose proof (bpow_gt_0 radix2 (-50)) as T0. destruct (rng_div _ _ _ _ _ _ tau_b N1_b) as [D _]. change (-50 - 27)%Z with (-77)%Z in D.
  assert (0 < / (N + 1)) by (apply Rinv_0_lt_compat; lra). assert (0 <= N * beta) by (apply Rmult_le_pos; lra). split.
  - apply Rle_trans with (tau / (N + 1)); auto. unfold rho. apply Rmult_le_compat_r; lra.
  - apply Rle_trans with tau; auto. unfold rho. apply Rmult_le_reg_r with (N + 1); [lra|]. replace ((tau + N * beta) / (N + 1) * (N + 1)) with (tau + N * beta) by (field; lra). nra.
Qed.
Lemma sigma_b : rng (-127) 102 (sigma tau).
Proof.
  pose proof tau_b as [A B]. pose proof (bpow_gt_0 radix2 (-50)). assert (TB : rng (-50) 51 (tau + beta)).
  { split; [lra|]. change 51%Z with (1 + 50)%Z. rewrite bpow_plus. change (bpow radix2 1) with 2. lra. }
  assert (R2 : rng (-76) 51 (2 * rho tau)). { change 2 with (bpow radix2 1). apply (rng_mul 1 1 (-77) 50); [split; apply Rle_refl|apply rho_b]. }
  pose proof (rng_div _ _ _ _ _ _ R2 TB) as D. apply (rng_weak _ _ _ _ _ D); lia.
Qed.
Lemma of_b : rng (-201) 201 (val of). Proof. apply of_low. Qed.
Lemma of_pos : 0 < val of. Proof. exact (rng_pos _ _ _ of_b). Qed.
Let rt : f64 := fdiv rf of.
Let st : f64 := fdiv sf of.
Let kt : f64 := fmul (e_kappa e) df.
Lemma rt_ok : fin rt = true /\ rel (th / 16) (val rt) (val rf / val of).
Proof.
  pose proof th_b as T. assert (R : rng (-78) 51 (val rf)) by (apply (rel_rng (val rf) (rho tau) (th / 4) (-77) 50); [lra|exact Rrf|apply rho_b]).
  pose proof (rng_div _ _ _ _ _ _ R of_b) as D. pose proof of_pos as O. destruct (fdiv_fin rf of Frf) as [E Ff]; [lra| |].
  - apply rnd_ok. rewrite Rabs_pos_eq by (left; exact (rng_pos _ _ _ D)). eapply Rle_trans; [apply D|apply b_le; lia].
  - split; [exact Ff|]. unfold rt. rewrite E. apply rnd_rel. eapply Rle_trans; [|apply D]. apply b_le; lia.
Qed.
Lemma st_ok : fin st = true /\ rel (th / 16) (val st) (val sf / val of).
Proof.
  pose proof th_b as T. assert (R : rng (-128) 103 (val sf)) by (apply (rel_rng (val sf) (sigma tau) (th / 2) (-127) 102); [lra|exact Rsf|apply sigma_b]).
  pose proof (rng_div _ _ _ _ _ _ R of_b) as D. pose proof of_pos as O. destruct (fdiv_fin sf of Fsf) as [E Ff]; [lra| |].
  - apply rnd_ok. rewrite Rabs_pos_eq by (left; exact (rng_pos _ _ _ D)). eapply Rle_trans; [apply D|apply b_le; lia].
  - split; [exact Ff|]. unfold st. rewrite E. apply rnd_rel. eapply Rle_trans; [|apply D]. apply b_le; lia.
Qed.
Lemma C1_bd : 1 <= C1 <= 4 / 3.
Proof. pose proof N_b as [N2 _]. unfold C1. split; apply Rmult_le_reg_r with (N * N - 1); try nra; replace (N * N / (N * N - 1) * (N * N - 1)) with (N * N) by (field; nra); nra. Qed.
Lemma df_b : rng (-1) 1 (val df).
Proof.
  pose proof th_b as T. pose proof (rng_pos _ _ _ tau_b) as T0. assert (A : 0 <= beta / tau <= 1 / 2).
  { split; [apply Rmult_le_pos; [auto|left; now apply Rinv_0_lt_compat]|]. apply Rmult_le_reg_r with tau; auto. replace (beta / tau * tau) with beta by (field; lra). lra. }
  assert (B : beta / tau * (beta / tau) <= 1 / 2 * (1 / 2)) by (apply Rmult_le_compat; lra). assert (0 <= beta / tau * (beta / tau)) by (apply Rmult_le_pos; lra). pose proof C1_bd as C. apply Rabs_le_inv in Rdf.
  set (w := beta / tau * (beta / tau)) in *. clearbody w. assert (3 / 4 <= C1 * (1 - w) <= 4 / 3) by (split; nra). split; [change (bpow radix2 (-1)) with (/ 2)|change (bpow radix2 1) with 2]; lra.
Qed.
Lemma kt_ok : fin kt = true /\ rel (th / 16) (val kt) (kap * val df).
Proof.
  pose proof kap_b as [Fk Kb]. pose proof (rng_mul _ _ _ _ _ _ Kb df_b) as D. destruct (fmul_fin (e_kappa e) df Fk Fdf) as [E Ff].
  - apply rnd_ok. change (val (e_kappa e : f64)) with kap. rewrite Rabs_pos_eq by (left; exact (rng_pos _ _ _ D)). eapply Rle_trans; [apply D|apply b_le; lia].
  - split; [exact Ff|]. unfold kt. rewrite E. change (val (e_kappa e : f64)) with kap. apply rnd_rel. eapply Rle_trans; [|apply D]. apply b_le; lia.
Qed.
Lemma kap_pos : 0 < kap. Proof. pose proof kap_b as [_ K]. exact (rng_pos _ _ _ K). Qed.
Lemma tt_rel : rel (th / 16) (val tt) (kap * val of).
Proof. rewrite tt_val. apply rnd_rel. pose proof of_low as [_ [A _]]. eapply Rle_trans; [|exact A]. apply b_le; lia. Qed.
Let te := sqrt (kap * om).
Lemma N2' : 2 <= N. Proof. apply N_b. Qed.
Lemma rt_rel : rel (4 * th) (val rt) (rho te / om).
Proof. exact (r_rt N kap om (val of) (val tt) beta (val rf) (val rt) th N2' kap_pos om_pos th_b of_close tt_rel Hb Rrf (proj2 rt_ok)). Qed.
Lemma st_rel : rel (4 * th) (val st) (sigma te / om).
Proof. exact (r_st N kap om (val of) (val tt) beta (val sf) (val st) th N2' kap_pos om_pos th_b of_close tt_rel Hb Rsf (proj2 st_ok)). Qed.
Lemma kt_rel : kap * (C1 * (1 - beta / te * (beta / te))) * (1 - 4 * th) <= val kt.
Proof. exact (kt_low N kap om (val of) (val tt) beta (val df) (val kt) th N2' kap_pos om_pos th_b of_close tt_rel Hb Hbt Rdf (proj2 kt_ok)). Qed.
Lemma sg_le : 0 <= sigma te <= 9 / 10.
Proof.
  split; [left; exact (sigma_pos N kap om beta N2' kap_pos om_pos Hb)|].
  exact (StepRel.sigma_le N kap om (val of) (val tt) beta th N2' kap_pos om_pos th_b of_close tt_rel Hb Hbt).
Qed.
Lemma rh_le : 0 <= rho te /\ rho te * rho te <= kap * om.
Proof. exact (rho_tau N kap om (val of) (val tt) beta th N2' kap_pos om_pos th_b of_close tt_rel Hb Hbt). Qed.
Lemma de_low : 1 / 2 <= C1 * (1 - beta / te * (beta / te)).
Proof. pose proof (delta_low N kap om (val of) (val tt) beta th N2' kap_pos om_pos th_b of_close tt_rel Hb Hbt) as K. fold C1 te in K. lra. Qed.

(** sizes relative to the ellipsoid *)
Let V := sqrt (Lam * om).
Let Y := sqrt (kap * Lam).
Lemma M_sym : sym n M. Proof. exact (t_sym _ _ _ _ _ He). Qed.
Lemma M_lam z : lam * dot n z z <= quad n M z. Proof. apply (t_lam _ _ _ _ _ He). Qed.
Lemma M_psd : psd n M.
Proof. intros z. eapply Rle_trans; [|apply M_lam]. apply Rmult_le_pos; [left; apply lam_pos|]. unfold dot. apply Rsum_nonneg. intros; apply Rle_0_sqr. Qed.
Lemma Lam_pos : 0 < Lam. Proof. pose proof lam_pos. pose proof lam_Lam. lra. Qed.
Lemma V_pos : 0 < V. Proof. apply sqrt_lt_R0. apply Rmult_lt_0_compat; [apply Lam_pos|apply om_pos]. Qed.
Lemma V_sq : V * V = Lam * om. Proof. apply sqrt_sqrt. left. apply Rmult_lt_0_compat; [apply Lam_pos|apply om_pos]. Qed.
Lemma Y_pos : 0 < Y. Proof. apply sqrt_lt_R0. apply Rmult_lt_0_compat; [apply kap_pos|apply Lam_pos]. Qed.
Lemma Y_sq : Y * Y = kap * Lam. Proof. apply sqrt_sqrt. left. apply Rmult_lt_0_compat; [apply kap_pos|apply Lam_pos]. Qed.
Lemma p_V i : (i < n)%nat -> Rabs (p i) <= V.
Proof.
  intros Hi. apply sq_le_abs; [left; apply V_pos|]. rewrite V_sq. pose proof (psd_cauchy n M (fun j => if Nat.eqb j i then 1 else 0) gv M_sym M_psd) as C.
  rewrite unit_quad, unit_dot in C by auto. fold p om in C. eapply Rle_trans; [exact C|]. apply Rmult_le_compat_r; [left; apply om_pos|].
  pose proof (M_b i i Hi Hi) as K. apply Rabs_le_inv in K. apply K.
Qed.
Lemma a_V : a <= V / 1000.
Proof.
  rewrite <- (Rabs_pos_eq a a0). apply sq_le_abs; [pose proof V_pos; lra|]. pose proof a_small as A. pose proof th_b as T. pose proof N_b as [N2 _].
  replace (V / 1000 * (V / 1000)) with (1 / 1000000 * (Lam * om)) by (rewrite <- V_sq; field).
  assert (A2 : a * a <= a * a * N). { rewrite <- (Rmult_1_r (a * a)) at 1. apply Rmult_le_compat_l; [apply Rle_0_sqr|lra]. }
  assert (T2 : 4 * th * (4 * th) <= 1 / 1000 * (1 / 1000)) by (apply Rmult_le_compat; lra).
  assert (L : lam * om <= Lam * om) by (apply Rmult_le_compat_r; [left; apply om_pos|apply lam_Lam]).
  assert (0 <= lam * om) by (apply Rmult_le_pos; [left; apply lam_pos|left; apply om_pos]).
  eapply Rle_trans; [exact A2|]. eapply Rle_trans; [exact A|]. apply Rle_trans with (1 / 1000 * (1 / 1000) * (lam * om)); [apply Rmult_le_compat_r; auto|].
  replace (1 / 1000 * (1 / 1000)) with (1 / 1000000) by field. apply Rmult_le_compat_l; lra.
Qed.
Lemma pf_V i : (i < n)%nat -> Rabs (val (pf i)) <= 1001 / 1000 * V.
Proof.
  intros Hi. pose proof (pf_close i Hi) as A. pose proof (p_V i Hi) as B. pose proof a_V. apply Rabs_le_inv in A. apply Rabs_le_inv in B. apply Rabs_le. lra.
Qed.
Lemma rel_up x0 X0 ex : 0 <= X0 -> 0 <= ex <= 1 -> rel ex x0 X0 -> Rabs x0 <= X0 * (1 + ex).
Proof. clear. intros H0 H [A B]. assert (0 <= X0 * (1 - ex)) by (apply Rmult_le_pos; lra). rewrite Rabs_pos_eq; lra. Qed.
Lemma rho_om : 0 <= rho te / om /\ rho te / om * V <= Y.
Proof.
  pose proof rh_le as [R0 R2]. pose proof om_pos as O. assert (0 < / om) by now apply Rinv_0_lt_compat. assert (D : 0 <= rho te / om) by (apply Rmult_le_pos; lra). split; [exact D|].
  assert (VD : 0 <= rho te / om * V) by (apply Rmult_le_pos; [exact D|left; apply V_pos]). rewrite <- (Rabs_pos_eq _ VD).
  apply sq_le_abs; [left; apply Y_pos|]. rewrite Y_sq. replace (rho te / om * V * (rho te / om * V)) with (rho te * rho te / (om * om) * (V * V)) by (field; lra). rewrite V_sq.
  replace (rho te * rho te / (om * om) * (Lam * om)) with (rho te * rho te * (Lam / om)) by (field; lra). replace (kap * Lam) with (kap * om * (Lam / om)) by (field; lra).
  apply Rmult_le_compat_r; [|exact R2]. apply Rmult_le_pos; [left; apply Lam_pos|lra].
Qed.
Lemma rt_pf i : (i < n)%nat -> Rabs (val rt * val (pf i)) <= 101 / 100 * Y.
Proof.
  intros Hi. rewrite Rabs_mult. pose proof rho_om as [R0 RY]. pose proof th_b as T. pose proof (rel_up _ _ (4 * th) R0 ltac:(lra) rt_rel) as A. pose proof (pf_V i Hi) as B. pose proof V_pos as V0. pose proof Y_pos as Y0.
  apply Rle_trans with (rho te / om * (1001 / 1000) * (1001 / 1000 * V)).
  - apply Rmult_le_compat; auto using Rabs_pos. eapply Rle_trans; [exact A|]. apply Rmult_le_compat_l; lra.
  - revert RY. generalize (rho te / om). intros w RY. replace (w * (1001 / 1000) * (1001 / 1000 * V)) with (1002001 / 1000000 * (w * V)) by field. lra.
Qed.
Lemma sg_om : 0 <= sigma te / om /\ sigma te / om * (V * V) <= 9 / 10 * Lam.
Proof.
  pose proof sg_le as [S0 S1]. pose proof om_pos as O. assert (0 < / om) by now apply Rinv_0_lt_compat. split; [apply Rmult_le_pos; lra|].
  rewrite V_sq. replace (sigma te / om * (Lam * om)) with (sigma te * Lam) by (field; lra). apply Rmult_le_compat_r; [left; apply Lam_pos|exact S1].
Qed.
Lemma st_pf i j : (i < n)%nat -> (j < n)%nat -> Rabs (val st * val (pf i)) * Rabs (val (pf j)) <= 91 / 100 * Lam.
Proof.
  intros Hi Hj. rewrite Rabs_mult. pose proof sg_om as [R0 RY]. pose proof th_b as T. pose proof (rel_up _ _ (4 * th) R0 ltac:(lra) st_rel) as A. pose proof (pf_V i Hi) as B. pose proof (pf_V j Hj) as C. pose proof V_pos as V0. pose proof Lam_pos as L0.
  apply Rle_trans with (sigma te / om * (1001 / 1000) * (1001 / 1000 * V) * (1001 / 1000 * V)).
  - apply Rmult_le_compat; auto using Rabs_pos, Rmult_le_pos. apply Rmult_le_compat; auto using Rabs_pos. eapply Rle_trans; [exact A|]. apply Rmult_le_compat_l; lra.
  - revert RY. generalize (sigma te / om). intros w RY. replace (w * (1001 / 1000) * (1001 / 1000 * V) * (1001 / 1000 * V)) with (1003003001 / 1000000000 * (w * (V * V))) by field. lra.
Qed.
Lemma st_b : Rabs (val st) <= bpow radix2 305.
Proof.
  pose proof th_b as T. assert (R : rng (-128) 103 (val sf)) by (apply (rel_rng (val sf) (sigma tau) (th / 2) (-127) 102); [lra|exact Rsf|apply sigma_b]).
  pose proof (rng_div _ _ _ _ _ _ R of_b) as D. destruct st_ok as [_ S]. assert (E : rng (-330) 305 (val st)) by (apply (rel_rng (val st) (val sf / val of) (th / 16) (-329) 304); [lra|exact S|exact D]).
  rewrite Rabs_pos_eq by (left; exact (rng_pos _ _ _ E)). apply E.
Qed.
Lemma Y_b : bpow radix2 (-100) <= Y <= bpow radix2 100.
Proof.
  apply (rng_sqrt (-100) 100 (kap * Lam)). apply (rng_mul (-100) 100 (-100) 100); [apply kap_b|apply Lam_b].
Qed.
Lemma ee_small z : bpow radix2 (-100) <= z -> ee <= uu * z / 1000.
Proof.
  clear. intros H. assert (bpow radix2 (-900) <= bpow radix2 (-100) * bpow radix2 (-20)) by (rewrite <- bpow_plus; apply b_le; lia).
  assert (ee <= uu * bpow radix2 (-900)) by (rewrite <- bpow_plus; apply b_le; lia). change (bpow radix2 (-20)) with (/ 1048576) in *. pose proof (bpow_gt_0 radix2 (-53)).
  assert (uu * bpow radix2 (-900) <= uu * (z / 1000)) by (apply Rmult_le_compat_l; [lra|]; pose proof (bpow_gt_0 radix2 (-100)); lra). lra.
Qed.
Let eta := uu * (X + 3 * Y).
Let xt i : f64 := fsub (vget (e_xc e) i) (fmul rt (pf i)).
Let cv := fcoords (e_xc e).
Lemma X_b : 0 <= X <= bpow radix2 100. Proof. apply (t_X _ _ _ _ _ He). Qed.
Lemma uu_s : 0 < uu <= 1 / 1000000.
Proof. clear. split; [apply bpow_gt_0|]. assert (H : bpow radix2 (-53) <= bpow radix2 (-20)) by (apply b_le; lia). change (bpow radix2 (-20)) with (/ 1048576) in H. lra. Qed.
Lemma b101 : bpow radix2 101 = 2 * bpow radix2 100. Proof. change 101%Z with (1 + 100)%Z at 1. rewrite bpow_plus. reflexivity. Qed.
Lemma b102 : bpow radix2 102 = 4 * bpow radix2 100. Proof. change 102%Z with (2 + 100)%Z at 1. rewrite bpow_plus. reflexivity. Qed.
Lemma w_ok i : (i < n)%nat -> fin (fmul rt (pf i)) = true /\ Rabs (val (fmul rt (pf i)) - val rt * val (pf i)) <= 102 / 100 * (uu * Y) /\ Rabs (val (fmul rt (pf i))) <= 102 / 100 * Y.
Proof.
  intros Hi. pose proof (rt_pf i Hi) as A. pose proof Y_b as [Y1 Y2]. pose proof Y_pos as Y0. pose proof (ee_small Y Y1) as E. pose proof uu_s as U.
  assert (S : Rabs (val rt * val (pf i)) <= bpow radix2 101). { eapply Rle_trans; [exact A|]. rewrite b101. lra. }
  destruct (fmul_fin rt (pf i)) as [Ev Ef]; [apply rt_ok|apply pf_fin; auto| |].
  { apply rnd_ok. eapply Rle_trans; [exact S|apply b_le; lia]. }
  split; [exact Ef|]. rewrite Ev. pose proof (rnd_err (val rt * val (pf i))) as R.
  assert (Q : uu * Rabs (val rt * val (pf i)) <= uu * (101 / 100 * Y)) by (apply Rmult_le_compat_l; [lra|exact A]).
  assert (UY : 0 < uu * Y) by (apply Rmult_lt_0_compat; lra). assert (UY2 : uu * Y <= 1 / 1000000 * Y) by (apply Rmult_le_compat_r; lra).
  assert (D : Rabs (rnd (val rt * val (pf i)) - val rt * val (pf i)) <= 102 / 100 * (uu * Y)) by lra. split; [exact D|].
  apply Rabs_le_inv in D. apply Rabs_le_inv in A. apply Rabs_le. clear - A D UY2 Y0 UY. clearbody Y. lra.
Qed.
Lemma xt_ok i : (i < n)%nat -> fin (xt i) = true /\ Rabs (val (xt i) - (cv i - val rt * val (pf i))) <= eta.
Proof.
  intros Hi. destruct (w_ok i Hi) as (Fw & D & B). destruct (t_X _ _ _ _ _ He) as [[X0 X1] XB]. specialize (XB i Hi). change (fcoords (e_xc e) i) with (cv i) in XB.
  pose proof Y_b as [Y1 Y2]. pose proof Y_pos as Y0. pose proof (ee_small Y Y1) as E. pose proof uu_s as U. assert (UY : 0 < uu * Y) by (apply Rmult_lt_0_compat; lra).
  assert (S : Rabs (cv i - val (fmul rt (pf i))) <= X + 102 / 100 * Y). { unfold Rminus. eapply Rle_trans; [apply Rabs_triang|]. rewrite Rabs_Ropp. lra. }
  destruct (fsub_fin (vget (e_xc e) i : f64) (fmul rt (pf i))) as [Ev Ef]; [apply xc_fin; auto|exact Fw| |].
  { apply rnd_ok. change (val (vget (e_xc e) i : f64)) with (cv i). eapply Rle_trans; [exact S|]. apply Rle_trans with (bpow radix2 102); [|apply b_le; lia]. rewrite b102. lra. }
  split; [exact Ef|]. unfold xt. rewrite Ev. change (val (vget (e_xc e) i : f64)) with (cv i).
  pose proof (rnd_err (cv i - val (fmul rt (pf i)))) as R. assert (Q : uu * Rabs (cv i - val (fmul rt (pf i))) <= uu * (X + 102 / 100 * Y)) by (apply Rmult_le_compat_l; [lra|exact S]).
  apply Rabs_le_inv in D. apply Rabs_le. set (z := rnd (cv i - val (fmul rt (pf i)))) in *. assert (K : Rabs (z - (cv i - val (fmul rt (pf i)))) <= uu * X + 103 / 100 * (uu * Y)) by lra.
  apply Rabs_le_inv in K. unfold eta. clear - D K UY. clearbody z Y. lra.
Qed.
Let ze := ze0 + 4 * th.
Lemma ze_b : 0 <= ze <= 1 / 100. Proof. pose proof ze0_b. pose proof th_b. unfold ze. lra. Qed.
Lemma eta0 : 0 <= eta.
Proof. pose proof X_b. pose proof Y_pos. unfold eta. apply Rmult_le_pos; [apply bpow_ge_0|]. apply Rplus_le_le_0_compat; [|apply Rmult_le_pos]; lra. Qed.
Lemma eta_small : eta * eta * N <= ze * ze * (lam * kap).
Proof.
  pose proof lam_pos as L. pose proof kap_pos as K. pose proof N_b as [N2 _]. set (S := sqrt (lam * kap)). set (T := sqrt N).
  assert (LK : 0 < lam * kap) by now apply Rmult_lt_0_compat. assert (S2 : S * S = lam * kap) by (apply sqrt_sqrt; lra). assert (S0 : 0 < S) by now apply sqrt_lt_R0.
  assert (T2 : T * T = N) by (apply sqrt_sqrt; lra). assert (T0 : 0 < T) by (apply sqrt_lt_R0; lra). pose proof eta0 as E0. pose proof ze_b as Z.
  assert (Main : eta * T <= ze * S).
  { unfold eta, ze. assert (A1 : ze0 * S = uu * X * T). { unfold ze0. rewrite sqrt_div_alt by exact LK. fold S T. field. lra. }
    assert (YS : Y <= Lam / lam * S).
    { pose proof K1 as K1'. assert (P0 : 0 <= Lam / lam * S) by (apply Rmult_le_pos; lra). rewrite <- (Rabs_pos_eq Y) by (left; apply Y_pos). apply sq_le_abs; [exact P0|]. rewrite Y_sq.
      replace (Lam / lam * S * (Lam / lam * S)) with (Lam / lam * (Lam / lam) * (S * S)) by ring. rewrite S2. replace (kap * Lam) with (Lam / lam * 1 * (lam * kap)) by (field; lra).
      apply Rmult_le_compat_r; [lra|]. apply Rmult_le_compat_l; lra. }
    assert (TN : T <= N). { rewrite <- T2. rewrite <- (Rmult_1_r T) at 1. apply Rmult_le_compat_l; [lra|]. unfold T. rewrite <- sqrt_1. apply sqrt_le_1; lra. }
    assert (A2 : Y * T <= N * (Lam / lam * S)). { rewrite (Rmult_comm N). apply Rmult_le_compat; [left; apply Y_pos|lra|exact YS|exact TN]. }
    assert (A3 : N * (Lam / lam * S) <= N * N * (Lam / lam * S)). { apply Rmult_le_compat_r; [apply Rmult_le_pos; [pose proof K1; lra|lra]|]. rewrite <- (Rmult_1_r N) at 1. apply Rmult_le_compat_l; lra. }
    assert (A4 : uu * (Y * T) <= uu * (N * N * (Lam / lam * S))) by (apply Rmult_le_compat_l; [apply bpow_ge_0|lra]).
    assert (A5 : 0 <= uu * (N * N * (Lam / lam * S))). { apply Rmult_le_pos; [apply bpow_ge_0|]. apply Rmult_le_pos; [apply Rle_0_sqr|]. apply Rmult_le_pos; [pose proof K1; lra|lra]. }
    replace (uu * (X + 3 * Y) * T) with (uu * X * T + 3 * (uu * (Y * T))) by ring. rewrite Rmult_plus_distr_r, A1. unfold th. replace (4 * (8 * (N * N) * uu * (Lam / lam)) * S) with (32 * (uu * (N * N * (Lam / lam * S)))) by ring. lra. }
  rewrite <- T2, <- S2. replace (eta * eta * (T * T)) with (eta * T * (eta * T)) by ring. replace (ze * ze * (S * S)) with (ze * S * (ze * S)) by ring.
  assert (0 <= eta * T) by (apply Rmult_le_pos; lra). apply Rmult_le_compat; auto.
Qed.
(** the shape matrix *)
Let bm := 5 * uu * Lam.
Lemma bm_small : 0 <= bm /\ N * bm <= 4 * th * lam.
Proof.
  pose proof uu_s as U. pose proof Lam_pos as L. pose proof N_b as [N2 _]. pose proof lam_pos as l0. unfold bm, th. split; [apply Rmult_le_pos; lra|].
  replace (4 * (8 * (N * N) * uu * (Lam / lam)) * lam) with (32 * N * (N * (uu * Lam))) by (field; lra). replace (N * (5 * uu * Lam)) with (5 * (N * (uu * Lam))) by ring.
  apply Rmult_le_compat_r; [|lra]. apply Rmult_le_pos; [lra|]. apply Rmult_le_pos; lra.
Qed.
Lemma entry_ok i j : (i < n)%nat -> (j < n)%nat ->
  let v : f64 := fsub (mget n (adata (e_mq e)) i j) (fmul (fmul st (pf i)) (pf j)) in
  fin v = true /\ Rabs (val v - (M i j - val st * val (pf i) * val (pf j))) <= bm.
Proof.
  intros Hi Hj v. pose proof (st_pf i j Hi Hj) as A. pose proof uu_s as U. pose proof Lam_pos as L. pose proof Lam_b as [L1 L2]. pose proof (ee_small Lam L1) as E. assert (UL : 0 < uu * Lam) by (apply Rmult_lt_0_compat; lra). assert (UL2 : uu * Lam <= 1 / 1000000 * Lam) by (apply Rmult_le_compat_r; lra).
  pose proof (pf_b2 i Hi) as Pi. pose proof (pf_b2 j Hj) as Pj. pose proof (mul_size _ _ _ _ st_b Pi) as S1.
  destruct (fmul_fin st (pf i)) as [E1 F1]; [apply st_ok|apply pf_fin; auto|apply rnd_ok; eapply Rle_trans; [exact S1|apply b_le; lia]|].
  set (q := fmul st (pf i)) in *. set (x1 := val st * val (pf i)) in *. set (y := val (pf j)) in *.
  pose proof (rnd_err x1) as R1. rewrite <- E1 in R1.
  assert (EP : ee * Rabs y <= uu * Lam / 1000).
  { apply Rle_trans with (ee * bpow radix2 327); [apply Rmult_le_compat_l; [apply bpow_ge_0|exact Pj]|]. rewrite <- bpow_plus. assert (bpow radix2 (-1075 + 327) <= uu * bpow radix2 (-200)) by (rewrite <- bpow_plus; apply b_le; lia).
    assert (bpow radix2 (-200) <= bpow radix2 (-100) * bpow radix2 (-20)) by (rewrite <- bpow_plus; apply b_le; lia). change (bpow radix2 (-20)) with (/ 1048576) in *.
    assert (uu * bpow radix2 (-200) <= uu * (Lam / 1000)) by (apply Rmult_le_compat_l; [lra|]; pose proof (bpow_gt_0 radix2 (-100)); lra). lra. }
  assert (D1 : Rabs ((val q - x1) * y) <= 92 / 100 * (uu * Lam)).
  { rewrite Rabs_mult. apply Rle_trans with ((uu * Rabs x1 + ee) * Rabs y); [apply Rmult_le_compat_r; [apply Rabs_pos|exact R1]|].
    replace ((uu * Rabs x1 + ee) * Rabs y) with (uu * (Rabs x1 * Rabs y) + ee * Rabs y) by ring. assert (uu * (Rabs x1 * Rabs y) <= uu * (91 / 100 * Lam)) by (apply Rmult_le_compat_l; [lra|exact A]). lra. }
  rewrite <- Rabs_mult in A. assert (S2 : Rabs (val q * y) <= 92 / 100 * Lam).
  { replace (val q * y) with (x1 * y + (val q - x1) * y) by ring. eapply Rle_trans; [apply Rabs_triang|]. lra. }
  destruct (fmul_fin q (pf j)) as [E2 F2]; [exact F1|apply pf_fin; auto|apply rnd_ok; fold y; eapply Rle_trans; [exact S2|]; apply Rle_trans with (bpow radix2 100); [lra|apply b_le; lia]|].
  fold y in E2. set (r := fmul q (pf j)) in *. pose proof (rnd_err (val q * y)) as R2. rewrite <- E2 in R2.
  assert (Q2 : uu * Rabs (val q * y) <= uu * (92 / 100 * Lam)) by (apply Rmult_le_compat_l; [lra|exact S2]).
  assert (D2 : Rabs (val r - x1 * y) <= 185 / 100 * (uu * Lam)). { replace (val r - x1 * y) with ((val r - val q * y) + (val q - x1) * y) by ring. eapply Rle_trans; [apply Rabs_triang|]. lra. }
  assert (S3 : Rabs (val r) <= 93 / 100 * Lam). { replace (val r) with (x1 * y + (val r - x1 * y)) by ring. eapply Rle_trans; [apply Rabs_triang|]. lra. }
  pose proof (M_b i j Hi Hj) as MB. assert (S4 : Rabs (M i j - val r) <= 193 / 100 * Lam). { unfold Rminus. eapply Rle_trans; [apply Rabs_triang|]. rewrite Rabs_Ropp. lra. }
  destruct (fsub_fin (mget n (adata (e_mq e)) i j : f64) r) as [E3 F3]; [apply mq_fin; auto|exact F2| |].
  { apply rnd_ok. change (val (mget n (adata (e_mq e)) i j : f64)) with (M i j). eapply Rle_trans; [exact S4|]. apply Rle_trans with (bpow radix2 101); [|apply b_le; lia]. rewrite b101. lra. }
  split; [exact F3|]. unfold v. rewrite E3. change (val (mget n (adata (e_mq e)) i j : f64)) with (M i j). pose proof (rnd_err (M i j - val r)) as R3.
  assert (Q3 : uu * Rabs (M i j - val r) <= uu * (193 / 100 * Lam)) by (apply Rmult_le_compat_l; [lra|exact S4]).
  replace (rnd (M i j - val r) - (M i j - x1 * y)) with ((rnd (M i j - val r) - (M i j - val r)) - (val r - x1 * y)) by ring.
  unfold Rminus at 1. eapply Rle_trans; [apply Rabs_triang|]. rewrite Rabs_Ropp. unfold bm. lra.
Qed.

(** the state after the step *)
Variable e' : Ell F.
Hypothesis We : ell_wf n e'.
Hypothesis Ex : forall i, (i < n)%nat -> vget (e_xc e') i = xt i.
Hypothesis Ek : e_kappa e' = kt.
Hypothesis Em : forall i j, (i < n)%nat -> (j < n)%nat -> mget n (adata (e_mq e')) i j = shrunk (N := F) (mget n (adata (e_mq e))) st (gt e g n) i j.
Let Mt := fshape n e'.
Lemma Mt_ok i j : (i < n)%nat -> (j < n)%nat -> fin (mget n (adata (e_mq e')) i j : f64) = true /\ Rabs (Mt i j - (M i j - val st * val (pf i) * val (pf j))) <= bm.
Proof.
  intros Hi Hj. change (Mt i j) with (val (mget n (adata (e_mq e')) i j : f64)). rewrite (Em i j Hi Hj). unfold shrunk. destruct (j <=? i).
  - exact (entry_ok i j Hi Hj).
  - rewrite (M_sym i j Hi Hj). replace (val st * val (pf i) * val (pf j)) with (val st * val (pf j) * val (pf i)) by ring. exact (entry_ok j i Hj Hi).
Qed.
Lemma Mt_sym : sym n Mt.
Proof.
  intros i j Hi Hj. change (val (mget n (adata (e_mq e')) i j : f64) = val (mget n (adata (e_mq e')) j i : f64)). rewrite (Em i j Hi Hj), (Em j i Hj Hi). unfold shrunk.
  destruct (Nat.leb_spec j i), (Nat.leb_spec i j); auto; [|lia]. replace j with i by lia. reflexivity.
Qed.
Lemma nu_b : 0 <= 4 * th <= 1 / 1000. Proof. pose proof th_b. lra. Qed.
Lemma rel_abs' x0 X0 ex : rel ex x0 X0 -> Rabs (x0 - X0) <= ex * X0.
Proof. clear. intros [A B]. apply Rabs_le. lra. Qed.
Lemma new_low z : lam / 11 * dot n z z <= quad n Mt z.
Proof.
  pose proof (mt_low n M gv (sigma te) lam (4 * th) (fun i => val (pf i)) Mt a bm (val st) M_sym lam_pos M_lam om_pos sg_le nu_b a0 (fun i Hi => pf_close i Hi) a_small (rel_abs' _ _ _ st_rel) (proj1 bm_small) (fun i j Hi Hj => proj2 (Mt_ok i j Hi Hj)) (proj2 bm_small) z) as A.
  pose proof (m1_low n M gv (sigma te) lam M_sym lam_pos M_lam om_pos sg_le z) as B.
  pose proof (M_lam z) as L. pose proof nu_b as U. change (mulmv n M gv) with p in A, B. change (quad n M gv) with om in A, B. set (q1 := quad n (rank1 M (sigma te / om) p) z) in *.
  assert (D0 : 0 <= lam * dot n z z). { apply Rmult_le_pos; [left; apply lam_pos|]. unfold dot. apply Rsum_nonneg. intros; apply Rle_0_sqr. }
  assert (95 / 100 * q1 <= (1 - 50 * (4 * th)) * q1) by (apply Rmult_le_compat_r; lra). lra.
Qed.
Lemma new_fin : all_finite (e_mq e') /\ all_finite (e_xc e') /\ fin (e_kappa e' : f64) = true.
Proof.
  destruct We as (_ & (L & _) & Lx). repeat split; [| |rewrite Ek; apply kt_ok].
  - apply Forall_forall. intros v Hv. destruct (In_nth _ _ (n0 (N := F)) Hv) as (k & Hk & <-). rewrite L in Hk. pose proof npos as N0.
    replace k with (k / n * n + k mod n)%nat by (rewrite (Nat.div_mod k n) at 3 by lia; lia). apply (Mt_ok (k / n) (k mod n)); [apply Nat.div_lt_upper_bound; lia|apply Nat.mod_upper_bound; lia].
  - apply Forall_forall. intros v Hv. destruct (In_nth _ _ (n0 (N := F)) Hv) as (k & Hk & <-). rewrite Lx in Hk. change (fin (vget (e_xc e') k : f64) = true). rewrite (Ex k Hk). apply xt_ok; auto.
Qed.
Lemma te_beta : beta < te.
Proof.
  pose proof (StepRel.beta_le kap om (val of) (val tt) beta th kap_pos om_pos th_b of_close tt_rel Hbt) as A. fold te in A.
  assert (0 < te) by (apply sqrt_lt_R0; apply Rmult_lt_0_compat; [apply kap_pos|apply om_pos]). lra.
Qed.
Lemma new_holds eps z : 0 <= eps -> fpts n e (1 + eps) z -> along n gv z cv + beta <= 0 ->
  let al := beta / te in
  fpts n e' ((1 + eps * ((N + 1) / N / (1 - al) * ((N + 1) / N / (1 - al)))) * (1 + slack n lam Lam X kap)) z.
Proof.
  intros Heps Hz Hcut al. set (w := (N + 1) / N / (1 - al) * ((N + 1) / N / (1 - al))). pose proof om_pos as O. pose proof kap_pos as K. assert (KO : 0 < kap * om) by now apply Rmult_lt_0_compat. pose proof N2' as N2.
  assert (W0 : 0 <= w) by apply Rle_0_sqr. set (G1 := 1 + eps * w). assert (G0 : 1 <= G1). { unfold G1. assert (0 <= eps * w) by now apply Rmult_le_pos. lra. }
  pose proof (width_bound n M (kap * (1 + eps)) cv gv M_sym M_psd z Hz) as Wd. fold om in Wd.
  pose proof (deep3_grow N (kap * om) beta (along n gv z cv) eps ltac:(lra) KO Hb te_beta Heps) as DG. rewrite Rmult_assoc, (Rmult_comm (1 + eps)), <- Rmult_assoc in Wd. specialize (DG Wd Hcut).
  unfold deep3 in DG. fold te in DG. fold (rho te) in DG. fold (sigma te) in DG. fold C1 al in DG. fold w in DG. fold G1 in DG.
  set (delta := C1 * (1 - al * al)) in *.
  pose proof (cut_contains n M (kap * (1 + eps)) cv gv M_sym (rho te) (sigma te) (delta * G1 / (1 + eps)) z O Hz) as CC. fold om p in CC.
  replace (kap * (1 + eps) * om) with (kap * om * (1 + eps)) in CC by ring. specialize (CC DG).
  replace (kap * (1 + eps) * (delta * G1 / (1 + eps))) with (kap * (delta * G1)) in CC by (field; lra).
  pose proof de_low as DL. fold al in DL. fold delta in DL.
  assert (D1 : 1 / 2 <= delta * G1). { apply Rle_trans with (delta * 1); [lra|]. apply Rmult_le_compat_l; lra. }
  assert (KT : kap * (delta * G1) * (1 - 4 * th) <= val kt * G1). { pose proof kt_rel as R. fold al in R. fold delta in R. replace (kap * (delta * G1) * (1 - 4 * th)) with (kap * delta * (1 - 4 * th) * G1) by ring. apply Rmult_le_compat_r; lra. }
  pose proof (step_holds n M gv cv kap (rho te) (sigma te) (delta * G1) lam (4 * th) ze (fun i => val (pf i)) (fun i => val (xt i)) Mt a bm eta (val rt) (val st) (val kt * G1)
    M_sym lam_pos M_lam O K (proj1 rh_le) (proj2 rh_le) sg_le D1 nu_b ze_b a0 (fun i Hi => pf_close i Hi) a_small (rel_abs' _ _ _ rt_rel) (rel_abs' _ _ _ st_rel)
    eta0 (fun i Hi => proj2 (xt_ok i Hi)) eta_small (proj1 bm_small) (fun i j Hi Hj => proj2 (Mt_ok i j Hi Hj)) (proj2 bm_small) Mt_sym KT z CC) as (y & Y1 & Y2).
  exists y. split.
  - intros i Hi. specialize (Y1 i Hi). cbv beta in Y1. change (fshape n e') with Mt. rewrite <- Y1. change (fcoords (e_xc e') i) with (val (vget (e_xc e') i : f64)). rewrite (Ex i Hi). reflexivity.
  - eapply Rle_trans; [exact Y2|]. right. unfold fkap. rewrite Ek. change (B2R kt) with (val kt). rewrite sl_eq. unfold ze. ring.
Qed.

(** the volume *)
Lemma Mt_pd : pd n Mt.
Proof.
  intros z (i & Hi & Hz). eapply Rlt_le_trans; [|apply new_low]. apply Rmult_lt_0_compat; [pose proof lam_pos; lra|].
  destruct (Rle_lt_or_eq_dec 0 (dot n z z) (dot_self_nonneg _ _)) as [|E]; auto. exfalso. apply Hz. eapply dot_self_zero; eauto.
Qed.
Lemma M_pd : pd n M.
Proof.
  intros z (i & Hi & Hz). eapply Rlt_le_trans; [|apply M_lam]. apply Rmult_lt_0_compat; [apply lam_pos|].
  destruct (Rle_lt_or_eq_dec 0 (dot n z z) (dot_self_nonneg _ _)) as [|E]; auto. exfalso. apply Hz. eapply dot_self_zero; eauto.
Qed.
Lemma kt_up : 0 < val kt <= kap * (C1 * (1 - beta / te * (beta / te))) * (1 + 4 * th).
Proof.
  split; [|exact (kt_high N kap om (val of) (val tt) beta (val df) (val kt) th N2' kap_pos om_pos th_b of_close tt_rel Hb Hbt Rdf (proj2 kt_ok))].
  eapply Rlt_le_trans; [|apply kt_rel]. pose proof th_b. pose proof de_low. apply Rmult_lt_0_compat; [apply Rmult_lt_0_compat; [apply kap_pos|lra]|lra].
Qed.
Lemma new_vol : step_shrinks n e lam Lam X e'.
Proof.
  unfold step_shrinks, fvol2. unfold fkap at 1 2. rewrite Ek. change (B2R kt) with (val kt). change (fshape n e') with Mt. change (fshape n e) with M. change (fkap e) with kap.
  pose proof kt_up as [K0 K1']. pose proof (det_pos n Mt Mt_sym Mt_pd) as DT. pose proof (det_pos n M M_sym M_pd) as DM. pose proof kap_pos as KP. pose proof de_low as DL. pose proof th_b as T. pose proof om_pos as O. pose proof sg_le as SG.
  set (delta := C1 * (1 - beta / te * (beta / te))) in *. set (M1 := rank1 M (sigma te / om) p). set (cc := 1 + 50 * (4 * th)).
  split; [apply Rmult_lt_0_compat; [now apply pow_lt|exact DT]|].
  assert (SC : sigma te / om * om = sigma te) by (field; lra).
  assert (D1 : det n M1 = (1 - sigma te) * det n M). { unfold M1. pose proof (det_rank1 n M gv (sigma te / om) M_sym M_pd) as DR. change (mulmv n M gv) with p in DR. change (quad n M gv) with om in DR. rewrite SC in DR. apply DR. lra. }
  assert (S1 : sym n (fun i j => M1 i j * cc)). { intros i j Hi Hj. f_equal. unfold M1, rank1. rewrite (M_sym i j Hi Hj). ring. }
  assert (D2 : det n Mt <= cc ^ n * det n M1).
  { rewrite <- det_scale. apply det_mono; [exact Mt_sym|exact S1|exact Mt_pd|]. intros z. rewrite quad_scale.
    exact (mt_up n M gv (sigma te) lam (4 * th) (fun i => val (pf i)) Mt a bm (val st) M_sym lam_pos M_lam O sg_le nu_b a0 (fun i Hi => pf_close i Hi) a_small (rel_abs' _ _ _ st_rel) (proj1 bm_small) (fun i j Hi Hj => proj2 (Mt_ok i j Hi Hj)) (proj2 bm_small) z). }
  assert (CC : 0 < cc) by (unfold cc; lra).
  assert (KD : (val kt) ^ n <= (kap * delta * (1 + 4 * th)) ^ n) by (apply pow_incr; lra).
  assert (KO : 0 < kap * om) by now apply Rmult_lt_0_compat. pose proof (sqrt_lt_R0 _ KO) as TE. pose proof te_beta as TB. fold te in TE.
  assert (NB : 0 <= N * beta) by (apply Rmult_le_pos; [pose proof N2'; lra|exact Hb]).
  assert (DV : delta ^ n * (1 - sigma te) <= exp (- / (N + 1))).
  { apply (deep_vol_exp n te beta); auto; try lra. apply (t_dim _ _ _ _ _ He). }
  assert (SL : cc * (1 + 4 * th) <= 1 + slack n lam Lam X kap). { rewrite sl_eq. unfold cc. pose proof ze0_pos. nra. }
  apply Rle_trans with ((kap * delta * (1 + 4 * th)) ^ n * (cc ^ n * det n M1)).
  { apply Rmult_le_compat; [apply pow_le; lra|lra|exact KD|exact D2]. }
  rewrite D1. rewrite !Rpow_mult_distr. replace (kap ^ n * delta ^ n * (1 + 4 * th) ^ n * (cc ^ n * ((1 - sigma te) * det n M))) with ((cc ^ n * (1 + 4 * th) ^ n) * (delta ^ n * (1 - sigma te)) * (kap ^ n * det n M)) by ring.
  assert (V0 : 0 < kap ^ n * det n M) by (apply Rmult_lt_0_compat; [now apply pow_lt|exact DM]).
  apply Rmult_le_compat_r; [lra|]. rewrite <- Rpow_mult_distr. apply Rmult_le_compat; [apply pow_le; apply Rmult_le_pos; lra| | |exact DV].
  - apply Rmult_le_pos; [apply pow_le|]; lra.
  - apply pow_incr. split; [apply Rmult_le_pos; lra|exact SL].
Qed.
End Step.
