(** One ellipsoid step with perturbed numbers: the perturbed ellipsoid, slightly
    inflated, still holds the exact one (C101). *)
From Coq Require Import Reals Lra Lia Psatz Arith.
From Flocq Require Import Core.Raux.
From Verif Require Import Spec RealLin PowerMore TraceDet FloatErr.
Open Scope R_scope.

Lemma norm1_sq n (h : vec) : Rsum n (fun i => Rabs (h i)) * Rsum n (fun i => Rabs (h i)) <= INR n * dot n h h.
Proof.
  pose proof (cauchy n (fun _ => 1) (fun i => Rabs (h i))) as C. unfold dot in *.
  rewrite (Rsum_ext n (fun i => 1 * Rabs (h i)) (fun i => Rabs (h i))) in C by (intros; ring).
  rewrite (Rsum_ext n (fun i => Rabs (h i) * Rabs (h i)) (fun i => h i * h i)) in C by (intros; rewrite <- Rabs_mult, Rabs_pos_eq; [reflexivity|apply Rle_0_sqr]).
  replace (Rsum n (fun _ => 1 * 1)) with (INR n) in C; auto.
  clear. induction n; [reflexivity|]. rewrite S_INR. cbn [Rsum]. rewrite IHn. ring.
Qed.
Lemma sq_le_abs x y : 0 <= y -> x * x <= y * y -> Rabs x <= y.
Proof. intros Hy H. rewrite <- (Rabs_pos_eq y Hy). apply Rsqr_le_abs_0. exact H. Qed.
Lemma dot_dev n h d a : 0 <= a -> (forall i, (i < n)%nat -> Rabs (d i) <= a) -> dot n h d * dot n h d <= a * a * (INR n * dot n h h).
Proof.
  intros Ha H. set (S := Rsum n (fun i => Rabs (h i))). assert (K : Rabs (dot n h d) <= a * S).
  { unfold dot, S. eapply Rle_trans; [apply Rabs_Rsum|]. rewrite <- Rsum_scal. apply Rsum_le. intros i Hi. rewrite Rabs_mult, Rmult_comm. apply Rmult_le_compat_r; [apply Rabs_pos|auto]. }
  assert (S0 : 0 <= S) by (apply Rsum_nonneg; intros; apply Rabs_pos).
  replace (dot n h d * dot n h d) with (Rabs (dot n h d) * Rabs (dot n h d)) by (rewrite <- Rabs_mult; apply Rabs_pos_eq; apply Rle_0_sqr).
  apply Rle_trans with (a * S * (a * S)); [apply Rmult_le_compat; auto using Rabs_pos|].
  replace (a * S * (a * S)) with (a * a * (S * S)) by ring. apply Rmult_le_compat_l; [nra|apply norm1_sq].
Qed.
Lemma quad_dev n (R : mtx) h b : 0 <= b -> (forall i j, (i < n)%nat -> (j < n)%nat -> Rabs (R i j) <= b) -> Rabs (quad n R h) <= b * (INR n * dot n h h).
Proof.
  intros Hb H. set (S := Rsum n (fun i => Rabs (h i))). assert (S0 : 0 <= S) by (apply Rsum_nonneg; intros; apply Rabs_pos).
  apply Rle_trans with (b * (S * S)); [|apply Rmult_le_compat_l; [auto|apply norm1_sq]].
  unfold quad, dot. eapply Rle_trans; [apply Rabs_Rsum|]. replace (b * (S * S)) with (b * S * S) by ring. unfold S at 2. rewrite <- Rsum_scal.
  apply Rsum_le. intros i Hi. rewrite Rabs_mult, Rmult_comm. apply Rmult_le_compat_r; [apply Rabs_pos|].
  unfold mulmv. eapply Rle_trans; [apply Rabs_Rsum|]. unfold S. rewrite <- Rsum_scal. apply Rsum_le. intros j Hj. rewrite Rabs_mult. apply Rmult_le_compat_r; [apply Rabs_pos|auto].
Qed.

(** [gm] says how flat the new ellipsoid may become: sigma is at most 1 - 1 / (10 gm). *)
Section Step.
Variables (n : nat) (M : mtx) (g c : vec) (kappa rho sigma delta lam nu zeta gm : R).
Let p := mulmv n M g.
Let om := quad n M g.
Let M1 := rank1 M (sigma / om) p.
Let c1 : vec := fun i => c i - rho / om * p i.
Variables (pt xt : vec) (Mt : mtx) (a b eta rt st kt : R).
Hypotheses (HS : sym n M) (Hlam : 0 < lam) (Hmin : forall z, lam * dot n z z <= quad n M z) (Hom : 0 < om).
Hypotheses (Hk : 0 < kappa) (Hr : 0 <= rho) (Hrk : rho * rho <= kappa * om) (Hgm : 1 <= gm) (Hsg : 0 <= sigma <= 1 - / (10 * gm)) (Hd : 1 / 2 <= delta).
Hypotheses (Hnu0 : 0 <= nu) (Hnu1 : gm * nu <= 1 / 1000) (Hze0 : 0 <= zeta) (Hze1 : gm * zeta <= 1 / 100).
Let nv := gm * nu.
Let zv := gm * zeta.
Hypotheses (Ha : 0 <= a) (Hpa : forall i, (i < n)%nat -> Rabs (pt i - p i) <= a) (Han : a * a * INR n <= nu * nu * (lam * om)).
Hypotheses (Hrt : Rabs (rt - rho / om) <= nu * (rho / om)) (Hst : Rabs (st - sigma / om) <= nu * (sigma / om)).
Hypotheses (He : 0 <= eta) (Hxt : forall i, (i < n)%nat -> Rabs (xt i - (c i - rt * pt i)) <= eta) (Hen : eta * eta * INR n <= zeta * zeta * (lam * kappa)).
Hypotheses (Hb : 0 <= b) (Hmt : forall i j, (i < n)%nat -> (j < n)%nat -> Rabs (Mt i j - (M i j - st * pt i * pt j)) <= b) (Hbn : INR n * b <= nu * lam).
Hypotheses (HSt : sym n Mt) (Hkt : kappa * delta * (1 - nu) <= kt).

Lemma nu_s : 0 <= nu <= 1 / 1000. Proof. split; [exact Hnu0|]. assert (1 * nu <= gm * nu) by (apply Rmult_le_compat_r; lra). lra. Qed.
Lemma ze_s : 0 <= zeta <= 1 / 100. Proof. split; [exact Hze0|]. assert (1 * zeta <= gm * zeta) by (apply Rmult_le_compat_r; lra). lra. Qed.
Lemma flat_b : 0 < / (10 * gm) <= 1 / 10.
Proof. split; [apply Rinv_0_lt_compat; lra|]. replace (1 / 10) with (/ 10) by field. apply Rinv_le_contravar; lra. Qed.
Lemma sg_s : 0 <= sigma <= 1. Proof. pose proof flat_b. lra. Qed.
Lemma step_pd : pd n M.
Proof.
  intros z (i & Hi & Hz). pose proof (Hmin z) as K. assert (0 < dot n z z); [|nra]. destruct (Rle_lt_or_eq_dec _ _ (dot_self_nonneg n z)) as [|E]; auto.
  exfalso. apply Hz. apply (dot_self_zero n z); auto.
Qed.
Lemma hp_bound h : dot n h p * dot n h p <= om * quad n M h.
Proof. pose proof (psd_cauchy n M h g HS (pd_psd _ _ step_pd)) as K. fold p om in K. lra. Qed.
Lemma q_nonneg h : 0 <= quad n M h. Proof. apply (pd_psd _ _ step_pd). Qed.
Lemma hd_bound h : (dot n h pt - dot n h p) * (dot n h pt - dot n h p) <= nu * nu * (om * quad n M h).
Proof.
  rewrite <- dot_minus_r. pose proof (dot_dev n h (fun i => pt i - p i) a Ha Hpa) as K. pose proof (Hmin h) as L. pose proof (dot_self_nonneg n h) as D.
  eapply Rle_trans; [exact K|]. apply Rle_trans with (nu * nu * om * (lam * dot n h h)); [|apply Rle_trans with (nu * nu * om * quad n M h); [apply Rmult_le_compat_l; [nra|exact L]|lra]].
  replace (a * a * (INR n * dot n h h)) with (a * a * INR n * dot n h h) by ring. replace (nu * nu * om * (lam * dot n h h)) with (nu * nu * (lam * om) * dot n h h) by ring.
  apply Rmult_le_compat_r; auto.
Qed.
Lemma mt_dev h : Rabs (quad n Mt h - quad n M1 h) <= 5 * nu * quad n M h.
Proof.
  pose proof nu_s as Hnu. pose proof sg_s as Hsg1.
  set (q := quad n M h). assert (Q0 : 0 <= q) by apply q_nonneg.
  assert (E : quad n Mt h = q - st * dot n h pt * dot n h pt + quad n (fun i j => Mt i j - (M i j - st * pt i * pt j)) h).
  { pose proof (rank1_quad n M st pt h) as K. rewrite (dot_comm n pt h) in K. fold q in K. rewrite <- K. unfold quad. rewrite <- dot_plus_r. apply dot_ext; auto. intros i Hi.
    unfold mulmv. rewrite <- Rsum_plus. apply Rsum_ext. intros j Hj. unfold rank1. ring. }
  assert (E1 : quad n M1 h = q - sigma / om * dot n h p * dot n h p) by (unfold M1; rewrite rank1_quad, (dot_comm n p h); reflexivity).
  set (X := dot n h p) in *. set (Y := dot n h pt) in *. pose proof (hp_bound h) as B1. pose proof (hd_bound h) as B2. fold X in B1. fold X Y q in B2. fold q in B1.
  assert (BR : Rabs (quad n (fun i j => Mt i j - (M i j - st * pt i * pt j)) h) <= nu * q).
  { eapply Rle_trans; [apply (quad_dev n _ h b Hb); intros; apply Hmt; auto|]. pose proof (Hmin h) as L. fold q in L. pose proof (dot_self_nonneg n h) as D.
    replace (b * (INR n * dot n h h)) with (INR n * b * dot n h h) by ring. apply Rle_trans with (nu * lam * dot n h h); [apply Rmult_le_compat_r; auto|]. rewrite Rmult_assoc. apply Rmult_le_compat_l; lra. }
  set (Z := quad n (fun i j => Mt i j - (M i j - st * pt i * pt j)) h) in *. rewrite E, E1.
  (* the two squares, divided by om *)
  set (r := sqrt (om * q)). assert (R0 : 0 <= r) by apply sqrt_pos. assert (Rr : r * r = om * q) by (apply sqrt_sqrt; nra).
  assert (X1 : Rabs X <= r) by (apply sq_le_abs; auto; lra).
  assert (Y1 : Rabs (Y - X) <= nu * r). { apply sq_le_abs; [nra|]. replace (nu * r * (nu * r)) with (nu * nu * (r * r)) by ring. rewrite Rr. exact B2. }
  assert (P0 : 0 < / om) by now apply Rinv_0_lt_compat. set (s := sigma / om) in *. assert (s0 : 0 <= s) by (unfold s, Rdiv; apply Rmult_le_pos; lra).
  assert (so : s * (om * q) <= q). { unfold s. replace (sigma / om * (om * q)) with (sigma * q) by (field; lra). nra. }
  apply Rabs_le_inv in Hst, X1, Y1, BR. rewrite <- Rr in so.
  assert (D2 : Rabs (Y * Y - X * X) <= (201 / 100) * nu * (r * r)).
  { apply Rabs_le. assert (exists w, Y = X + w /\ - (nu * r) <= w <= nu * r) as (w & -> & W) by (exists (Y - X); split; [ring|lra]).
    replace ((X + w) * (X + w) - X * X) with (w * (2 * X + w)) by ring. clear -X1 W Hnu R0. assert (Rabs (w * (2 * X + w)) <= nu * r * (201 / 100 * r)); [|apply Rabs_le_inv in H; split; nra].
    rewrite Rabs_mult. apply Rmult_le_compat; try apply Rabs_pos; apply Rabs_le; [lra|]. assert (nu * r <= 1 / 1000 * r) by nra. split; lra. }
  apply Rabs_le_inv in D2. assert (X2 : 0 <= X * X <= r * r) by (split; [nra|apply neg_pos_Rsqr_le; lra]).
  replace (q - st * Y * Y + Z - (q - s * X * X)) with (- ((st - s) * (X * X) + st * (Y * Y - X * X)) + Z) by ring.
  set (e := st - s) in *. replace st with (s + e) by (unfold e; ring). set (w := Y * Y - X * X) in *.
  assert (T1 : Rabs (e * (X * X)) <= nu * q).
  { rewrite Rabs_mult, (Rabs_pos_eq (X * X)) by lra. apply Rle_trans with (nu * s * (r * r)); [apply Rmult_le_compat; try lra; [apply Rabs_pos|apply Rabs_le; lra]|]. rewrite Rmult_assoc. apply Rmult_le_compat_l; lra. }
  assert (T2 : Rabs ((s + e) * w) <= 3 * nu * q).
  { rewrite Rabs_mult. apply Rle_trans with (1001 / 1000 * s * (201 / 100 * nu * (r * r))).
    - apply Rmult_le_compat; try apply Rabs_pos; apply Rabs_le; [|lra]. assert (nu * s <= 1 / 1000 * s) by nra. split; lra.
    - replace (1001 / 1000 * s * (201 / 100 * nu * (r * r))) with (1001 / 1000 * (201 / 100) * nu * (s * (r * r))) by ring. assert (nu * (s * (r * r)) <= nu * q) by (apply Rmult_le_compat_l; lra). assert (0 <= nu * q) by nra. lra. }
  apply Rabs_le_inv in T1, T2. apply Rabs_le. split; lra.
Qed.
Lemma gm1_low h : / (10 * gm) * quad n M h <= quad n M1 h.
Proof.
  pose proof flat_b as FB.
  unfold M1. rewrite rank1_quad, (dot_comm n p h). pose proof (hp_bound h) as B. set (X := dot n h p) in *. set (q := quad n M h) in *.
  assert (sigma / om * X * X <= (1 - / (10 * gm)) * q); [|lra]. replace (sigma / om * X * X) with (sigma * (X * X * / om)) by (field; lra).
  assert (P0 : 0 < / om) by now apply Rinv_0_lt_compat. assert (X * X * / om <= q). { replace q with (om * q * / om) by (field; lra). apply Rmult_le_compat_r; lra. }
  assert (0 <= X * X * / om) by (apply Rmult_le_pos; [nra|lra]). apply Rmult_le_compat; lra.
Qed.
Lemma m1_big h : quad n M h <= 10 * gm * quad n M1 h.
Proof.
  pose proof (gm1_low h) as L. apply (Rmult_le_compat_l (10 * gm)) in L; [|lra]. rewrite <- Rmult_assoc, Rinv_r, Rmult_1_l in L by lra. exact L.
Qed.
Lemma m1_psd h : 0 <= quad n M1 h.
Proof. pose proof (gm1_low h) as L. pose proof flat_b as FB. pose proof (q_nonneg h). assert (0 <= / (10 * gm) * quad n M h) by (apply Rmult_le_pos; lra). lra. Qed.
Lemma dev_rel h : 5 * nu * quad n M h <= 50 * nv * quad n M1 h.
Proof. pose proof (m1_big h) as L. unfold nv. replace (50 * (gm * nu) * quad n M1 h) with (5 * nu * (10 * gm * quad n M1 h)) by ring. apply Rmult_le_compat_l; lra. Qed.
Lemma gmt_low h : (1 - 50 * nv) * quad n M1 h <= quad n Mt h.
Proof. pose proof (mt_dev h) as D. apply Rabs_le_inv in D. pose proof (dev_rel h). lra. Qed.
Lemma gmt_pd : pd n Mt.
Proof.
  intros h Hh. pose proof (gmt_low h) as A. pose proof (gm1_low h) as B. pose proof (step_pd h Hh) as C. pose proof flat_b as FB. fold nv in Hnu1.
  assert (0 < / (10 * gm) * quad n M h) by (apply Rmult_lt_0_compat; lra). assert (0 < (1 - 50 * nv) * quad n M1 h) by (apply Rmult_lt_0_compat; lra). lra.
Qed.
Lemma gmt_up h : quad n Mt h <= (1 + 50 * nv) * quad n M1 h.
Proof. pose proof (mt_dev h) as D. apply Rabs_le_inv in D. pose proof (dev_rel h). lra. Qed.

Lemma move_dev h : dot n h (fun i => c1 i - xt i) * dot n h (fun i => c1 i - xt i) <= (9 * nv + 5 * zv) * (9 * nv + 5 * zv) * (kappa * delta * quad n M1 h).
Proof.
  pose proof nu_s as Hnu. pose proof ze_s as Hze.
  set (q := quad n M h). assert (Q0 : 0 <= q) by apply q_nonneg.
  set (X := dot n h p). set (Y := dot n h pt). set (d := fun i => xt i - (c i - rt * pt i)). set (W := dot n h d).
  assert (E : dot n h (fun i => c1 i - xt i) = (rt - rho / om) * X + rt * (Y - X) - W).
  { transitivity (dot n h (fun i => (rt * pt i - rho / om * p i) - d i)); [apply dot_ext; auto; intros; unfold c1, d; ring|].
    rewrite dot_minus_r, dot_minus_r, !dot_scal_r. fold X Y W. ring. }
  rewrite E. pose proof (hp_bound h) as B1. pose proof (hd_bound h) as B2. fold X q in B1. fold X Y q in B2.
  pose proof (dot_dev n h d eta He Hxt) as B3. fold W in B3. pose proof (Hmin h) as L. fold q in L. pose proof (dot_self_nonneg n h) as D0.
  set (r := sqrt (om * q)). assert (R0 : 0 <= r) by apply sqrt_pos. assert (Rr : r * r = om * q) by (apply sqrt_sqrt; nra).
  set (k := sqrt (kappa * q)). assert (K0 : 0 <= k) by apply sqrt_pos. assert (Kk : k * k = kappa * q) by (apply sqrt_sqrt; nra).
  assert (X1 : Rabs X <= r) by (apply sq_le_abs; auto; lra).
  assert (Y1 : Rabs (Y - X) <= nu * r). { apply sq_le_abs; [nra|]. replace (nu * r * (nu * r)) with (nu * nu * (r * r)) by ring. rewrite Rr. exact B2. }
  assert (W1 : Rabs W <= zeta * k).
  { apply sq_le_abs; [nra|]. replace (zeta * k * (zeta * k)) with (zeta * zeta * (k * k)) by ring. rewrite Kk. eapply Rle_trans; [exact B3|].
    replace (eta * eta * (INR n * dot n h h)) with (eta * eta * INR n * dot n h h) by ring. apply Rle_trans with (zeta * zeta * (lam * kappa) * dot n h h); [apply Rmult_le_compat_r; auto|].
    replace (zeta * zeta * (lam * kappa) * dot n h h) with (zeta * zeta * kappa * (lam * dot n h h)) by ring. replace (zeta * zeta * (kappa * q)) with (zeta * zeta * kappa * q) by ring. apply Rmult_le_compat_l; [|exact L]. assert (0 <= zeta * zeta) by nra. nra. }
  assert (P0 : 0 < / om) by now apply Rinv_0_lt_compat. set (s := rho / om) in *. assert (s0 : 0 <= s) by (unfold s, Rdiv; apply Rmult_le_pos; lra).
  assert (sr : s * r <= k).
  { rewrite <- (Rabs_pos_eq (s * r)) by nra. apply sq_le_abs; auto. replace (s * r * (s * r)) with (s * s * (r * r)) by ring. rewrite Rr, Kk.
    replace (s * s * (om * q)) with (rho * rho * / om * q) by (unfold s; field; lra). apply Rmult_le_compat_r; auto. replace kappa with (kappa * om * / om) by (field; lra). apply Rmult_le_compat_r; lra. }
  apply Rabs_le_inv in Hrt.
  assert (T1 : Rabs ((rt - s) * X) <= nu * k).
  { rewrite Rabs_mult. apply Rle_trans with (nu * s * r); [apply Rmult_le_compat; try apply Rabs_pos; [apply Rabs_le; lra|auto]|]. rewrite Rmult_assoc. apply Rmult_le_compat_l; lra. }
  assert (T2 : Rabs (rt * (Y - X)) <= 1001 / 1000 * nu * k).
  { rewrite Rabs_mult. apply Rle_trans with (1001 / 1000 * s * (nu * r)); [apply Rmult_le_compat; try apply Rabs_pos; [apply Rabs_le; assert (nu * s <= 1 / 1000 * s) by nra; split; lra|auto]|].
    replace (1001 / 1000 * s * (nu * r)) with (1001 / 1000 * nu * (s * r)) by ring. apply Rmult_le_compat_l; lra. }
  set (t := (rt - s) * X + rt * (Y - X) - W). assert (T : Rabs t <= (2001 / 1000 * nu + zeta) * k).
  { apply Rabs_le_inv in T1, T2, W1. apply Rabs_le. unfold t. split; lra. }
  replace (t * t) with (Rabs t * Rabs t) by (rewrite <- Rabs_mult; apply Rabs_pos_eq; apply Rle_0_sqr).
  set (m := 2001 / 1000 * nu + zeta) in *. assert (m0 : 0 <= m) by (unfold m; lra).
  apply Rle_trans with (m * k * (m * k)); [apply Rmult_le_compat; auto using Rabs_pos|]. replace (m * k * (m * k)) with (m * m * (k * k)) by ring. rewrite Kk.
  pose proof (m1_big h) as L1. fold q in L1. pose proof (m1_psd h) as q10. set (q1 := quad n M1 h) in *. assert (kq : kappa * q <= 20 * gm * (kappa * delta * q1)).
  { assert (A1 : kappa * q <= kappa * (10 * gm * q1)) by (apply Rmult_le_compat_l; lra). assert (A2 : 0 <= gm * (kappa * q1)) by (apply Rmult_le_pos; [lra|]; apply Rmult_le_pos; lra).
    assert (A3 : 1 / 2 * (gm * (kappa * q1)) <= delta * (gm * (kappa * q1))) by (apply Rmult_le_compat_r; lra). lra. }
  set (Q1 := kappa * delta * q1) in *. assert (0 <= Q1) by (unfold Q1; apply Rmult_le_pos; [apply Rmult_le_pos; lra|exact q10]).
  apply Rle_trans with (m * m * (20 * gm * Q1)); [apply Rmult_le_compat_l; [apply Rle_0_sqr|auto]|]. replace (m * m * (20 * gm * Q1)) with (20 * gm * (m * m) * Q1) by ring. apply Rmult_le_compat_r; auto.
  assert (E1 : 0 <= gm * (m * m)) by (apply Rmult_le_pos; [lra|apply Rle_0_sqr]). assert (E2 : 1 * (gm * (m * m)) <= gm * (gm * (m * m))) by (apply Rmult_le_compat_r; lra).
  apply Rle_trans with ((448 / 100 * (gm * m)) * (448 / 100 * (gm * m))); [lra|]. assert (E3 : 0 <= gm * m) by (apply Rmult_le_pos; lra).
  assert (E4 : 448 / 100 * (gm * m) <= 9 * nv + 5 * zv). { unfold nv, zv, m. assert (0 <= gm * nu) by (apply Rmult_le_pos; lra). assert (0 <= gm * zeta) by (apply Rmult_le_pos; lra). lra. }
  apply Rmult_le_compat; lra.
Qed.

Theorem gstep_holds z : in_ell n M1 (kappa * delta) c1 z -> in_ell n Mt (kt * (1 + (80 * nv + 20 * zv))) xt z.
Proof.
  assert (Hnv : 0 <= nv <= 1 / 1000) by (split; [unfold nv; apply Rmult_le_pos; lra|exact Hnu1]). assert (Hzv : 0 <= zv <= 1 / 100) by (split; [unfold zv; apply Rmult_le_pos; lra|exact Hze1]).
  assert (Hkt' : kappa * delta * (1 - nv) <= kt).
  { eapply Rle_trans; [|exact Hkt]. apply Rmult_le_compat_l; [apply Rmult_le_pos; lra|]. assert (1 * nu <= gm * nu) by (apply Rmult_le_compat_r; lra). unfold nv. lra. }
  intros (w & Hw & Hq). destruct (solve_pd n Mt (fun i => z i - xt i) HSt gmt_pd) as (y & Hy).
  exists y. split; [intros i Hi; symmetry; now apply Hy|].
  set (Q := quad n Mt y). set (q1 := quad n M1 y). set (k1 := kappa * delta) in *. assert (K1 : 0 < k1) by (unfold k1; apply Rmult_lt_0_compat; lra).
  assert (S1 : sym n M1) by now apply rank1_sym. assert (P1 : psd n M1). { intros h. apply m1_psd. }
  assert (E : Q = dot n y (mulmv n M1 w) + dot n y (fun i => c1 i - xt i)).
  { unfold Q, quad. rewrite <- dot_plus_r. apply dot_ext; auto. intros i Hi. rewrite (Hy i Hi), <- (Hw i Hi). ring. }
  pose proof (psd_cauchy n M1 y w S1 P1) as C. fold q1 in C. pose proof (move_dev y) as V. fold k1 q1 in V.
  set (A := dot n y (mulmv n M1 w)) in *. set (B := dot n y (fun i => c1 i - xt i)) in *. pose proof (P1 y) as q10. fold q1 in q10. pose proof (P1 w) as qw0. set (qw := quad n M1 w) in *.
  assert (A2 : A * A <= k1 * q1) by (assert (q1 * qw <= q1 * k1) by (apply Rmult_le_compat_l; auto); lra).
  set (r := sqrt (k1 * q1)). assert (R0 : 0 <= r) by apply sqrt_pos. assert (Rr : r * r = k1 * q1) by (apply sqrt_sqrt; nra).
  set (ga := 9 * nv + 5 * zv) in *. assert (G0 : 0 <= ga) by (unfold ga; lra).
  assert (A1 : Rabs A <= r) by (apply sq_le_abs; auto; lra). assert (B1 : Rabs B <= ga * r). { apply sq_le_abs; [nra|]. replace (ga * r * (ga * r)) with (ga * ga * (r * r)) by ring. now rewrite Rr. }
  apply Rabs_le_inv in A1, B1. assert (QU : Q <= (1 + ga) * r) by lra. pose proof (gmt_low y) as L. fold Q q1 in L.
  assert (Q0 : 0 <= Q) by nra. 
  assert (QQ : Q * Q <= (1 + ga) * (1 + ga) * (k1 * q1)). { rewrite <- Rr. replace ((1 + ga) * (1 + ga) * (r * r)) with ((1 + ga) * r * ((1 + ga) * r)) by ring. apply Rmult_le_compat; auto. }
  assert (F : (1 - 50 * nv) * Q * Q <= (1 + ga) * (1 + ga) * k1 * Q).
  { assert ((1 - 50 * nv) * (Q * Q) <= (1 - 50 * nv) * ((1 + ga) * (1 + ga) * (k1 * q1))) by (apply Rmult_le_compat_l; lra).
    assert ((1 + ga) * (1 + ga) * k1 * ((1 - 50 * nv) * q1) <= (1 + ga) * (1 + ga) * k1 * Q). { apply Rmult_le_compat_l; auto. apply Rmult_le_pos; [nra|lra]. } lra. }
  assert (F1 : (1 - 50 * nv) * Q <= (1 + ga) * (1 + ga) * k1).
  { destruct (Rle_lt_or_eq_dec _ _ Q0) as [Qp|<-]; [apply Rmult_le_reg_r with Q; auto|]. rewrite Rmult_0_r. apply Rmult_le_pos; [nra|lra]. }
  set (ep := 80 * nv + 20 * zv) in *. assert (KT : k1 * (1 - nv) * (1 + ep) <= kt * (1 + ep)). { apply Rmult_le_compat_r; [unfold ep; lra|auto]. }
  apply Rle_trans with (k1 * (1 - nv) * (1 + ep)); [|exact KT].
  apply Rmult_le_reg_l with (1 - 50 * nv); [lra|]. eapply Rle_trans; [exact F1|].
  replace ((1 - 50 * nv) * (k1 * (1 - nv) * (1 + ep))) with ((1 - 50 * nv) * (1 - nv) * (1 + ep) * k1) by ring. apply Rmult_le_compat_r; [lra|].
  unfold ep, ga. clear -Hnv Hzv. clearbody nv zv. assert (0 <= nv * nv) by nra. assert (0 <= nv * zv) by nra. assert (nv * nv <= nv / 1000) by nra. assert (nv * zv <= zv / 1000) by nra. assert (zv * zv <= zv / 100) by nra.
  assert ((1 + (9 * nv + 5 * zv)) * (1 + (9 * nv + 5 * zv)) <= 1 + 19 * nv + 13 * zv) by nra.
  assert (1 - 51 * nv <= (1 - 50 * nv) * (1 - nv)) by nra. assert ((1 - 51 * nv) * (1 + (80 * nv + 20 * zv)) <= (1 - 50 * nv) * (1 - nv) * (1 + (80 * nv + 20 * zv))) by (apply Rmult_le_compat_r; lra).
  assert (1 + 24 * nv + 18 * zv <= (1 - 51 * nv) * (1 + (80 * nv + 20 * zv))) by nra. lra.
Qed.
End Step.

(** The case of ellipsoids that do not become flat. *)
Section Round.
Variables (n : nat) (M : mtx) (g c : vec) (kappa rho sigma delta lam nu zeta : R).
Let p := mulmv n M g.
Let om := quad n M g.
Let M1 := rank1 M (sigma / om) p.
Let c1 : vec := fun i => c i - rho / om * p i.
Variables (pt xt : vec) (Mt : mtx) (a b eta rt st kt : R).
Hypotheses (HS : sym n M) (Hlam : 0 < lam) (Hmin : forall z, lam * dot n z z <= quad n M z) (Hom : 0 < om).
Hypotheses (Hk : 0 < kappa) (Hr : 0 <= rho) (Hrk : rho * rho <= kappa * om) (Hsg : 0 <= sigma <= 9 / 10) (Hd : 1 / 2 <= delta).
Hypotheses (Hnu : 0 <= nu <= 1 / 1000) (Hze : 0 <= zeta <= 1 / 100).
Hypotheses (Ha : 0 <= a) (Hpa : forall i, (i < n)%nat -> Rabs (pt i - p i) <= a) (Han : a * a * INR n <= nu * nu * (lam * om)).
Hypotheses (Hrt : Rabs (rt - rho / om) <= nu * (rho / om)) (Hst : Rabs (st - sigma / om) <= nu * (sigma / om)).
Hypotheses (He : 0 <= eta) (Hxt : forall i, (i < n)%nat -> Rabs (xt i - (c i - rt * pt i)) <= eta) (Hen : eta * eta * INR n <= zeta * zeta * (lam * kappa)).
Hypotheses (Hb : 0 <= b) (Hmt : forall i j, (i < n)%nat -> (j < n)%nat -> Rabs (Mt i j - (M i j - st * pt i * pt j)) <= b) (Hbn : INR n * b <= nu * lam).
Hypotheses (HSt : sym n Mt) (Hkt : kappa * delta * (1 - nu) <= kt).
Lemma one_sg : 0 <= sigma <= 1 - / (10 * 1). Proof. replace (/ (10 * 1)) with (1 / 10) by field. lra. Qed.
Lemma one_nu : 1 * nu <= 1 / 1000. Proof. lra. Qed.
Lemma one_ze : 1 * zeta <= 1 / 100. Proof. lra. Qed.
Lemma m1_low h : 1 / 10 * quad n M h <= quad n M1 h.
Proof. pose proof (gm1_low n M g sigma lam 1 HS Hlam Hmin Hom (Rle_refl 1) one_sg h) as K. replace (/ (10 * 1)) with (1 / 10) in K by field. exact K. Qed.
Lemma mt_low h : (1 - 50 * nu) * quad n M1 h <= quad n Mt h.
Proof. pose proof (gmt_low n M g sigma lam nu 1 pt Mt a b st HS Hlam Hmin Hom (Rle_refl 1) one_sg (proj1 Hnu) one_nu Ha Hpa Han Hst Hb Hmt Hbn h) as K. rewrite Rmult_1_l in K. exact K. Qed.
Lemma mt_up h : quad n Mt h <= (1 + 50 * nu) * quad n M1 h.
Proof. pose proof (gmt_up n M g sigma lam nu 1 pt Mt a b st HS Hlam Hmin Hom (Rle_refl 1) one_sg (proj1 Hnu) one_nu Ha Hpa Han Hst Hb Hmt Hbn h) as K. rewrite Rmult_1_l in K. exact K. Qed.
Theorem step_holds z : in_ell n M1 (kappa * delta) c1 z -> in_ell n Mt (kt * (1 + (80 * nu + 20 * zeta))) xt z.
Proof.
  intros Hz. pose proof (gstep_holds n M g c kappa rho sigma delta lam nu zeta 1 pt xt Mt a b eta rt st kt HS Hlam Hmin Hom Hk Hr Hrk (Rle_refl 1) one_sg Hd (proj1 Hnu) one_nu (proj1 Hze) one_ze Ha Hpa Han Hrt Hst He Hxt Hen Hb Hmt Hbn HSt Hkt z Hz) as K.
  rewrite !Rmult_1_l in K. exact K.
Qed.
End Round.
