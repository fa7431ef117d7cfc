(** Linear algebra over [Spec]. *)
From Coq Require Import Reals Arith Lia Lra Psatz.
From Verif Require Import Spec.
Open Scope R_scope.

Lemma Rsum_ext n f g : (forall i, (i < n)%nat -> f i = g i) -> Rsum n f = Rsum n g.
Proof. induction n; simpl; intros H; auto. rewrite IHn by (intros; apply H; lia). rewrite H by lia. auto. Qed.
Lemma Rsum_plus n f g : Rsum n (fun i => f i + g i) = Rsum n f + Rsum n g.
Proof. induction n; simpl; [lra|rewrite IHn; lra]. Qed.
Lemma Rsum_minus n f g : Rsum n (fun i => f i - g i) = Rsum n f - Rsum n g.
Proof. induction n; simpl; [lra|rewrite IHn; lra]. Qed.
Lemma Rsum_scal n a f : Rsum n (fun i => a * f i) = a * Rsum n f.
Proof. induction n; simpl; [lra|rewrite IHn; lra]. Qed.
Lemma Rsum_scal_r n a f : Rsum n (fun i => f i * a) = Rsum n f * a.
Proof. induction n; simpl; [lra|rewrite IHn; lra]. Qed.
Lemma Rsum_zero n f : (forall i, (i < n)%nat -> f i = 0) -> Rsum n f = 0.
Proof. induction n; simpl; intros H; auto. rewrite IHn, H by (intros; try apply H; lia). lra. Qed.
Lemma Rsum_swap n m f : Rsum n (fun i => Rsum m (fun j => f i j)) = Rsum m (fun j => Rsum n (fun i => f i j)).
Proof.
  induction n; simpl.
  - symmetry. apply Rsum_zero. auto.
  - rewrite IHn, <- Rsum_plus. auto.
Qed.
Lemma Rsum_nonneg n f : (forall i, (i < n)%nat -> 0 <= f i) -> 0 <= Rsum n f.
Proof. induction n; simpl; intros H; [lra|]. pose proof (H n ltac:(lia)). assert (0 <= Rsum n f) by (apply IHn; intros; apply H; lia). lra. Qed.
Lemma Rsum_le n f g : (forall i, (i < n)%nat -> f i <= g i) -> Rsum n f <= Rsum n g.
Proof. induction n; simpl; intros H; [lra|]. pose proof (H n ltac:(lia)). assert (Rsum n f <= Rsum n g) by (apply IHn; intros; apply H; lia). lra. Qed.
Lemma Rsum_one n k f : (k < n)%nat -> (forall i, (i < n)%nat -> i <> k -> f i = 0) -> Rsum n f = f k.
Proof.
  induction n; simpl; intros Hk H; [lia|].
  destruct (Nat.eq_dec k n) as [->|].
  - rewrite Rsum_zero; [lra|]. intros; apply H; lia.
  - rewrite IHn by (intros; try apply H; lia). rewrite (H n) by lia. lra.
Qed.
Lemma Rsum_pos_one n k f : (k < n)%nat -> (forall i, (i < n)%nat -> 0 <= f i) -> f k <= Rsum n f.
Proof.
  induction n; simpl; intros Hk H; [lia|].
  pose proof (H n ltac:(lia)). assert (0 <= Rsum n f) by (apply Rsum_nonneg; intros; apply H; lia).
  destruct (Nat.eq_dec k n) as [->|]; [lra|]. assert (f k <= Rsum n f) by (apply IHn; [lia|intros; apply H; lia]). lra.
Qed.

Lemma dot_ext n x y x' y' : (forall i, (i < n)%nat -> x i = x' i) -> (forall i, (i < n)%nat -> y i = y' i) ->
  dot n x y = dot n x' y'.
Proof. intros H1 H2. apply Rsum_ext. intros. rewrite H1, H2; auto. Qed.
Lemma dot_comm n x y : dot n x y = dot n y x.
Proof. apply Rsum_ext. intros; ring. Qed.
Lemma dot_plus_r n x y z : dot n x (fun i => y i + z i) = dot n x y + dot n x z.
Proof. unfold dot. rewrite <- Rsum_plus. apply Rsum_ext; intros; ring. Qed.
Lemma dot_minus_r n x y z : dot n x (fun i => y i - z i) = dot n x y - dot n x z.
Proof. unfold dot. rewrite <- Rsum_minus. apply Rsum_ext; intros; ring. Qed.
Lemma dot_scal_r n x a y : dot n x (fun i => a * y i) = a * dot n x y.
Proof. unfold dot. rewrite <- Rsum_scal. apply Rsum_ext; intros; ring. Qed.
Lemma dot_plus_l n x y z : dot n (fun i => x i + y i) z = dot n x z + dot n y z.
Proof. unfold dot. rewrite <- Rsum_plus. apply Rsum_ext; intros; ring. Qed.
Lemma dot_minus_l n x y z : dot n (fun i => x i - y i) z = dot n x z - dot n y z.
Proof. unfold dot. rewrite <- Rsum_minus. apply Rsum_ext; intros; ring. Qed.
Lemma dot_scal_l n a x y : dot n (fun i => a * x i) y = a * dot n x y.
Proof. unfold dot. rewrite <- Rsum_scal. apply Rsum_ext; intros; ring. Qed.
Lemma dot_self_nonneg n x : 0 <= dot n x x.
Proof. apply Rsum_nonneg. intros. nra. Qed.
Lemma dot_self_zero n x : dot n x x = 0 -> forall i, (i < n)%nat -> x i = 0.
Proof.
  intros H i Hi. pose proof (Rsum_pos_one n i (fun i => x i * x i) Hi ltac:(intros; nra)) as H1.
  unfold dot in H. rewrite H in H1. simpl in H1. nra.
Qed.

Lemma mulmv_ext n M M' x x' i : (forall j, (j < n)%nat -> M i j = M' i j) -> (forall j, (j < n)%nat -> x j = x' j) ->
  mulmv n M x i = mulmv n M' x' i.
Proof. intros H1 H2. apply Rsum_ext. intros. rewrite H1, H2; auto. Qed.
Lemma mulmv_plus n M x y i : mulmv n M (fun i => x i + y i) i = mulmv n M x i + mulmv n M y i.
Proof. unfold mulmv. rewrite <- Rsum_plus. apply Rsum_ext; intros; ring. Qed.
Lemma mulmv_minus n M x y i : mulmv n M (fun i => x i - y i) i = mulmv n M x i - mulmv n M y i.
Proof. unfold mulmv. rewrite <- Rsum_minus. apply Rsum_ext; intros; ring. Qed.
Lemma mulmv_scal n M a x i : mulmv n M (fun i => a * x i) i = a * mulmv n M x i.
Proof. unfold mulmv. rewrite <- Rsum_scal. apply Rsum_ext; intros; ring. Qed.
Lemma quad_ext n M M' x x' : (forall i j, (i < n)%nat -> (j < n)%nat -> M i j = M' i j) ->
  (forall j, (j < n)%nat -> x j = x' j) -> quad n M x = quad n M' x'.
Proof. intros H1 H2. apply dot_ext; auto. intros. apply mulmv_ext; auto. Qed.

Lemma sym_dot n M x y : sym n M -> dot n x (mulmv n M y) = dot n y (mulmv n M x).
Proof.
  intros Hs. unfold dot, mulmv.
  transitivity (Rsum n (fun i => Rsum n (fun j => x i * (M i j * y j)))).
  { apply Rsum_ext; intros. now rewrite Rsum_scal. }
  rewrite Rsum_swap. apply Rsum_ext. intros j Hj. rewrite <- Rsum_scal. apply Rsum_ext. intros i Hi.
  rewrite (Hs i j) by auto. ring.
Qed.

Lemma quad_line n M x t g : sym n M ->
  quad n M (fun i => x i + t * g i) = quad n M x + 2 * t * dot n x (mulmv n M g) + t * t * quad n M g.
Proof.
  intros Hs. unfold quad.
  rewrite (dot_ext n _ _ (fun i => x i + t * g i) (fun i => mulmv n M x i + t * mulmv n M g i)); auto.
  2:{ intros i Hi. rewrite mulmv_plus, mulmv_scal. auto. }
  rewrite dot_plus_l, dot_scal_l, !dot_plus_r, !dot_scal_r. rewrite (sym_dot n M g x) by auto. ring.
Qed.

(** Cauchy-Schwarz for the form M *)
Lemma psd_cauchy n M x y : sym n M -> psd n M ->
  dot n x (mulmv n M y) * dot n x (mulmv n M y) <= quad n M x * quad n M y.
Proof.
  intros Hs Hp. set (b := dot n x (mulmv n M y)).
  pose proof (Hp x) as Hx. pose proof (Hp y) as Hy.
  destruct (Req_dec (quad n M y) 0) as [E|E].
  - rewrite E, Rmult_0_r. destruct (Req_dec b 0) as [->|Hb]; [lra|exfalso].
    set (t := - (quad n M x + 1) / (2 * b)).
    pose proof (Hp (fun i => x i + t * y i)) as H. rewrite quad_line in H by auto. fold b in H.
    rewrite E, Rmult_0_r in H. replace (2 * t * b) with (- (quad n M x + 1)) in H by (unfold t; field; auto). lra.
  - assert (0 < quad n M y) by lra.
    pose proof (Hp (fun i => x i + (- b / quad n M y) * y i)) as H1. rewrite quad_line in H1 by auto. fold b in H1.
    replace (quad n M x + 2 * (- b / quad n M y) * b + - b / quad n M y * (- b / quad n M y) * quad n M y)
      with (quad n M x - b * b / quad n M y) in H1 by (field; auto).
    apply Rmult_le_reg_r with (/ quad n M y); [now apply Rinv_0_lt_compat|].
    replace (quad n M x * quad n M y * / quad n M y) with (quad n M x) by (field; auto).
    unfold Rdiv in H1. lra.
Qed.

(** If y'My = 0 then My = 0. *)
Lemma psd_kernel n M y : sym n M -> psd n M -> quad n M y = 0 -> forall i, (i < n)%nat -> mulmv n M y i = 0.
Proof.
  intros Hs Hp E. apply dot_self_zero.
  pose proof (psd_cauchy n M (mulmv n M y) y Hs Hp) as H. rewrite E, Rmult_0_r in H.
  set (d := dot n (mulmv n M y) (mulmv n M y)) in *.
  assert (0 <= d) by apply dot_self_nonneg. nra.
Qed.

Lemma pd_psd n M : pd n M -> psd n M.
Proof.
  intros H x. destruct (Rle_dec 0 (quad n M x)) as [|Hn]; auto.
  assert (E : forall i, (i < n)%nat -> x i = 0).
  { intros i Hi. destruct (Req_dec (x i) 0); auto. exfalso. apply Hn. apply Rlt_le. apply H. eauto. }
  exfalso. apply Hn. right. symmetry. apply Rsum_zero. intros i Hi. rewrite E by auto. ring.
Qed.

(** The shape after a rank-one shrink. *)
Definition rank1 (M : mtx) (r : R) (h : vec) : mtx := fun i j => M i j - r * h i * h j.
Lemma rank1_mv n M r h y i : mulmv n (rank1 M r h) y i = mulmv n M y i - r * dot n h y * h i.
Proof.
  unfold mulmv, rank1, dot. rewrite Rmult_assoc, <- (Rsum_scal_r n (h i)), <- Rsum_scal, <- Rsum_minus.
  apply Rsum_ext. intros. ring.
Qed.
Lemma rank1_quad n M r h y : quad n (rank1 M r h) y = quad n M y - r * dot n h y * dot n h y.
Proof.
  unfold quad. rewrite (dot_ext n _ _ y (fun i => mulmv n M y i - r * dot n h y * h i)); auto.
  2:{ intros. apply rank1_mv. }
  rewrite dot_minus_r, dot_scal_r. rewrite (dot_comm n y h). ring.
Qed.
Lemma rank1_sym n M r h : sym n M -> sym n (rank1 M r h).
Proof. intros H i j Hi Hj. unfold rank1. rewrite (H i j) by auto. ring. Qed.

Lemma in_ell_ext n M M' k c c' x : (forall i j, (i < n)%nat -> (j < n)%nat -> M i j = M' i j) ->
  (forall i, (i < n)%nat -> c i = c' i) -> in_ell n M k c x -> in_ell n M' k c' x.
Proof.
  intros HM Hc (y & H1 & H2). exists y. split.
  - intros i Hi. rewrite <- Hc, H1 by auto. apply mulmv_ext; auto.
  - rewrite <- (quad_ext n M M' y y); auto.
Qed.

(** Scaling: [t*M] with [k] is [M] with [t*k]. *)
Lemma mulmv_smul n t M y i : mulmv n (fun i j => M i j * t) y i = t * mulmv n M y i.
Proof. unfold mulmv. rewrite <- Rsum_scal. apply Rsum_ext; intros; ring. Qed.
Lemma quad_smul n t M y : quad n (fun i j => M i j * t) y = t * quad n M y.
Proof.
  unfold quad. rewrite <- dot_scal_r. apply dot_ext; auto. intros. apply mulmv_smul.
Qed.
Lemma quad_scal n M t y : quad n M (fun i => t * y i) = t * t * quad n M y.
Proof.
  unfold quad. rewrite dot_scal_l. rewrite (dot_ext n y _ y (fun i => t * mulmv n M y i)); auto.
  2:{ intros; apply mulmv_scal. } rewrite dot_scal_r. ring.
Qed.
Lemma in_ell_scale n M t c x : 0 < t ->
  in_ell n (fun i j => M i j * t) 1 c x <-> in_ell n M t c x.
Proof.
  intros Ht. split; intros (y & H1 & H2).
  - exists (fun i => t * y i). split.
    + intros i Hi. rewrite H1 by auto. rewrite mulmv_smul, mulmv_scal. auto.
    + rewrite quad_smul in H2. rewrite quad_scal. nra.
  - exists (fun i => / t * y i). split.
    + intros i Hi. rewrite H1 by auto. rewrite mulmv_smul, mulmv_scal. field. lra.
    + rewrite quad_smul, quad_scal.
      replace (t * (/ t * / t * quad n M y)) with (quad n M y * / t) by (field; lra).
      apply Rmult_le_reg_r with t; auto. rewrite Rmult_assoc, Rinv_l by lra. lra.
Qed.

(** ** Half-width and containment *)
Section Cut.
Variables (n : nat) (M : mtx) (kappa : R) (c g : vec).
Hypothesis HS : sym n M.
Hypothesis HP : psd n M.
Let h := mulmv n M g.
Let om := quad n M g.

Lemma along_point x y : (forall i, (i < n)%nat -> x i - c i = mulmv n M y i) -> along n g x c = dot n y h.
Proof.
  intros H. unfold along. rewrite (dot_ext n g _ g (mulmv n M y)); auto. unfold h. now apply sym_dot.
Qed.

Lemma width_bound x : in_ell n M kappa c x -> along n g x c * along n g x c <= kappa * om.
Proof.
  intros (y & H1 & H2). rewrite (along_point x y) by auto.
  pose proof (psd_cauchy n M y g HS HP) as Hc. fold h om in Hc.
  pose proof (HP g) as Hg. fold om in Hg. nra.
Qed.

Lemma width_attained : 0 <= kappa -> 0 < om -> forall sg, sg * sg = 1 ->
  exists x, in_ell n M kappa c x /\ along n g x c = sg * sqrt (kappa * om).
Proof.
  intros Hk Ho sg Hsg. set (t := sg * sqrt (kappa / om)).
  exists (fun i => c i + t * h i). 
  assert (E : forall i, (i < n)%nat -> c i + t * h i - c i = mulmv n M (fun i => t * g i) i).
  { intros i Hi. rewrite mulmv_scal. fold h. ring. }
  assert (Hd : 0 <= kappa / om) by (apply Rmult_le_pos; [auto|left; now apply Rinv_0_lt_compat]).
  assert (Ett : t * t = kappa / om).
  { unfold t. replace (sg * sqrt (kappa / om) * (sg * sqrt (kappa / om))) with (sg * sg * (sqrt (kappa/om) * sqrt (kappa/om))) by ring.
    rewrite Hsg, sqrt_sqrt by auto. ring. }
  split.
  - exists (fun i => t * g i). split; auto. rewrite quad_scal. fold om. rewrite Ett.
    right. field. lra.
  - rewrite (along_point _ (fun i => t * g i)) by auto. rewrite dot_scal_l. change (dot n g h) with om.
    unfold t. replace (kappa * om) with (kappa / om * (om * om)) by (field; lra).
    rewrite sqrt_mult by nra. rewrite sqrt_square by lra. ring.
Qed.

(** A cut with parameters rho, sigma, delta keeps a point whose position
    [s = g.(x - c)] along the gradient satisfies one of two conditions. *)
Definition keeps (tsq rho sigma delta s : R) : Prop :=
  (sigma < 1 /\ (1 - sigma) * tsq + rho * rho + 2 * rho * s + sigma * (s * s) <= (1 - sigma) * (delta * tsq)) \/
  (sigma = 1 /\ s = - rho /\ tsq - rho * rho <= delta * tsq).

Lemma cut_contains rho sigma delta x : 0 < om ->
  in_ell n M kappa c x -> keeps (kappa * om) rho sigma delta (along n g x c) ->
  in_ell n (rank1 M (sigma / om) h) (kappa * delta) (fun i => c i - rho / om * h i) x.
Proof.
  intros Ho (y & H1 & H2) K. rewrite (along_point x y) in K by auto. set (s := dot n y h) in *.
  assert (Hh : dot n h g = om) by (unfold om, quad, h; apply dot_comm).
  assert (Hmv : forall t i, mulmv n M (fun i => y i + t * g i) i = mulmv n M y i + t * h i).
  { intros t i. now rewrite mulmv_plus, mulmv_scal. }
  assert (Hdot : forall t, dot n h (fun i => y i + t * g i) = s + t * om).
  { intros t. rewrite dot_plus_r, dot_scal_r, Hh. unfold s. rewrite (dot_comm n h y). ring. }
  assert (Hq : forall t, quad n M (fun i => y i + t * g i) = quad n M y + 2 * t * s + t * t * om).
  { intros t. rewrite quad_line by auto. reflexivity. }
  destruct K as [[Hs K]|(Hs & K1 & K2)].
  - set (t := (rho + sigma * s) / (om * (1 - sigma))).
    exists (fun i => y i + t * g i). split.
    + intros i Hi. rewrite rank1_mv, Hmv, Hdot.
      replace (x i - (c i - rho / om * h i)) with ((x i - c i) + rho / om * h i) by ring.
      rewrite H1 by auto. unfold t. field. lra.
    + rewrite rank1_quad, Hq, Hdot.
      apply Rmult_le_reg_l with (om * (1 - sigma)); [nra|].
      replace (om * (1 - sigma) * (quad n M y + 2 * t * s + t * t * om - sigma / om * (s + t * om) * (s + t * om)))
        with ((1 - sigma) * (quad n M y * om) + rho * rho + 2 * rho * s + sigma * (s * s)) by (unfold t; field; lra).
      apply Rle_trans with ((1 - sigma) * (kappa * om) + rho * rho + 2 * rho * s + sigma * (s * s)).
      * assert (quad n M y * om <= kappa * om) by nra. nra.
      * replace (om * (1 - sigma) * (kappa * delta)) with ((1 - sigma) * (delta * (kappa * om))) by ring. auto.
  - set (t := rho / om). exists (fun i => y i + t * g i).
    assert (E0 : s + t * om = 0) by (unfold t; rewrite K1; field; lra).
    split.
    + intros i Hi. rewrite rank1_mv, Hmv, Hdot, E0.
      replace (x i - (c i - t * h i)) with ((x i - c i) + t * h i) by ring.
      rewrite H1 by auto. ring.
    + rewrite rank1_quad, Hq, Hdot, E0.
      apply Rmult_le_reg_l with om; auto.
      replace (om * (quad n M y + 2 * t * s + t * t * om - sigma / om * 0 * 0))
        with (quad n M y * om - rho * rho) by (unfold t; rewrite K1; field; lra).
      assert (quad n M y * om <= kappa * om) by nra. nra.
Qed.

(** positive definiteness is kept when sigma < 1 *)
Lemma rank1_psd sigma : 0 < om -> sigma <= 1 -> psd n (rank1 M (sigma / om) h).
Proof.
  intros Ho Hs y. rewrite rank1_quad.
  pose proof (psd_cauchy n M y g HS HP) as Hc. fold h om in Hc.
  rewrite (dot_comm n h y). set (s := dot n y h) in *.
  pose proof (HP y). apply Rmult_le_reg_l with om; auto. rewrite Rmult_0_r.
  replace (om * (quad n M y - sigma / om * s * s)) with (quad n M y * om - sigma * (s * s)) by (field; lra).
  assert (0 <= s * s) by nra. assert (sigma * (s * s) <= 1 * (s * s)) by (apply Rmult_le_compat_r; auto). lra.
Qed.
End Cut.

Lemma rank1_pd n M g sigma : sym n M -> pd n M -> 0 < quad n M g -> sigma < 1 ->
  pd n (rank1 M (sigma / quad n M g) (mulmv n M g)).
Proof.
  intros HS HP Ho Hs y Hy. rewrite rank1_quad.
  pose proof (psd_cauchy n M y g HS (pd_psd _ _ HP)) as Hc.
  rewrite (dot_comm n _ y). set (s := dot n y (mulmv n M g)) in *. set (om := quad n M g) in *.
  pose proof (HP y Hy). apply Rmult_lt_reg_l with om; auto. rewrite Rmult_0_r.
  replace (om * (quad n M y - sigma / om * s * s)) with (quad n M y * om - sigma * (s * s)) by (field; lra).
  assert (0 <= s * s) by nra. assert (0 < quad n M y * om) by nra.
  destruct (Rle_dec sigma 0).
  - assert (sigma * (s * s) <= 0 * (s * s)) by (apply Rmult_le_compat_r; auto). lra.
  - assert (sigma * (s * s) <= sigma * (quad n M y * om)) by (apply Rmult_le_compat_l; lra).
    assert (sigma * (quad n M y * om) < 1 * (quad n M y * om)) by (apply Rmult_lt_compat_r; auto). lra.
Qed.

(** The textbook form of the ellipsoid. *)
Lemma mulmv_mulmm n A B x i : mulmv n A (mulmv n B x) i = mulmv n (mulmm n A B) x i.
Proof.
  unfold mulmv, mulmm.
  transitivity (Rsum n (fun j => Rsum n (fun k => A i j * (B j k * x k)))).
  { apply Rsum_ext; intros. now rewrite Rsum_scal. }
  rewrite Rsum_swap. apply Rsum_ext. intros k Hk. rewrite <- Rsum_scal_r. apply Rsum_ext. intros; ring.
Qed.
Lemma mulmv_one n x i : (i < n)%nat -> mulmv n mtx_one x i = x i.
Proof.
  intros Hi. unfold mulmv, mtx_one. rewrite (Rsum_one n i); auto.
  - rewrite Nat.eqb_refl. ring.
  - intros j Hj Hne. destruct (Nat.eqb_spec i j); [lia|ring].
Qed.
Lemma in_ell_inverse n M W kappa c x : sym n M -> inverse n M W ->
  (in_ell n M kappa c x <-> quad n W (fun i => x i - c i) <= kappa).
Proof.
  intros HS HI.
  assert (HWM : forall y i, (i < n)%nat -> mulmv n W (mulmv n M y) i = y i).
  { intros y i Hi. rewrite mulmv_mulmm. rewrite (mulmv_ext n _ mtx_one y y); auto. { now apply mulmv_one. }
    intros j Hj. apply (HI i j Hi Hj). }
  assert (HMW : forall y i, (i < n)%nat -> mulmv n M (mulmv n W y) i = y i).
  { intros y i Hi. rewrite mulmv_mulmm. rewrite (mulmv_ext n _ mtx_one y y); auto. { now apply mulmv_one. }
    intros j Hj. apply (HI i j Hi Hj). }
  split.
  - intros (y & H1 & H2). unfold quad in *. rewrite (dot_ext n _ _ (mulmv n M y) y); auto.
    + now rewrite dot_comm.
    + intros i Hi. rewrite <- (HWM y i) by auto. apply mulmv_ext; auto.
  - intros H. exists (mulmv n W (fun i => x i - c i)). split.
    + intros i Hi. now rewrite HMW.
    + unfold quad in *. rewrite (dot_ext n _ _ (mulmv n W (fun i => x i - c i)) (fun i => x i - c i)); auto.
      { rewrite dot_comm. auto. } intros i Hi. now apply HMW.
Qed.
