(** One update of Ell over the reals, in the vocabulary of [Spec]. *)
From Coq Require Import Reals List Arith Lia Lra Psatz Bool ZArith.
From Verif Require Import Num Res Arr CuttingPlane EllCalc Ell ArrLemmas EllLemmas Spec RealLin CutScalar EllSpec.
Open Scope R_scope.

Lemma accum_Rsum f n : accum (N := RNum) 0 f n = Rsum n f.
Proof. induction n; simpl; auto. rewrite IHn. reflexivity. Qed.

Lemma INR_two n : (2 <= n)%nat -> 2 <= INR n.
Proof. intros H. apply (le_INR 2 n) in H. simpl in H. lra. Qed.
Lemma nN_INR n : nN (N := RNum) n = INR n.
Proof. unfold nN. simpl. symmetry. apply INR_IZR_INZ. Qed.

Lemma in_ell_scale0 n M t c x : sym n M -> psd n M -> 0 <= t ->
  (in_ell n (fun i j => M i j * t) 1 c x <-> in_ell n M t c x).
Proof.
  intros HS HP Ht. destruct (Rle_lt_or_eq_dec _ _ Ht) as [H|H]; [now apply in_ell_scale|]. subst t. split.
  - intros (y & H1 & H2). exists (fun _ => 0). split.
    + intros i Hi. rewrite H1 by auto. unfold mulmv. rewrite !Rsum_zero; auto; intros; ring.
    + right. unfold quad, dot. apply Rsum_zero. intros; ring.
  - intros (y & H1 & H2). pose proof (HP y). assert (E : quad n M y = 0) by lra.
    exists (fun _ => 0). split.
    + intros i Hi. rewrite H1 by auto. rewrite (psd_kernel n M y) by auto.
      symmetry. unfold mulmv. apply Rsum_zero; intros; ring.
    + left. unfold quad, dot. rewrite Rsum_zero; [lra|]. intros; ring.
Qed.

Definition stepped (n : nat) (e : Ell RNum) (g : Arr RNum) (rho sigma delta : R) (e' : Ell RNum) : Prop :=
  let M := shape n e in let h := mulmv n M (coords g) in let om := quad n M (coords g) in
  let M1 := rank1 M (sigma / om) h in
  ell_wf n e' /\ e_helper e' = e_helper e /\ e_no_defer e' = e_no_defer e /\ e_tsq e' = width2 n e g /\
  (forall i, (i < n)%nat -> centre e' i = centre e i - rho / om * h i) /\
  if e_no_defer e
  then kap e' = 1 /\ forall i j, (i < n)%nat -> (j < n)%nat -> shape n e' i j = M1 i j * (kap e * delta)
  else kap e' = kap e * delta /\ forall i j, (i < n)%nat -> (j < n)%nat -> shape n e' i j = M1 i j.

Lemma ell_wf_iff n e : ell_wf n e <-> (0 < n)%nat /\ length (adata (e_mq e)) = (n * n)%nat /\
  arows (e_mq e) = n /\ acols (e_mq e) = n /\ length (adata (e_xc (N := RNum) e)) = n.
Proof. unfold ell_wf, is_mat. tauto. Qed.
Lemma valid_wf n e : valid n e -> ell_wf n e.
Proof. intros []. apply ell_wf_iff. auto. Qed.

Lemma gt_eq n (e : Ell RNum) g i : gt e g n i = mulmv n (shape n e) (coords g) i.
Proof. unfold gt. apply accum_Rsum. Qed.
Lemma omega_eq n (e : Ell RNum) g : omega e g n = quad n (shape n e) (coords g).
Proof.
  unfold omega. transitivity (Rsum n (fun i => vget g i * gt e g n i)); [apply accum_Rsum|].
  apply Rsum_ext. intros. now rewrite gt_eq.
Qed.

(** Whatever the strategy answers. *)
Lemma ell_core n e g (strategy : R -> cutres RNum) : ell_wf n e -> sym n (shape n e) -> vecn n g ->
  exists e' st rho sigma delta, strategy (width2 n e g) = (st, (rho, sigma, delta)) /\
    ell_update_core (N := RNum) e g strategy = Ok (e', st) /\
    (st <> Success -> e' = mkEll (N := RNum) (e_no_defer e) (e_mq e) (e_xc e) (e_kappa e) (e_helper e) (width2 n e g)) /\
    (st = Success -> stepped n e g rho sigma delta e').
Proof.
  intros Hw HS Hg.
  destruct (ell_update_core_ok (N := RNum) n e g strategy Hw Hg)
    as (e' & st & rho & sigma & delta & E1 & E2 & Hw' & Ht & Hh & Hn & _ & _ & H1 & H2).
  assert (Et : e_kappa e *! omega e g n = width2 n e g).
  { unfold width2. rewrite omega_eq. reflexivity. }
  rewrite Et in *. exists e', st, rho, sigma, delta. split; auto. split; auto. split; auto.
  intros Hst. destruct (H2 Hst) as (Hx & Hk & Hm). unfold stepped. cbv zeta.
  split; auto. split; auto. split; auto. split; auto. split.
  { intros i Hi. unfold centre, coords. pose proof (Hx i Hi) as Hxi.
    rewrite gt_eq, omega_eq in Hxi. exact Hxi. }
  assert (Hs : forall i j, (i < n)%nat -> (j < n)%nat ->
     shrunk (mget n (adata (e_mq e))) (sigma /! omega e g n) (gt e g n) i j =
     rank1 (shape n e) (sigma / quad n (shape n e) (coords g)) (mulmv n (shape n e) (coords g)) i j).
  { intros i j Hi Hj. unfold shrunk, rank1. rewrite !gt_eq, omega_eq.
    set (om := quad n (shape n e) (coords g)). set (h := mulmv n (shape n e) (coords g)).
    change (mget n (adata (e_mq e))) with (shape n e). simpl.
    destruct (j <=? i)%nat; [reflexivity|]. rewrite (HS j i) by auto. ring. }
  destruct (e_no_defer e).
  - split; [exact Hk|]. intros i j Hi Hj. pose proof (Hm i j Hi Hj) as Hmij. cbv zeta in Hmij.
    rewrite Hs in Hmij by auto. exact Hmij.
  - split; [exact Hk|]. intros i j Hi Hj. pose proof (Hm i j Hi Hj) as Hmij. cbv zeta in Hmij.
    rewrite Hs in Hmij by auto. exact Hmij.
Qed.

(** the set after a step *)
Lemma stepped_pts n e g rho sigma delta e' : valid n e -> vecn n g ->
  0 < quad n (shape n e) (coords g) -> sigma <= 1 -> stepped n e g rho sigma delta e' -> 0 <= kap e * delta ->
  forall x, pts n e' x <->
    in_ell n (rank1 (shape n e) (sigma / quad n (shape n e) (coords g)) (mulmv n (shape n e) (coords g)))
      (kap e * delta) (fun i => centre e i - rho / quad n (shape n e) (coords g) * mulmv n (shape n e) (coords g) i) x.
Proof.
  intros V Hg Ho Hsg (Hw & _ & _ & _ & Hc & H) Hk x. unfold pts.
  set (M1 := rank1 _ _ _) in *. set (c1 := fun i => _).
  assert (HS1 : sym n M1) by (apply rank1_sym; exact (v_sym _ _ V)).
  assert (HP1 : psd n M1) by exact (rank1_psd n _ (coords g) (v_sym _ _ V) (v_psd _ _ V) sigma Ho Hsg).
  destruct (e_no_defer e); destruct H as [Ek HM].
  - rewrite Ek. rewrite <- (in_ell_scale0 n M1 (kap e * delta) c1 x HS1 HP1 Hk). split; apply in_ell_ext; intros; first [now apply HM | now apply Hc | symmetry; now apply HM | symmetry; now apply Hc].
  - rewrite Ek. split; apply in_ell_ext; intros; first [now apply HM | now apply Hc | symmetry; now apply HM | symmetry; now apply Hc].
Qed.

Lemma in_ell_nonneg n M k c x : psd n M -> in_ell n M k c x -> 0 <= k.
Proof. intros HP (y & _ & H). pose proof (HP y). lra. Qed.

Lemma stepped_keeps n e g rho sigma delta e' : valid n e -> vecn n g -> 0 < quad n (shape n e) (coords g) ->
  stepped n e g rho sigma delta e' ->
  forall x, pts n e x -> keeps (width2 n e g) rho sigma delta (along n (coords g) x (centre e)) -> pts n e' x.
Proof.
  intros V Hg Ho H x Hx K. assert (Hsg : sigma <= 1) by (destruct K as [[? _]|[? _]]; lra).
  pose proof (cut_contains n _ _ _ (coords g) (v_sym _ _ V) rho sigma delta x Ho Hx K) as Hin.
  rewrite stepped_pts; eauto.
  eapply in_ell_nonneg; [|exact Hin]. exact (rank1_psd n _ (coords g) (v_sym _ _ V) (v_psd _ _ V) sigma Ho Hsg).
Qed.

(** validity after a step *)
Lemma stepped_valid n e g rho sigma delta e' : valid n e -> vecn n g -> 0 < quad n (shape n e) (coords g) ->
  sigma <= 1 -> 0 <= delta -> stepped n e g rho sigma delta e' -> valid n e'.
Proof.
  intros V Hg Ho Hs Hd (Hw & Hh & _ & _ & Hc & H). apply ell_wf_iff in Hw as (w1 & w2 & w3 & w4 & w5).
  pose proof (v_kap _ _ V) as Hk. assert (Hkd : 0 <= kap e * delta) by (apply Rmult_le_pos; auto).
  assert (HS1 := rank1_sym n _ (sigma / quad n (shape n e) (coords g)) (mulmv n (shape n e) (coords g)) (v_sym _ _ V)).
  assert (HP1 := rank1_psd n _ (coords g) (v_sym _ _ V) (v_psd _ _ V) sigma Ho Hs).
  constructor; auto.
  - now rewrite Hh, (v_calc _ _ V).
  - destruct (e_no_defer e); destruct H as [_ HM]; intros i j Hi Hj; rewrite !HM by auto.
    + f_equal. apply HS1; auto.
    + apply HS1; auto.
  - destruct (e_no_defer e); destruct H as [_ HM]; intros y.
    + rewrite (quad_ext n _ _ y y HM) by auto. rewrite quad_smul. apply Rmult_le_pos; auto.
    + rewrite (quad_ext n _ _ y y HM) by auto. apply HP1.
  - destruct (e_no_defer e); destruct H as [-> _]; [lra|auto].
Qed.

Lemma valid_width n e g : valid n e -> vecn n g -> 0 < width2 n e g ->
  0 < kap e /\ 0 < quad n (shape n e) (coords g).
Proof.
  intros V Hg H. unfold width2 in H. pose proof (v_kap _ _ V). pose proof (v_psd _ _ V (coords g)). split; nra.
Qed.

(** positions of points along the gradient *)
Lemma pts_range n e g x : valid n e -> pts n e x ->
  - sqrt (width2 n e g) <= along n (coords g) x (centre e) <= sqrt (width2 n e g).
Proof.
  intros V Hx. pose proof (width_bound n _ _ _ (coords g) (v_sym _ _ V) (v_psd _ _ V) x Hx) as H.
  fold (width2 n e g) in H. set (s := along _ _ _ _) in *.
  assert (0 <= width2 n e g) by nra.
  assert (E : sqrt (width2 n e g) * sqrt (width2 n e g) = width2 n e g) by now apply sqrt_sqrt.
  pose proof (sqrt_pos (width2 n e g)). split; nra.
Qed.

(** ** The strategies *)
Lemma Rlt_bool_iff x y : Raux.Rlt_bool x y = true <-> x < y.
Proof. destruct (Raux.Rlt_bool_spec x y); split; intros; auto; try discriminate; lra. Qed.
Lemma Rlt_bool_no x y : Raux.Rlt_bool x y = false <-> y <= x.
Proof. destruct (Raux.Rlt_bool_spec x y); split; intros; auto; try discriminate; lra. Qed.
Lemma Rle_bool_iff x y : Raux.Rle_bool x y = true <-> x <= y.
Proof. destruct (Raux.Rle_bool_spec x y); split; intros; auto; try discriminate; lra. Qed.
Lemma Rle_bool_no x y : Raux.Rle_bool x y = false <-> y < x.
Proof. destruct (Raux.Rle_bool_spec x y); split; intros; auto; try discriminate; lra. Qed.

Definition deep3 (m tau beta : R) : R * R * R :=
  let rho := (tau + m * beta) / (m + 1) in
  (rho, 2 * rho / (tau + beta), m * m / (m * m - 1) * (1 - beta / tau * (beta / tau))).
Definition par3 (m t b0 b1 : R) : R * R * R :=
  let xi := sqrt ((t - b0 * b0) * (t - b1 * b1) + (m / 2 * (b1 * b1 - b0 * b0)) * (m / 2 * (b1 * b1 - b0 * b0))) in
  let sigma := 2 * (t + m * (b0 * b1)) / (t + b0 * b1 + m / 2 * ((b0 + b1) * (b0 + b1)) + xi) in
  (sigma * (b0 + b1) / 2, sigma,
   m * m / (m * m - 1) * (((t - b0 * b0) + (t - b1 * b1)) / 2 + xi / m) / t).

Section Strat.
Variable n : nat.
Notation h := (calc_new (N := RNum) n).
Notation m := (INR n).

Lemma calc_bias_eq beta tsq : calc_bias_cut (N := RNum) h beta tsq =
  if Raux.Rlt_bool tsq (beta * beta) then (NoSoln, z3 (N := RNum)) else (Success, deep3 m (sqrt tsq) beta).
Proof. unfold calc_bias_cut, core_bias_cut, core_bias_cut_fast, calc_new, core_new, deep3. rewrite nN_INR. reflexivity. Qed.
Lemma calc_bias_q_eq beta tsq : calc_bias_cut_q (N := RNum) h beta tsq =
  if Raux.Rlt_bool (sqrt tsq) beta then (NoSoln, z3 (N := RNum))
  else if Raux.Rlt_bool (sqrt tsq + m * beta) 0 then (NoEffect, (0, 0, 1))
  else (Success, deep3 m (sqrt tsq) beta).
Proof. unfold calc_bias_cut_q, core_bias_cut_fast, calc_new, core_new, deep3. rewrite nN_INR. reflexivity. Qed.
Lemma calc_central_eq tsq : (1 <= n)%nat -> 0 < tsq ->
  calc_central_cut (N := RNum) h tsq = (Success, (sqrt tsq / (m + 1), 2 / (m + 1), m * m / (m * m - 1))).
Proof.
  intros Hn Ht. unfold calc_central_cut, core_central_cut, calc_new, core_new. rewrite nN_INR. simpl.
  do 2 f_equal. f_equal. unfold n2, n1. simpl. field. pose proof (pos_INR n). lra.
Qed.
Lemma central_deep tsq : 0 < tsq -> (1 <= n)%nat ->
  (sqrt tsq / (m + 1), 2 / (m + 1), m * m / (m * m - 1)) = deep3 m (sqrt tsq) 0.
Proof.
  intros Ht Hn. unfold deep3. pose proof (sqrt_lt_R0 _ Ht). pose proof (pos_INR n).
  f_equal; [f_equal|].
  - f_equal. ring.
  - field. lra.
  - unfold Rdiv. ring.
Qed.
Lemma calc_par_bias_eq b0 b1 tsq : calc_parallel_bias_cut (N := RNum) h b0 b1 tsq =
  if Raux.Rlt_bool b1 b0 then (NoSoln, z3 (N := RNum))
  else if (Raux.Rlt_bool 0 b1 && Raux.Rle_bool tsq (b1 * b1)) || false
  then calc_bias_cut (N := RNum) h b0 tsq
  else (Success, par3 m tsq b0 b1).
Proof.
  unfold calc_parallel_bias_cut, core_parallel_bias_cut, core_parallel_bias_cut_fast, calc_new, core_new, par3.
  rewrite nN_INR. reflexivity.
Qed.
Lemma calc_par_q_eq b0 b1 tsq : calc_parallel_q (N := RNum) h b0 b1 tsq =
  if Raux.Rlt_bool b1 b0 then (NoSoln, z3 (N := RNum))
  else if (Raux.Rlt_bool 0 b1 && Raux.Rle_bool tsq (b1 * b1)) || false
  then calc_bias_cut_q (N := RNum) h b0 tsq
  else if Raux.Rle_bool (tsq + m * (b0 * b1)) 0 then (NoEffect, (0, 0, 1))
  else (Success, par3 m tsq b0 b1).
Proof.
  unfold calc_parallel_q, core_parallel_bias_cut_fast, calc_new, core_new, par3.
  rewrite nN_INR. reflexivity.
Qed.
Definition parc3 (t b1 : R) : R * R * R :=
  let a := b1 * b1 / t in let k := m / 2 * a in
  let root := k + sqrt (1 - a + k * k) in
  (b1 / (root + 1), 2 / (root + 1), root / (root - 1 / m)).
Lemma calc_par_central_eq b1 tsq : calc_parallel_central_cut (N := RNum) h b1 tsq =
  if Raux.Rlt_bool b1 0 then (NoSoln, z3 (N := RNum))
  else if (Raux.Rle_bool tsq (b1 * b1)) || false
  then calc_central_cut (N := RNum) h tsq
  else (Success, parc3 tsq b1).
Proof.
  unfold calc_parallel_central_cut, core_parallel_central_cut, calc_new, core_new, parc3.
  rewrite nN_INR. reflexivity.
Qed.
(** the central parallel formula is the parallel formula at beta0 = 0 *)
Lemma parc3_par3 t b1 : (2 <= n)%nat -> 0 < t -> b1 * b1 < t -> parc3 t b1 = par3 m t 0 b1.
Proof.
  intros Hn Ht Hb. pose proof (INR_two n Hn) as Hm. unfold parc3, par3.
  set (a := b1 * b1 / t). set (k := m / 2 * a).
  assert (Ha : a * t = b1 * b1) by (unfold a; field; lra).
  assert (Ha0 : 0 <= a) by (apply Rmult_le_pos; [nra|left; now apply Rinv_0_lt_compat]).
  assert (Ha1 : a < 1) by (apply Rmult_lt_reg_r with t; lra).
  assert (Hr : 0 <= 1 - a + k * k) by nra.
  set (sq := sqrt (1 - a + k * k)).
  assert (Esq : sq * sq = 1 - a + k * k) by now apply sqrt_sqrt.
  assert (Hsq : 0 <= sq) by apply sqrt_pos.
  assert (Exi : sqrt ((t - 0 * 0) * (t - b1 * b1) + m / 2 * (b1 * b1 - 0 * 0) * (m / 2 * (b1 * b1 - 0 * 0))) = t * sq).
  { rewrite <- Ha. replace ((t - 0 * 0) * (t - a * t) + m / 2 * (a * t - 0 * 0) * (m / 2 * (a * t - 0 * 0)))
      with ((t * sq) * (t * sq)).
    - apply sqrt_square. apply Rmult_le_pos; lra.
    - replace (t * sq * (t * sq)) with (t * t * (sq * sq)) by ring. rewrite Esq. unfold k. ring. }
  rewrite Exi.
  assert (Ek : m / 2 * (b1 * b1) = k * t) by (rewrite <- Ha; unfold k; ring).
  replace (t + 0 * b1 + m / 2 * ((0 + b1) * (0 + b1)) + t * sq) with (t * (k + sq + 1)).
  2:{ replace ((0 + b1) * (0 + b1)) with (b1 * b1) by ring. rewrite Ek. ring. }
  assert (Hk : 0 <= k) by (unfold k; nra).
  set (root := k + sq).
  assert (Hroot : 0 <= root) by (unfold root; lra).
  assert (Hroot1 : 1 <= root).
  { assert (1 - k <= sq); [|unfold root; lra]. destruct (Rle_dec (1 - k) 0); [lra|].
    assert (a <= 2 * k) by (unfold k; nra). nra. }
  f_equal; [f_equal|].
  - field. split; lra.
  - field. split; lra.
  - assert (Er : root * root = m * a * root + 1 - a).
    { unfold root. replace ((k + sq) * (k + sq)) with (k * k + 2 * k * sq + sq * sq) by ring. rewrite Esq. unfold k. field. }
    assert (H1m : 1 / m <= / 2). { unfold Rdiv. rewrite Rmult_1_l. apply Rinv_le_contravar; lra. }
    replace (m * m / (m * m - 1) * ((t - 0 * 0 + (t - b1 * b1)) / 2 + t * sq / m) / t)
      with (m * m / (m * m - 1) * (1 - a + root / m)).
    2:{ rewrite <- Ha. unfold root, k. field. split; [lra|]. split; nra. }
    apply Rmult_eq_reg_r with (root - 1 / m); [|lra].
    replace (root / (root - 1 / m) * (root - 1 / m)) with root by (field; split; nra).
    replace (m * m / (m * m - 1) * (1 - a + root / m) * (root - 1 / m))
      with (m * m / (m * m - 1) * ((1 - a) * root - (1 - a) / m + root * root / m - root / (m * m))).
    2:{ field. split; nra. }
    rewrite Er. field. split; nra.
Qed.
End Strat.

Lemma deep3_keeps m t beta s : 1 < m -> 0 < t -> 0 <= sqrt t + m * beta -> beta <= sqrt t ->
  - sqrt t <= s -> s + beta <= 0 ->
  let '(rho, sigma, delta) := deep3 m (sqrt t) beta in keeps t rho sigma delta s.
Proof.
  intros Hm Ht H1 H2 H3 H4. unfold deep3. pose proof (sqrt_lt_R0 _ Ht) as Hs.
  pose proof (deep_keeps m (sqrt t) beta Hm Hs H1 H2 s H3 H4) as K. rewrite sqrt_sqrt in K by lra. exact K.
Qed.
Lemma par3_keeps m t b0 b1 s : 1 < m -> 0 < t -> b0 <= b1 -> 0 <= t + m * (b0 * b1) ->
  s * s <= t -> s + b0 <= 0 -> 0 <= s + b1 ->
  let '(rho, sigma, delta) := par3 m t b0 b1 in keeps t rho sigma delta s.
Proof. intros. unfold par3. now apply par_keeps. Qed.
