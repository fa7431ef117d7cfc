(** EllStable over the reals. *)
From Coq Require Import Reals List Arith Lia Lra Psatz Bool ZArith.
From Verif Require Import Num Res Arr CuttingPlane EllCalc Ell EllStable EllRun ArrLemmas EllLemmas StableLemmas Spec RealLin CutScalar EllSpec EllReal EllCuts EllMore StableSpec.
Import ListNotations.
Open Scope R_scope.

Lemma subacc_Rsum (z : R) (f : nat -> R) n : @eq R (subacc (N := RNum) z f n) (z - Rsum n f).
Proof. induction n; cbn [subacc Rsum nsub RNum]. - ring. - rewrite IHn. ring. Qed.
Lemma accum_from (z : R) (f : nat -> R) n : @eq R (accum (N := RNum) z f n) (z + Rsum n f).
Proof. induction n; cbn [accum Rsum nadd RNum]. - ring. - rewrite IHn. ring. Qed.
Lemma Rsum_lt_split n i f : (i <= n)%nat -> Rsum n (fun j => if (j <? i)%nat then f j else 0) = Rsum i f.
Proof.
  intros Hi. induction n.
  - replace i with 0%nat by lia. reflexivity.
  - destruct (Nat.eq_dec i (S n)) as [->|].
    + simpl. destruct (Nat.ltb_spec n (S n)); [|lia]. f_equal. apply Rsum_ext. intros j Hj. destruct (Nat.ltb_spec j (S n)); [auto|lia].
    + simpl. rewrite IHn by lia. destruct (Nat.ltb_spec n i); [lia|]. ring.
Qed.
Lemma Rsum_gt_split n i f : (i < n)%nat -> Rsum (n - S i) (fun k => f (S i + k)%nat) = Rsum n (fun j => if (i <? j)%nat then f j else 0).
Proof.
  intros Hi. induction n; [lia|]. replace (S n - S i)%nat with (n - i)%nat by lia.
  cbn [Rsum]. destruct (Nat.eq_dec i n) as [->|].
  - rewrite Nat.sub_diag. cbn [Rsum]. rewrite Nat.ltb_irrefl. rewrite Rsum_zero; [ring|].
    intros j Hj. destruct (Nat.ltb_spec n j); [lia|reflexivity].
  - replace (n - i)%nat with (S (n - S i)) by lia. cbn [Rsum]. rewrite IHn by lia. f_equal.
    destruct (Nat.ltb_spec i n); [|lia]. f_equal. lia.
Qed.

(** ** triangular systems *)
Lemma lower_dual n (U : mtx) g w y : (forall i, (i < n)%nat -> w i = g i - Rsum i (fun j => U j i * w j)) ->
  dot n g y = dot n w (upper_mv n U y).
Proof.
  intros Hw. unfold dot, upper_mv.
  rewrite (Rsum_ext n (fun i => g i * y i) (fun i => w i * y i + Rsum n (fun j => if (j <? i)%nat then U j i * w j * y i else 0))).
  2:{ intros i Hi. rewrite (Hw i Hi) at 1. transitivity (g i * y i - Rsum i (fun j => U j i * w j) * y i + Rsum i (fun j => U j i * w j) * y i); [ring|].
      f_equal; [ring|]. rewrite <- Rsum_scal_r. rewrite <- (Rsum_lt_split n i (fun j => U j i * w j * y i)) by lia. reflexivity. }
  rewrite Rsum_plus. rewrite Rsum_swap.
  rewrite (Rsum_ext n (fun i => w i * (y i + _)) (fun i => w i * y i + w i * Rsum n (fun j => if (i <? j)%nat then U i j * y j else 0))) by (intros; ring).
  rewrite Rsum_plus. f_equal. apply Rsum_ext. intros j Hj. rewrite <- Rsum_scal. apply Rsum_ext. intros i Hi.
  destruct (j <? i)%nat; ring.
Qed.
Lemma upper_solve n (U : mtx) v : exists y, forall i, (i < n)%nat -> upper_mv n U y i = v i.
Proof.
  assert (H : forall k, (k <= n)%nat -> exists y, forall i, (n - k <= i < n)%nat -> upper_mv n U y i = v i).
  { induction k; intros Hk.
    - exists v. intros; lia.
    - destruct IHk as [y Hy]; [lia|]. set (i0 := (n - S k)%nat).
      set (y' := fun i => if (i =? i0)%nat then v i0 - Rsum n (fun j => if (i0 <? j)%nat then U i0 j * y j else 0) else y i).
      exists y'. intros i Hi. unfold upper_mv.
      assert (Es : Rsum n (fun j => if (i <? j)%nat then U i j * y' j else 0) = Rsum n (fun j => if (i <? j)%nat then U i j * y j else 0)).
      { apply Rsum_ext. intros j Hj. destruct (Nat.ltb_spec i j); auto. unfold y'. destruct (Nat.eqb_spec j i0); [unfold i0 in *; lia|auto]. }
      rewrite Es. unfold y'. destruct (Nat.eqb_spec i i0) as [->|Ne]; [ring|]. apply Hy. unfold i0 in *. lia. }
  destruct (H n (le_n n)) as [y Hy]. exists y. intros i Hi. apply Hy. lia.
Qed.
Lemma upper_id n (U : mtx) y i : (forall j, (i < j)%nat -> (j < n)%nat -> U i j = 0) -> upper_mv n U y i = y i.
Proof.
  intros H. unfold upper_mv. rewrite Rsum_zero; [ring|]. intros j Hj. destruct (Nat.ltb_spec i j); auto. rewrite H by auto. ring.
Qed.

Lemma weighted_cauchy n (D w v : vec) : (forall i, (i < n)%nat -> 0 < D i) ->
  dot n w v * dot n w v <= Rsum n (fun i => D i * (w i * w i)) * Rsum n (fun i => v i * v i / D i).
Proof.
  intros HD. pose proof (psd_cauchy n (diag D) w (fun i => v i / D i) (diag_sym n D)
    (diag_psd n D (fun i Hi => Rlt_le _ _ (HD i Hi)))) as H.
  rewrite !diag_quad in H.
  replace (dot n w (mulmv n (diag D) (fun i => v i / D i))) with (dot n w v) in H.
  2:{ apply Rsum_ext. intros i Hi. rewrite diag_mv by auto. field. pose proof (HD i Hi). lra. }
  replace (Rsum n (fun i => D i * (v i / D i * (v i / D i)))) with (Rsum n (fun i => v i * v i / D i)) in H.
  2:{ apply Rsum_ext. intros i Hi. field. pose proof (HD i Hi). lra. }
  exact H.
Qed.

(** ** one update *)
Lemma svalid_wf n e : svalid n e -> stable_wf n e.
Proof. intros V. split; [exact (sv_dim _ _ V)|]. split; [|exact (sv_xc _ _ V)]. split; [exact (sv_data _ _ V)|]. split; [exact (sv_rows _ _ V)|exact (sv_cols _ _ V)]. Qed.

Lemma score n e g strategy : stable_wf n e -> vecn n g ->
  exists e' st rho sigma delta (w z q : vec) om,
    (forall i, (i < n)%nat -> w i = coords g i - Rsum i (fun j => fac_u n e j i * w j)) /\
    (forall i, (i < n)%nat -> z i = fac_d n e i * w i) /\
    om = Rsum n (fun i => fac_d n e i * (w i * w i)) /\
    (forall i, (i < n)%nat -> q i = z i - Rsum n (fun j => if (i <? j)%nat then fac_u n e i j * w i * q j else 0)) /\
    strategy (s_kappa e * om) = (st, (rho, sigma, delta)) /\
    stable_update_core (N := RNum) e g strategy = Ok (e', st) /\ stable_wf n e' /\
    s_tsq e' = s_kappa e * om /\ s_helper e' = s_helper e /\
    arows (s_xc e') = arows (s_xc e) /\ acols (s_xc e') = acols (s_xc e) /\
    (st <> Success -> s_xc e' = s_xc e /\ s_kappa e' = s_kappa e /\
       (forall i, (i < n)%nat -> fac_d n e' i = fac_d n e i) /\
       (forall i j, (i < j)%nat -> (j < n)%nat -> fac_u n e' i j = fac_u n e i j)) /\
    (st = Success ->
      let t := fun i => om / (sigma / (1 - sigma)) + Rsum i (fun i => fac_d n e i * (w i * w i)) in
      s_kappa e' = s_kappa e * delta /\
      (forall i, (i < n)%nat -> scentre e' i = scentre e i - rho / om * q i) /\
      (forall i, (i < n)%nat -> fac_d n e' i = fac_d n e i * (t i / t (S i))) /\
      (forall i j, (i < j)%nat -> (j < n)%nat -> fac_u n e' i j = fac_u n e i j + (z i / t (S i)) * (fac_u n e i j * w i))).
Proof.
  intros Hw (Lg & _).
  destruct (stable_update_core_ok (N := RNum) n e g strategy Hw Lg)
    as (e' & st & rho & sigma & delta & w & z & q & om & H1 & H2 & H3 & H4 & H5 & H6 & H7 & H8 & H9 & H10 & H11 & _ & H12 & H13).
  assert (Hz : forall i, (i < n)%nat -> z i = fac_d n e i * w i). { intros i Hi. rewrite H2 by auto. cbn. rewrite Rmult_comm. reflexivity. }
  assert (Hzw : forall i, (i < n)%nat -> z i * w i = fac_d n e i * (w i * w i)). { intros i Hi. rewrite Hz by auto. ring. }
  exists e', st, rho, sigma, delta, w, z, q, om.
  split. { intros i Hi. etransitivity; [exact (H1 i Hi)|]. rewrite subacc_Rsum. reflexivity. }
  split; auto.
  split. { etransitivity; [exact H3|]. etransitivity; [apply accum_Rsum|]. apply Rsum_ext. exact Hzw. }
  split. { intros i Hi. etransitivity; [exact (H4 i Hi)|]. rewrite subacc_Rsum. f_equal.
    cbn [nmul RNum]. exact (Rsum_gt_split n i (fun j => sget n e i j * w i * q j) Hi). }
  split; auto. split; auto. split; auto. split; auto. split; auto. split; auto. split; auto.
  split. { intros Hs. destruct (H12 Hs) as (A1 & A2 & A3). split; auto. split; auto. split; intros; [apply A3; lia|apply A3; lia]. }
  intros Hs. destruct (H13 Hs) as (A1 & A2 & A3 & A4). cbv zeta.
  assert (Et : forall i, (i <= n)%nat -> accum (N := RNum) (om /! (sigma /! (n1 -! sigma))) (fun i => z i *! w i) i =
     om / (sigma / (1 - sigma)) + Rsum i (fun i => fac_d n e i * (w i * w i))).
  { intros i Hi. rewrite accum_from. f_equal. apply Rsum_ext. intros j Hj. apply Hzw. lia. }
  split; [exact A1|]. split; [exact A2|]. split.
  - intros i Hi. rewrite <- !Et by lia. exact (A3 i Hi).
  - intros i j Hij Hj. rewrite <- Et by lia. exact (A4 i j Hij Hj).
Qed.

Lemma apply_stable_core {N : Num} {C} (ct : CutType N C) m e g c : apply_stable ct m e (g, c) = stable_update_core e g (calc_of ct m (s_helper e) c).
Proof. destruct m; reflexivity. Qed.

(** ** tsq is the squared half-width of the set *)
Lemma stable_width {C} (ct : CutType RNum C) m n e g c : svalid n e -> vecn n g ->
  exists e' st, apply_stable ct m e (g, c) = Ok (e', st) /\ 0 <= s_tsq e' /\
    (forall x, spts n e x -> along n (coords g) x (scentre e) * along n (coords g) x (scentre e) <= s_tsq e') /\
    (forall sg, sg * sg = 1 -> exists x, spts n e x /\ along n (coords g) x (scentre e) = sg * sqrt (s_tsq e')).
Proof.
  intros V Hg. rewrite apply_stable_core.
  destruct (score n e g (calc_of ct m (s_helper e) c) (svalid_wf _ _ V) Hg)
    as (e' & st & rho & sigma & delta & w & z & q & om & Hw & Hz & Hom & _ & Hstr & Er & _ & Et & _).
  exists e', st. split; auto. rewrite Et. pose proof (sv_kap _ _ V) as Hk. pose proof (sv_diag _ _ V) as HD.
  assert (Ho : 0 <= om). { rewrite Hom. apply Rsum_nonneg. intros i Hi. pose proof (HD i Hi). nra. }
  assert (Hko : 0 <= s_kappa e * om) by nra.
  split; auto. split.
  - intros x Hx. unfold along. rewrite (lower_dual n (fac_u n e) _ w) by auto.
    eapply Rle_trans; [apply (weighted_cauchy n (fac_d n e)); auto|]. rewrite <- Hom.
    unfold spts in Hx. cbv zeta in Hx. rewrite (Rmult_comm _ om). apply Rmult_le_compat_l; auto.
  - intros sg Hsg.
    set (a := if Req_EM_T om 0 then 0 else sg * sqrt (s_kappa e * om) / om).
    destruct (upper_solve n (fac_u n e) (fun i => a * (fac_d n e i * w i))) as [y Hy].
    exists (fun i => y i + scentre e i).
    assert (Ey : forall i, (i < n)%nat -> upper_mv n (fac_u n e) (fun k => y k + scentre e k - scentre e k) i = a * (fac_d n e i * w i)).
    { intros i Hi. rewrite <- Hy by auto. unfold upper_mv. f_equal; [ring|]. apply Rsum_ext. intros j Hj. destruct (_ <? _)%nat; ring. }
    assert (Ha2 : a * a * om <= s_kappa e /\ a * om = sg * sqrt (s_kappa e * om)).
    { unfold a. destruct (Req_EM_T om 0) as [E0|Ne].
      - rewrite E0, (Rmult_0_r (s_kappa e)), sqrt_0. split; lra.
      - assert (Hss : sqrt (s_kappa e * om) * sqrt (s_kappa e * om) = s_kappa e * om) by (apply sqrt_sqrt; auto).
        split; [|field; auto].
        replace (sg * sqrt (s_kappa e * om) / om * (sg * sqrt (s_kappa e * om) / om) * om) with
          ((sg * sg) * (sqrt (s_kappa e * om) * sqrt (s_kappa e * om)) / om) by (field; auto).
        rewrite Hsg, Hss. right. field. auto. }
    split.
    + unfold spts. cbv zeta. rewrite (Rsum_ext n _ (fun i => a * a * (fac_d n e i * (w i * w i)))).
      * rewrite Rsum_scal, <- Hom. apply Ha2.
      * intros i Hi. rewrite Ey by auto. field. pose proof (HD i Hi). lra.
    + unfold along. rewrite (lower_dual n (fac_u n e) _ w) by auto. unfold dot.
      rewrite (Rsum_ext n _ (fun i => a * (fac_d n e i * (w i * w i)))).
      * rewrite Rsum_scal, <- Hom. apply Ha2.
      * intros i Hi. rewrite Ey by auto. ring.
Qed.

(** ** volume *)
Lemma Rprod_ext n f g : (forall i, (i < n)%nat -> f i = g i) -> Rprod n f = Rprod n g.
Proof. induction n; simpl; intros H; auto. rewrite H by lia. rewrite IHn; auto. Qed.
Lemma Rprod_telescope n (D t : nat -> R) : (forall i, (i <= n)%nat -> 0 < t i) ->
  Rprod n (fun i => D i * (t i / t (S i))) = Rprod n D * (t 0%nat / t n).
Proof.
  induction n; intros Ht; simpl.
  - field. pose proof (Ht 0%nat (le_n _)). lra.
  - rewrite IHn by (intros; apply Ht; lia). pose proof (Ht n ltac:(lia)). pose proof (Ht (S n) ltac:(lia)). field. lra.
Qed.
Lemma g_nonzero_omega n e (g w : vec) : (forall i, (i < n)%nat -> 0 < fac_d n e i) ->
  (forall i, (i < n)%nat -> w i = g i - Rsum i (fun j => fac_u n e j i * w j)) ->
  (exists i, (i < n)%nat /\ g i <> 0) -> 0 < Rsum n (fun i => fac_d n e i * (w i * w i)).
Proof.
  intros HD Hw (k & Hk & Hgk).
  assert (Hnn : forall i, (i < n)%nat -> 0 <= fac_d n e i * (w i * w i)) by (intros i Hi; pose proof (HD i Hi); nra).
  destruct (Rle_lt_or_eq_dec 0 _ (Rsum_nonneg n _ Hnn)) as [|E0]; auto. exfalso.
  assert (Hw0 : forall i, (i < n)%nat -> w i = 0).
  { intros i Hi. pose proof (Rsum_pos_one n i _ Hi Hnn) as H. simpl in H. rewrite <- E0 in H. pose proof (HD i Hi).
    destruct (Req_dec (w i) 0) as [|Ne]; auto. apply Rsqr_pos_lt in Ne. unfold Rsqr in Ne. nra. }
  apply Hgk. pose proof (Hw k Hk) as H. rewrite Hw0 in H by auto. rewrite Rsum_zero in H; [lra|].
  intros j Hj. rewrite Hw0 by lia. ring.
Qed.

Lemma stable_step n e g strategy : svalid n e -> vecn n g -> (exists i, (i < n)%nat /\ coords g i <> 0) ->
  exists e' st rho sigma delta, stable_update_core (N := RNum) e g strategy = Ok (e', st) /\ 0 < s_tsq e' /\
    strategy (s_tsq e') = (st, (rho, sigma, delta)) /\
    (st <> Success -> svalid n e') /\
    (st = Success -> 0 < sigma < 1 -> 0 < delta -> svalid n e' /\
      s_kappa e' = s_kappa e * delta /\
      Rprod n (fac_d n e') = (1 - sigma) * Rprod n (fac_d n e) /\
      (forall i, (i < n)%nat -> fac_d n e' i <= fac_d n e i)).
Proof.
  intros V Hg Hnz.
  destruct (score n e g strategy (svalid_wf _ _ V) Hg)
    as (e' & st & rho & sigma & delta & w & z & q & om & Hw & Hz & Hom & Hq & Hstr & Er & Hwf & Et & Hh & _ & _ & Hr0 & Hs).
  pose proof (sv_kap _ _ V) as Hk. pose proof (sv_diag _ _ V) as HD.
  assert (Ho : 0 < om) by (rewrite Hom; eapply g_nonzero_omega; eauto).
  exists e', st, rho, sigma, delta. split; auto. split; [rewrite Et; nra|]. split; [rewrite Et; auto|]. split.
  { intros Hne. destruct (Hr0 Hne) as (A1 & A2 & A3 & A4). destruct Hwf as (W1 & (W2 & W3 & W4) & W5). constructor; auto.
    - rewrite Hh. exact (sv_calc _ _ V).
    - intros i Hi. rewrite A3 by auto. auto.
    - rewrite A2. auto. }
  intros -> Hsg Hdl. destruct (Hs eq_refl) as (A1 & A2 & A3 & A4). cbv zeta in A3.
  set (t := fun i => om / (sigma / (1 - sigma)) + Rsum i (fun i => fac_d n e i * (w i * w i))) in *.
  assert (Ht0 : 0 < om / (sigma / (1 - sigma))).
  { apply Rdiv_lt_0_compat; auto. apply Rdiv_lt_0_compat; lra. }
  assert (Hterm : forall i, (i < n)%nat -> 0 <= fac_d n e i * (w i * w i)) by (intros i Hi; pose proof (HD i Hi); nra).
  assert (Ht : forall i, (i <= n)%nat -> 0 < t i).
  { intros i Hi. unfold t. assert (0 <= Rsum i (fun i => fac_d n e i * (w i * w i))) by (apply Rsum_nonneg; intros; apply Hterm; lia). lra. }
  assert (Hr : forall i, (i < n)%nat -> 0 < t i / t (S i) <= 1).
  { intros i Hi. pose proof (Ht i ltac:(lia)). pose proof (Ht (S i) ltac:(lia)). split; [apply Rdiv_lt_0_compat; auto|].
    apply Rmult_le_reg_r with (t (S i)); auto. unfold Rdiv. rewrite Rmult_assoc, Rinv_l by lra.
    pose proof (Hterm i Hi). change (t (S i)) with (om / (sigma / (1 - sigma)) + (Rsum i (fun i => fac_d n e i * (w i * w i)) + fac_d n e i * (w i * w i))).
    unfold t. lra. }
  split.
  { destruct Hwf as (W1 & (W2 & W3 & W4) & W5). constructor; auto.
    - rewrite Hh. exact (sv_calc _ _ V).
    - intros i Hi. rewrite A3 by auto. apply Rmult_lt_0_compat; auto. apply Hr. auto.
    - rewrite A1. nra. }
  split; auto. split.
  - rewrite (Rprod_ext n _ _ A3). rewrite Rprod_telescope by auto. rewrite Rmult_comm. f_equal.
    unfold t. simpl Rsum. rewrite <- Hom. field. repeat split; lra.
  - intros i Hi. rewrite A3 by auto. pose proof (HD i Hi). rewrite <- (Rmult_1_r (fac_d n e i)) at 2. apply Rmult_le_compat_l; [lra|apply Hr; auto].
Qed.

(** ** rejected cuts *)
Lemma stable_rejected {N : Num} {C} (ct : CutType N C) m n (e : EllStable N) g c e' st : stable_wf n e -> length (adata g) = n ->
  apply_stable ct m e (g, c) = Ok (e', st) -> st <> Success ->
  s_xc e' = s_xc e /\ s_kappa e' = s_kappa e /\ s_helper e' = s_helper e /\
  (forall i j, (i <= j)%nat -> (j < n)%nat -> sget n e' i j = sget n e i j) /\
  forall C2 (ct2 : CutType N C2) m2 g2 c2, length (adata g2) = n -> apply_stable ct2 m2 e' (g2, c2) = apply_stable ct2 m2 e (g2, c2).
Proof.
  intros Hw Lg E Hst. rewrite apply_stable_core in E.
  destruct (stable_update_core_ok n e g (calc_of ct m (s_helper e) c) Hw Lg)
    as (e2 & st2 & rho & sigma & delta & w & z & q & om & _ & _ & _ & _ & _ & E2 & Hw2 & _ & Hh & _ & _ & _ & Hr & _).
  rewrite E in E2. inversion E2; subst e2 st2. destruct (Hr Hst) as (A1 & A2 & A3).
  split; auto. split; auto. split; auto. split; auto. intros C2 ct2 m2 g2 c2 L2. rewrite !apply_stable_core. rewrite Hh.
  apply (core_scratch n); auto. split; auto.
Qed.

(** ** diagonal factors stay diagonal *)
Definition fdiag (n : nat) (e : EllStable RNum) : Prop := forall i j, (i < j)%nat -> (j < n)%nat -> fac_u n e i j = 0.

Lemma diag_step {C} (ct : CutType RNum C) m n e g c : stable_wf n e -> fdiag n e -> vecn n g ->
  exists e' st, apply_stable ct m e (g, c) = Ok (e', st) /\ stable_wf n e' /\ fdiag n e'.
Proof.
  intros Hw Hd Hg. rewrite apply_stable_core.
  destruct (score n e g (calc_of ct m (s_helper e) c) Hw Hg)
    as (e' & st & rho & sigma & delta & w & z & q & om & _ & _ & _ & _ & _ & Er & Hwf & _ & _ & _ & _ & Hr & Hs).
  exists e', st. split; auto. split; auto.
  destruct (is_success st) eqn:B.
  - assert (st = Success) by (destruct st; auto; discriminate). destruct (Hs H) as (_ & _ & _ & A). cbv zeta in A.
    intros i j Hij Hj. rewrite A by auto. rewrite Hd by auto. ring.
  - assert (st <> Success) by (intros ->; discriminate). destruct (Hr H) as (_ & _ & _ & A).
    intros i j Hij Hj. rewrite A by auto. auto.
Qed.
Lemma diag_run {C} (ct : CutType RNum C) n cuts : forall e, stable_wf n e -> fdiag n e ->
  Forall (fun mc => vecn n (fst (snd mc))) cuts ->
  exists e' log, run_stable ct e cuts = Ok (e', log) /\ stable_wf n e' /\ fdiag n e'.
Proof.
  induction cuts as [|[m [g c]] cuts IH]; intros e Hw Hd Hc; simpl.
  - eexists. eexists. split; [reflexivity|]. auto.
  - inversion Hc as [|? ? H1 H2]; subst. simpl in H1.
    destruct (diag_step ct m n e g c Hw Hd H1) as (e1 & st & E & Hw1 & Hd1). rewrite E. simpl.
    destruct (IH e1 Hw1 Hd1 H2) as (e2 & log & -> & Hw2 & Hd2). simpl. eexists. eexists. split; [reflexivity|]. auto.
Qed.
Lemma stable_new_scalar_ok n (val : R) (xc : Arr RNum) : (0 < n)%nat -> length (adata xc) = n ->
  exists e, stable_new_with_scalar (N := RNum) val xc = Ok e /\ stable_wf n e /\ fdiag n e /\
    s_xc e = xc /\ s_kappa e = val /\ s_helper e = calc_new (N := RNum) n /\ forall i, (i < n)%nat -> fac_d n e i = 1.
Proof.
  intros Hn Lx. unfold stable_new_with_scalar, a_len. rewrite Lx.
  destruct (a_eye_ok (N := RNum) n) as (d & -> & Ld & Hd). cbn [bind]. eexists. split; [reflexivity|].
  split. { split; auto. split; [split; auto|auto]. }
  split. { intros i j Hij Hj. unfold fac_u. cbn [stable_new_with_matrix s_mq adata]. etransitivity; [exact (Hd i j ltac:(lia) Hj)|].
    destruct (Nat.eqb_spec i j); [lia|reflexivity]. }
  do 2 (split; [reflexivity|]). split. { cbn [stable_new_with_matrix s_helper]. unfold a_len. now rewrite Lx. }
  intros i Hi. etransitivity; [exact (Hd i i Hi Hi)|]. rewrite Nat.eqb_refl. reflexivity.
Qed.
Lemma stable_new_ok n (val xc : Arr RNum) : (0 < n)%nat -> vecn n val -> length (adata xc) = n ->
  exists e, stable_new (N := RNum) val xc = Ok e /\ stable_wf n e /\ fdiag n e /\
    s_xc e = xc /\ s_kappa e = 1 /\ s_helper e = calc_new (N := RNum) n /\ forall i, (i < n)%nat -> fac_d n e i = coords val i.
Proof.
  intros Hn Hv Lx. unfold stable_new.
  destruct (a_from_diag_ok (N := RNum) n val Hv) as (d & -> & Ld & Hd). cbn [bind]. eexists. split; [reflexivity|].
  split. { split; auto. split; [split; auto|auto]. }
  split. { intros i j Hij Hj. unfold fac_u. cbn [stable_new_with_matrix s_mq adata]. etransitivity; [exact (Hd i j ltac:(lia) Hj)|].
    destruct (Nat.eqb_spec i j); [lia|reflexivity]. }
  do 2 (split; [reflexivity|]). split. { cbn [stable_new_with_matrix s_helper]. unfold a_len. now rewrite Lx. }
  intros i Hi. etransitivity; [exact (Hd i i Hi Hi)|]. rewrite Nat.eqb_refl. reflexivity.
Qed.

(** ** following Ell while the factors are diagonal *)
Record tracks (n : nat) (e : EllStable RNum) (E : Ell RNum) : Prop := {
  tk_wf : stable_wf n e;
  tk_ewf : ell_wf n E;
  tk_diag : fdiag n e;
  tk_shape : forall i j, (i < n)%nat -> (j < n)%nat -> shape n E i j = diag (fac_d n e) i j;
  tk_xc : s_xc e = e_xc E;
  tk_kap : s_kappa e = e_kappa E;
  tk_h : s_helper e = e_helper E;
  tk_nd : e_no_defer E = false }.

Lemma calc_of_core {N : Num} {C} (ct : CutType N C) m (E : Ell N) c : cut_core ct m E c = calc_of ct m (e_helper E) c.
Proof. destruct m; reflexivity. Qed.
Lemma tracks_sym n e E : tracks n e E -> sym n (shape n E).
Proof. intros T i j Hi Hj. rewrite !(tk_shape _ _ _ T) by auto. exact (diag_sym n _ i j Hi Hj). Qed.
Lemma tracks_quad n e E g : tracks n e E -> quad n (shape n E) g = Rsum n (fun i => fac_d n e i * (g i * g i)).
Proof. intros T. rewrite (quad_ext n _ (diag (fac_d n e)) g g) by (auto; exact (tk_shape _ _ _ T)). apply diag_quad. Qed.
Lemma tracks_mv n e E g i : tracks n e E -> (i < n)%nat -> mulmv n (shape n E) g i = fac_d n e i * g i.
Proof. intros T Hi. rewrite (mulmv_ext n _ (diag (fac_d n e)) g g) by (auto; intros; apply (tk_shape _ _ _ T); auto). now apply diag_mv. Qed.

Lemma tracks_step {C} (ct : CutType RNum C) m n e E g c : tracks n e E -> vecn n g ->
  exists e' E' st, apply_stable ct m e (g, c) = Ok (e', st) /\ apply_cut ct m E (g, c) = Ok (E', st) /\
    s_tsq e' = e_tsq E' /\ s_xc e' = e_xc E' /\ s_kappa e' = e_kappa E' /\
    ((exists k, (k < n)%nat /\ 0 < fac_d n e k /\ coords g k <> 0 /\ forall i, (i < n)%nat -> i <> k -> coords g i = 0) ->
     (forall rho sigma delta, calc_of ct m (s_helper e) c (e_tsq E') = (Success, (rho, sigma, delta)) -> 0 < sigma < 1) ->
     tracks n e' E' /\ (forall i, (i < n)%nat -> 0 < fac_d n e i -> 0 < fac_d n e' i)).
Proof.
  intros T Hg. rewrite apply_stable_core, apply_cut_core, calc_of_core.
  destruct (score n e g (calc_of ct m (s_helper e) c) (tk_wf _ _ _ T) Hg)
    as (e' & st & rho & sigma & delta & w & z & q & om & Hw & Hz & Hom & Hq & Hstr & Er & Hwf & Et & Hh & Hr1 & Hr2 & Hr & Hs).
  assert (Ew : forall i, (i < n)%nat -> w i = coords g i).
  { intros i Hi. rewrite Hw by auto. rewrite Rsum_zero; [ring|]. intros j Hj. rewrite (tk_diag _ _ _ T) by auto. ring. }
  assert (Eq : forall i, (i < n)%nat -> q i = fac_d n e i * coords g i).
  { intros i Hi. rewrite Hq by auto. rewrite Rsum_zero; [rewrite Hz, Ew by auto; ring|]. intros j Hj. destruct (Nat.ltb_spec i j); auto.
    rewrite (tk_diag _ _ _ T) by auto. ring. }
  assert (Eom : om = quad n (shape n E) (coords g)).
  { rewrite (tracks_quad _ e) by auto. rewrite Hom. apply Rsum_ext. intros i Hi. now rewrite Ew by auto. }
  assert (Ets : s_kappa e * om = width2 n E g). { unfold width2, kap. rewrite (tk_kap _ _ _ T), Eom. reflexivity. }
  destruct (ell_core n E g (calc_of ct m (e_helper E) c) (tk_ewf _ _ _ T) (tracks_sym _ _ _ T) Hg)
    as (E' & st2 & rho2 & sigma2 & delta2 & Hstr2 & Er2 & Hrej & Hsuc).
  assert (Hcalc : calc_of ct m (e_helper E) c (width2 n E g) = (st, (rho, sigma, delta))).
  { rewrite <- Ets, <- (tk_h _ _ _ T). exact Hstr. }
  rewrite Hcalc in Hstr2. inversion Hstr2; subst st2 rho2 sigma2 delta2. clear Hstr2.
  exists e', E', st. split; auto. split; auto.
  destruct (is_success st) eqn:B.
  - assert (st = Success) by (destruct st; auto; discriminate). subst st.
    destruct (Hs eq_refl) as (A1 & A2 & A3 & A4). cbv zeta in A3.
    pose proof (Hsuc eq_refl) as (S1 & S2 & S3 & S4 & S5 & S6). rewrite (tk_nd _ _ _ T) in S6. destruct S6 as [S6 S7].
    assert (Etsq : s_tsq e' = e_tsq E'). { rewrite Et, Ets. now symmetry. }
    assert (Ex : s_xc e' = e_xc E').
    { destruct (ell_update_core_ok (N := RNum) n E g (calc_of ct m (e_helper E) c) (tk_ewf _ _ _ T) Hg)
        as (E2 & st2 & r2 & s2 & d2 & _ & Er3 & Hw2 & _ & _ & _ & Ra & Ca & _).
      rewrite Er2 in Er3. inversion Er3; subst E2.
      apply (arr_ext _ _ n).
      - apply Hwf.
      - apply Hw2.
      - rewrite Hr1, Ra. now rewrite (tk_xc _ _ _ T).
      - rewrite Hr2, Ca. now rewrite (tk_xc _ _ _ T).
      - intros i Hi. pose proof (A2 i Hi) as B1. pose proof (S5 i Hi) as B2. unfold scentre, centre in *. rewrite B1, B2.
        rewrite Eq, (tracks_mv n e E) by auto. rewrite <- Eom. rewrite (tk_xc _ _ _ T). reflexivity. }
    split; auto. split; auto. split; [rewrite A1, (tk_kap _ _ _ T); symmetry; exact S6|].
    intros (k & Hk & HDk & Hgk & Hg0) Hsig.
    assert (Hs01 : 0 < sigma < 1).
    { apply (Hsig rho sigma delta). rewrite <- Etsq, Et. exact Hstr. }
    assert (Ho : om = fac_d n e k * (coords g k * coords g k)).
    { rewrite Hom. rewrite (Rsum_one n k); auto. { now rewrite Ew. } intros i Hi Hne. rewrite Ew by auto. rewrite Hg0 by auto. ring. }
    assert (Hgg : 0 < coords g k * coords g k). { apply Rsqr_pos_lt in Hgk. exact Hgk. }
    assert (Hop : 0 < om) by (rewrite Ho; apply Rmult_lt_0_compat; auto).
    set (t := fun i => om / (sigma / (1 - sigma)) + Rsum i (fun i => fac_d n e i * (w i * w i))) in *.
    assert (Ht0 : 0 < om / (sigma / (1 - sigma))). { apply Rdiv_lt_0_compat; auto. apply Rdiv_lt_0_compat; lra. }
    assert (Hsum : forall i, (i <= n)%nat -> Rsum i (fun i => fac_d n e i * (w i * w i)) = if (k <? i)%nat then om else 0).
    { intros i Hi. destruct (Nat.ltb_spec k i).
      - rewrite Ho. rewrite (Rsum_one i k) by (auto; intros a Ha Hne; rewrite Ew by lia; rewrite Hg0 by lia; ring). now rewrite Ew.
      - apply Rsum_zero. intros a Ha. rewrite Ew by lia. rewrite Hg0 by lia. ring. }
    assert (HD' : forall i, (i < n)%nat -> fac_d n e' i = fac_d n e i * (if (i =? k)%nat then 1 - sigma else 1)).
    { intros i Hi. rewrite A3 by auto. f_equal. unfold t. rewrite !Hsum by lia.
      destruct (Nat.eqb_spec i k) as [->|Ne].
      - rewrite Nat.ltb_irrefl. destruct (Nat.ltb_spec k (S k)); [|lia]. field. lra.
      - destruct (Nat.ltb_spec k i), (Nat.ltb_spec k (S i)); try lia; field; lra. }
    split.
    + constructor; auto.
      * intros i j Hij Hj. cbv zeta in A4. rewrite A4 by auto. rewrite (tk_diag _ _ _ T) by auto. ring.
      * intros i j Hi Hj. rewrite S7 by auto. unfold rank1. rewrite (tk_shape _ _ _ T) by auto.
        rewrite !(tracks_mv n e E) by auto. rewrite <- Eom. unfold diag. rewrite HD' by auto.
        destruct (Nat.eqb_spec i j) as [->|Nij].
        -- destruct (Nat.eqb_spec j k) as [->|Njk].
           ++ rewrite Ho. field. split; [|lra]. lra.
           ++ rewrite (Hg0 j) by auto. field. lra.
        -- assert (coords g i * coords g j = 0).
           { destruct (Nat.eq_dec i k) as [->|]; [rewrite (Hg0 j) by auto|rewrite (Hg0 i) by auto]; ring. }
           replace (fac_d n e i * coords g i * (fac_d n e j * coords g j)) with (fac_d n e i * fac_d n e j * (coords g i * coords g j)) by ring.
           replace (sigma / om * (fac_d n e i * coords g i) * (fac_d n e j * coords g j)) with (sigma / om * fac_d n e i * fac_d n e j * (coords g i * coords g j)) by ring.
           rewrite H. ring.
      * rewrite A1, (tk_kap _ _ _ T). symmetry. exact S6.
      * rewrite Hh, (tk_h _ _ _ T). now symmetry.
      * rewrite S3. exact (tk_nd _ _ _ T).
    + intros i Hi HDi. rewrite HD' by auto. apply Rmult_lt_0_compat; auto. destruct (i =? k)%nat; lra.
  - assert (Hne : st <> Success) by (intros ->; discriminate). destruct (Hr Hne) as (A1 & A2 & A3 & A4).
    rewrite (Hrej Hne). cbn [e_tsq e_xc e_kappa].
    split; [rewrite Et; exact Ets|]. split; [rewrite A1; exact (tk_xc _ _ _ T)|]. split; [rewrite A2; exact (tk_kap _ _ _ T)|].
    intros _ _. split.
    + constructor; auto; cbn [e_xc e_kappa e_helper e_no_defer].
      * exact (tk_ewf _ _ _ T).
      * intros i j Hij Hj. rewrite A4 by auto. now apply (tk_diag _ _ _ T).
      * intros i j Hi Hj. change (shape n E i j = diag (fac_d n e') i j). rewrite (tk_shape _ _ _ T) by auto. unfold diag.
        destruct (i =? j)%nat; auto. now rewrite A3.
      * rewrite A1. exact (tk_xc _ _ _ T).
      * rewrite A2. exact (tk_kap _ _ _ T).
      * rewrite Hh. exact (tk_h _ _ _ T).
      * exact (tk_nd _ _ _ T).
    + intros i Hi HDi. now rewrite A3.
Qed.
