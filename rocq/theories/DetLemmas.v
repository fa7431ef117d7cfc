(** Determinants: column operations, elimination, rank-one changes, bounds. *)
From Coq Require Import Reals Arith List Lia Lra.
From Verif Require Import Spec RealLin Det.
Open Scope R_scope.

Lemma det_ext n : forall M M', (forall i j, (i < n)%nat -> (j < n)%nat -> M i j = M' i j) -> det n M = det n M'.
Proof.
  induction n as [|n IH]; intros M M' H; [reflexivity|]. cbn [det]. apply Rsum_ext. intros j Hj.
  rewrite H by lia. rewrite (IH (minor M j) (minor M' j)); auto. intros i l Hi Hl. unfold minor. apply H; [lia|].
  destruct (Nat.ltb_spec l j); lia.
Qed.
Lemma Rsum_two n j f : (S j < n)%nat -> (forall i, (i < n)%nat -> i <> j -> i <> S j -> f i = 0) -> Rsum n f = f j + f (S j).
Proof.
  intros Hj H.
  rewrite (Rsum_ext n f (fun i => (if Nat.eqb i j then f j else 0) + (if Nat.eqb i (S j) then f (S j) else 0))).
  - rewrite Rsum_plus. rewrite (Rsum_one n j), (Rsum_one n (S j)); try lia.
    + now rewrite !Nat.eqb_refl.
    + intros i Hi Hne. destruct (Nat.eqb_spec i (S j)); [lia|auto].
    + intros i Hi Hne. destruct (Nat.eqb_spec i j); [lia|auto].
  - intros i Hi. destruct (Nat.eqb_spec i j) as [->|H1].
    + destruct (Nat.eqb_spec j (S j)); [lia|]. ring.
    + destruct (Nat.eqb_spec i (S j)) as [->|H2]; [ring|]. rewrite H by auto. ring.
Qed.

Definition setcol (M : mtx) (j : nat) (v : vec) : mtx := fun i l => if Nat.eqb l j then v i else M i l.
Lemma setcol_other M j v i l : l <> j -> setcol M j v i l = M i l.
Proof. intros H. unfold setcol. destruct (Nat.eqb_spec l j); [lia|auto]. Qed.
Lemma minor_setcol_same M j v i l : minor (setcol M j v) j i l = minor M j i l.
Proof.
  unfold minor, setcol. destruct (Nat.ltb_spec l j).
  - destruct (Nat.eqb_spec l j); [lia|auto].
  - destruct (Nat.eqb_spec (S l) j); [lia|auto].
Qed.
Lemma minor_setcol_other M j q v i l : q <> j ->
  minor (setcol M j v) q i l = setcol (minor M q) (if Nat.ltb j q then j else (j - 1)%nat) (fun i => v (S i)) i l.
Proof.
  intros Hq. unfold minor, setcol. destruct (Nat.ltb_spec j q), (Nat.ltb_spec l q).
  - reflexivity.
  - destruct (Nat.eqb_spec (S l) j), (Nat.eqb_spec l j); try lia; auto.
  - destruct (Nat.eqb_spec l j), (Nat.eqb_spec l (j - 1)); try lia; auto.
  - destruct (Nat.eqb_spec (S l) j), (Nat.eqb_spec l (j - 1)); try lia; auto.
Qed.
Lemma det_col_lin n : forall M j u v a b, (j < n)%nat ->
  det n (setcol M j (fun i => a * u i + b * v i)) = a * det n (setcol M j u) + b * det n (setcol M j v).
Proof.
  induction n as [|n IH]; intros M j u v a b Hj; [lia|]. cbn [det]. rewrite <- !Rsum_scal, <- Rsum_plus. apply Rsum_ext. intros q Hq.
  destruct (Nat.eq_dec q j) as [->|Hne].
  - rewrite !(det_ext n (minor (setcol M j _) j) (minor M j)) by (intros; apply minor_setcol_same).
    unfold setcol. rewrite Nat.eqb_refl. ring.
  - rewrite !(det_ext n (minor (setcol M j _) q) _ (fun i l _ _ => minor_setcol_other M j q _ i l Hne)).
    rewrite (IH (minor M q) (if Nat.ltb j q then j else (j - 1)%nat) (fun i => u (S i)) (fun i => v (S i)) a b)
      by (destruct (Nat.ltb_spec j q); lia).
    rewrite !(setcol_other M j _ 0 q Hne). ring.
Qed.
Lemma det_adj n : forall M j, (S j < n)%nat -> (forall i, (i < n)%nat -> M i j = M i (S j)) -> det n M = 0.
Proof.
  induction n as [|n IH]; intros M j Hj H; [lia|]. cbn [det].
  assert (Z : forall q, (q < S n)%nat -> q <> j -> q <> S j -> det n (minor M q) = 0).
  { intros q Hq H1 H2. apply (IH (minor M q) (if Nat.ltb (S j) q then j else (j - 1)%nat)); [destruct (Nat.ltb_spec (S j) q); lia|].
    intros i Hi. unfold minor. destruct (Nat.ltb_spec (S j) q).
    - destruct (Nat.ltb_spec j q); [|lia]. destruct (Nat.ltb_spec (S j) q); [|lia]. apply H; lia.
    - destruct (Nat.ltb_spec (j - 1) q), (Nat.ltb_spec (S (j - 1)) q); try lia.
      replace (S (j - 1)) with j by lia. apply H; lia. }
  rewrite (Rsum_two (S n) j); [|lia|intros q Hq H1 H2; rewrite Z by auto; ring].
  rewrite (det_ext n (minor M (S j)) (minor M j)).
  - rewrite (H 0%nat) by lia. cbn [pow]. ring.
  - intros i l Hi Hl. unfold minor. destruct (Nat.ltb_spec l (S j)), (Nat.ltb_spec l j); auto; try lia.
    replace l with j by lia. apply H. lia.
Qed.
Definition swap_adj (M : mtx) (j : nat) : mtx := setcol (setcol M j (fun i => M i (S j))) (S j) (fun i => M i j).
Lemma setcol_comm M j k u v i l : j <> k -> setcol (setcol M j u) k v i l = setcol (setcol M k v) j u i l.
Proof. intros H. unfold setcol. destruct (Nat.eqb_spec l k), (Nat.eqb_spec l j); auto; lia. Qed.
Lemma det_swap_adj n M j : (S j < n)%nat -> det n (swap_adj M j) = - det n M.
Proof.
  intros Hj. set (u := fun i => M i j). set (v := fun i => M i (S j)).
  set (D := fun x y : vec => det n (setcol (setcol M j x) (S j) y)).
  assert (L2 : forall x y z, D x (fun i => 1 * y i + 1 * z i) = D x y + D x z).
  { intros x y z. unfold D. rewrite det_col_lin by lia. ring. }
  assert (L1 : forall x y z, D (fun i => 1 * x i + 1 * y i) z = D x z + D y z).
  { intros x y z. unfold D. rewrite !(det_ext n (setcol (setcol M j _) (S j) z) _ (fun i l _ _ => setcol_comm M j (S j) _ z i l (Nat.neq_succ_diag_r j))).
    rewrite det_col_lin by lia. ring. }
  assert (Z : forall x, D x x = 0).
  { intros x. unfold D. apply (det_adj n _ j Hj). intros i Hi. unfold setcol. rewrite !Nat.eqb_refl.
    destruct (Nat.eqb_spec j (S j)); [lia|]. reflexivity. }
  pose proof (Z (fun i => 1 * u i + 1 * v i)) as H. rewrite L1, !L2, !Z in H.
  assert (E : D u v = det n M).
  { unfold D. apply det_ext. intros i l _ _. unfold setcol, u, v. destruct (Nat.eqb_spec l (S j)) as [->|]; auto.
    destruct (Nat.eqb_spec l j) as [->|]; auto. }
  change (det n (swap_adj M j)) with (D v u). lra.
Qed.
Lemma det_eq_col0 n j : forall M, (0 < j < n)%nat -> (forall i, (i < n)%nat -> M i j = M i 0%nat) -> det n M = 0.
Proof.
  induction j as [|j IH]; intros M Hj H; [lia|]. destruct (Nat.eq_dec j 0) as [->|Hne].
  - apply (det_adj n M 0); [lia|]. intros i Hi. symmetry. auto.
  - pose proof (det_swap_adj n M j ltac:(lia)) as Hs. rewrite (IH (swap_adj M j)) in Hs; [lra|lia|].
    intros i Hi. unfold swap_adj, setcol. rewrite Nat.eqb_refl. destruct (Nat.eqb_spec j (S j)); [lia|].
    destruct (Nat.eqb_spec 0 (S j)); [lia|]. destruct (Nat.eqb_spec 0 j); [lia|]. auto.
Qed.
Lemma det_addcol n M j c : (0 < j < n)%nat -> det n (setcol M j (fun i => M i j - c * M i 0%nat)) = det n M.
Proof.
  intros Hj. rewrite (det_ext n _ (setcol M j (fun i => 1 * M i j + (- c) * M i 0%nat))).
  - rewrite (det_col_lin n M j (fun i => M i j) (fun i => M i 0%nat)) by lia. rewrite (det_eq_col0 n j (setcol M j (fun i => M i 0%nat))).
    + rewrite (det_ext n (setcol M j (fun i => M i j)) M); [ring|].
      intros i l _ _. unfold setcol. destruct (Nat.eqb_spec l j) as [->|]; auto.
    + lia.
    + intros i Hi. unfold setcol. rewrite Nat.eqb_refl. destruct (Nat.eqb_spec 0 j); [lia|]. reflexivity.
  - intros i l _ _. unfold setcol. destruct (Nat.eqb l j); ring.
Qed.
Lemma det_elim n M (c : nat -> R) : det n (fun i l => if Nat.eqb l 0 then M i l else M i l - c l * M i 0%nat) = det n M.
Proof.
  assert (G : forall k, (k <= n)%nat -> det n (fun i l => if (Nat.ltb 0 l && Nat.ltb l k)%bool then M i l - c l * M i 0%nat else M i l) = det n M).
  { induction k as [|k IH]; intros Hk.
    - apply det_ext. intros i l _ _. now rewrite Bool.andb_false_r.
    - destruct (Nat.eq_dec k 0) as [->|Hk0].
      + apply det_ext. intros i l _ _. destruct (Nat.ltb_spec 0 l), (Nat.ltb_spec l 1); auto; lia.
      + rewrite <- IH by lia. etransitivity; [|apply (det_addcol n _ k (c k)); lia]. apply det_ext. intros i l _ _. unfold setcol.
        destruct (Nat.eqb_spec l k) as [->|Hne].
        * destruct (Nat.ltb_spec 0 k), (Nat.ltb_spec k (S k)), (Nat.ltb_spec k k), (Nat.ltb_spec 0 0); try lia. reflexivity.
        * destruct (Nat.ltb_spec 0 l), (Nat.ltb_spec l k), (Nat.ltb_spec l (S k)); auto; lia. }
  rewrite <- (G n) by lia. apply det_ext. intros i l _ Hl. destruct (Nat.eqb_spec l 0), (Nat.ltb_spec 0 l), (Nat.ltb_spec l n); auto; lia.
Qed.
(** ** Elimination *)
Definition schur (M : mtx) : mtx := fun i j => M (S i) (S j) - M 0%nat (S j) / M 0%nat 0%nat * M (S i) 0%nat.
Lemma det_schur n M : M 0%nat 0%nat <> 0 -> det (S n) M = M 0%nat 0%nat * det n (schur M).
Proof.
  intros H. rewrite <- (det_elim (S n) M (fun l => M 0%nat l / M 0%nat 0%nat)). cbn [det].
  rewrite (Rsum_one (S n) 0); [|lia|].
  - cbn [pow Nat.eqb]. rewrite Rmult_1_l. f_equal.
  - intros i Hi Hne. destruct (Nat.eqb_spec i 0); [lia|].
    replace (M 0%nat i - M 0%nat i / M 0%nat 0%nat * M 0%nat 0%nat) with 0 by (field; auto). ring.
Qed.
Lemma Rsum_first n f : Rsum (S n) f = f 0%nat + Rsum n (fun i => f (S i)).
Proof. induction n as [|n IH]; [simpl; ring|]. cbn [Rsum] in *. rewrite IH. ring. Qed.

Section Schur.
Variables (n : nat) (M : mtx).
Hypothesis HM : sym (S n) M.
Notation a := (M 0%nat 0%nat).
Notation v := (fun i => M 0%nat (S i)).
Notation B := (fun i j => M (S i) (S j)).
Notation tl := (fun (x : vec) i => x (S i)).
Lemma mv_head x : mulmv (S n) M x 0%nat = a * x 0%nat + dot n v (tl x).
Proof. unfold mulmv. now rewrite Rsum_first. Qed.
Lemma mv_tail x i : (i < n)%nat -> mulmv (S n) M x (S i) = v i * x 0%nat + mulmv n B (tl x) i.
Proof. intros Hi. unfold mulmv. rewrite Rsum_first. rewrite (HM (S i) 0%nat) by lia. reflexivity. Qed.
Lemma quad_split x : quad (S n) M x = a * (x 0%nat * x 0%nat) + 2 * x 0%nat * dot n v (tl x) + quad n B (tl x).
Proof.
  unfold quad at 1. unfold dot at 1. rewrite Rsum_first, mv_head.
  rewrite (Rsum_ext n _ (fun i => x 0%nat * (v i * x (S i)) + x (S i) * mulmv n B (tl x) i)) by
    (intros i Hi; rewrite mv_tail by auto; ring).
  rewrite Rsum_plus, Rsum_scal. unfold quad, dot. ring.
Qed.
Hypothesis Ha : a <> 0.
Lemma schur_rank1 i j : (i < n)%nat -> (j < n)%nat -> schur M i j = rank1 B (/ a) v i j.
Proof. intros Hi Hj. unfold schur, rank1. rewrite (HM (S i) 0%nat) by lia. field. auto. Qed.
Lemma schur_sym : sym n (schur M).
Proof.
  intros i j Hi Hj. unfold schur. rewrite (HM (S i) (S j)), (HM (S i) 0%nat), (HM (S j) 0%nat) by lia. field. auto.
Qed.
Lemma schur_quad y : quad n (schur M) y = quad n B y - dot n v y * dot n v y / a.
Proof.
  rewrite (quad_ext n (schur M) (rank1 B (/ a) v) y y); [|exact schur_rank1|auto].
  rewrite rank1_quad. field. auto.
Qed.
Lemma quad_schur x : quad (S n) M x = mulmv (S n) M x 0%nat * mulmv (S n) M x 0%nat / a + quad n (schur M) (tl x).
Proof. rewrite quad_split, schur_quad, mv_head. field. auto. Qed.
(** the vector that minimises the quadratic form given its tail *)
Definition lift (y : vec) : vec := fun i => match i with O => - dot n v y / a | S k => y k end.
Lemma lift_quad y : quad (S n) M (lift y) = quad n (schur M) y.
Proof.
  rewrite quad_schur, mv_head. cbn [lift]. change (fun i => y i) with y.
  replace (a * (- dot n v y / a) + dot n v y) with 0 by (field; auto). change (fun i => lift y (S i)) with y. field. auto.
Qed.
End Schur.
Lemma pd_corner n M : pd (S n) M -> 0 < M 0%nat 0%nat.
Proof.
  intros H. specialize (H (fun i => if Nat.eqb i 0 then 1 else 0) ltac:(exists 0%nat; split; [lia|simpl; lra])).
  unfold quad, dot in H. rewrite Rsum_first in H. cbn [Nat.eqb] in H. rewrite Rsum_zero in H by (intros; ring).
  unfold mulmv in H. rewrite Rsum_first in H. cbn [Nat.eqb] in H. rewrite Rsum_zero in H by (intros; ring). lra.
Qed.
Lemma schur_pd n M : sym (S n) M -> pd (S n) M -> pd n (schur M).
Proof.
  intros Hs Hp y (i & Hi & Hy). pose proof (pd_corner _ _ Hp). rewrite <- (lift_quad n M Hs) by lra.
  apply Hp. exists (S i). split; [lia|exact Hy].
Qed.
Lemma det_pos n : forall M, sym n M -> pd n M -> 0 < det n M.
Proof.
  induction n as [|n IH]; intros M Hs Hp; [simpl; lra|]. pose proof (pd_corner _ _ Hp).
  rewrite det_schur by lra. apply Rmult_lt_0_compat; auto. apply IH; [apply schur_sym; auto; lra|apply schur_pd; auto].
Qed.
(** a matrix above r I has determinant at least r^n *)
Lemma det_lower n r : 0 < r -> forall M, sym n M -> (forall x, r * dot n x x <= quad n M x) -> r ^ n <= det n M.
Proof.
  intros Hr. induction n as [|n IH]; intros M Hs H; [simpl; lra|].
  assert (Hp : pd (S n) M).
  { intros x (i & Hi & Hx). eapply Rlt_le_trans; [|apply H]. apply Rmult_lt_0_compat; auto.
    destruct (Rle_lt_or_eq_dec 0 (dot (S n) x x) (dot_self_nonneg _ _)) as [|E]; auto.
    exfalso. apply Hx. eapply dot_self_zero; eauto. }
  pose proof (pd_corner _ _ Hp) as Ha.
  assert (Hc : r <= M 0%nat 0%nat).
  { pose proof (H (fun i => if Nat.eqb i 0 then 1 else 0)) as He. unfold quad, dot in He. rewrite !Rsum_first in He. cbn [Nat.eqb] in He.
    rewrite !Rsum_zero in He by (intros; ring). unfold mulmv in He. rewrite Rsum_first in He. cbn [Nat.eqb] in He.
    rewrite Rsum_zero in He by (intros; ring). lra. }
  rewrite det_schur by lra. cbn [pow].
  assert (IHs : r ^ n <= det n (schur M)).
  { apply IH; [apply schur_sym; auto; lra|]. intros y. rewrite <- (lift_quad n M Hs) by lra.
    eapply Rle_trans; [|apply H]. apply Rmult_le_compat_l; [lra|]. unfold dot. rewrite Rsum_first. cbn [lift].
    match goal with |- _ <= ?q * ?q + _ => pose proof (Rle_0_sqr q) as Hq; unfold Rsqr in Hq end. lra. }
  apply Rmult_le_compat; try lra. apply pow_le. lra.
Qed.
(** det (M - c (M g)(M g)') = (1 - c g'M g) det M *)
Lemma det_rank1 n : forall M g c, sym n M -> pd n M -> c * quad n M g < 1 ->
  det n (rank1 M c (mulmv n M g)) = (1 - c * quad n M g) * det n M.
Proof.
  induction n as [|n IH]; intros M g c Hs Hp Hc; [unfold quad, dot; simpl; ring|].
  pose proof (pd_corner _ _ Hp) as Ha. set (a := M 0%nat 0%nat) in *.
  set (h := mulmv (S n) M g). set (h0 := h 0%nat). set (g1 := fun i => g (S i)).
  pose proof (schur_sym n M Hs ltac:(fold a; lra)) as HsS. pose proof (schur_pd n M Hs Hp) as HpS.
  set (om := quad n (schur M) g1).
  assert (Hom : 0 <= om) by (apply pd_psd; auto).
  assert (Hq : quad (S n) M g = h0 * h0 / a + om) by (apply (quad_schur n M Hs); fold a; lra).
  rewrite Hq in *. set (a' := a - c * h0 * h0).
  assert (Ha' : 0 < a').
  { assert (Hh : 0 <= h0 * h0 / a) by (apply Rmult_le_pos; [apply Rle_0_sqr|left; apply Rinv_0_lt_compat; auto]).
    replace a' with (a * (1 - c * (h0 * h0 / a))) by (unfold a'; field; lra). apply Rmult_lt_0_compat; auto.
    destruct (Rle_or_lt 0 c).
    - assert (0 <= c * om) by (apply Rmult_le_pos; auto). lra.
    - assert (0 <= (- c) * (h0 * h0 / a)) by (apply Rmult_le_pos; lra). lra. }
  set (c' := c * a / a').
  assert (Hk : (1 - c * (h0 * h0 / a + om)) = a' / a * (1 - c' * om)) by (unfold c', a' in *; field; lra).
  assert (Hc' : c' * om < 1).
  { apply Rnot_le_lt. intros Hn. assert (a' / a * (1 - c' * om) <= 0); [|lra].
    assert (0 < a' / a) by (apply Rdiv_lt_0_compat; auto).
    assert (0 <= a' / a * (c' * om - 1)) by (apply Rmult_le_pos; lra). lra. }
  assert (E00 : rank1 M c h 0%nat 0%nat = a') by (unfold rank1, a', a, h0; ring).
  rewrite det_schur by (rewrite E00; lra). rewrite E00.
  rewrite (det_ext n _ (rank1 (schur M) c' (mulmv n (schur M) g1))).
  - rewrite (IH (schur M) g1 c' HsS HpS Hc'). fold om. rewrite (det_schur n M) by (fold a; lra). fold a. rewrite Hk. field. lra.
  - intros i j Hi Hj.
    assert (K : forall i, (i < n)%nat -> h (S i) = mulmv n (schur M) g1 i + M 0%nat (S i) * h0 / a).
    { clear i j Hi Hj. intros i Hi. unfold h. rewrite (mv_tail n M Hs) by auto.
      rewrite (mulmv_ext n (schur M) (rank1 (fun i j => M (S i) (S j)) (/ a) (fun i => M 0%nat (S i))) g1 g1);
        [|intros l Hl; apply (schur_rank1 n M Hs); auto; fold a; lra|auto].
      rewrite rank1_mv. unfold h0, h. rewrite mv_head. fold a. fold g1. field. lra. }
    unfold schur at 1. rewrite E00. unfold rank1 at 1 2 3. rewrite !K by auto. fold h0.
    unfold rank1. set (ki := mulmv n (schur M) g1 i). set (kj := mulmv n (schur M) g1 j).
    unfold schur. rewrite (Hs (S i) 0%nat) by lia. fold a. unfold c'.
    replace (c * (h0 * h0)) with (a - a') by (unfold a'; ring) || idtac.
    unfold a'. field. unfold a' in Ha'. split; lra.
Qed.
Lemma det_scale n t : forall M, det n (fun i j => M i j * t) = t ^ n * det n M.
Proof.
  induction n as [|n IH]; intros M; [simpl; ring|]. cbn [det]. rewrite <- Rsum_scal. apply Rsum_ext. intros j Hj.
  change (minor (fun i j => M i j * t) j) with (fun i l => minor M j i l * t). rewrite IH. cbn [pow]. ring.
Qed.
Lemma det_diag n : forall d, det n (fun i j => if Nat.eqb i j then d i else 0) = fold_right Rmult 1 (map d (seq 0 n)).
Proof.
  induction n as [|n IH]; intros d; [reflexivity|]. cbn [det]. rewrite (Rsum_one (S n) 0); [|lia|].
  - cbn [Nat.eqb pow seq map fold_right]. rewrite <- seq_shift, map_map. rewrite <- IH. rewrite Rmult_1_l. f_equal.
  - intros i Hi Hne. destruct (Nat.eqb_spec 0 i); [lia|]. ring.
Qed.
