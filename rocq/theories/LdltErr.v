(** What a factorisation carried out with small errors says about the matrix: pure
    real-number part of C99. *)
From Coq Require Import Reals Arith Lia Lra Psatz Bool.
From Flocq Require Import Core.Raux.
From Verif Require Import Spec RealLin EllSpec StableSpec StableReal LdltReal FloatErr.
Local Open Scope R_scope.

Section Err.
Variables (n : nat) (A L T : mtx) (D : vec) (u e w W : R).
Hypotheses (Hu : 0 < u) (He : 0 < e) (Heu : e <= u) (Hnu : INR n * u <= 1 / 1000) (Hw : 0 < w) (HW : 1 <= W)
  (Htiny : 100 * INR n * W * e <= u * w) (Hn : (1 <= n)%nat)
  (Hdiag : forall i, (i < n)%nat -> w <= A i i <= W) (TD : forall i, T i i = D i).

Definition row_err (i : nat) : Prop :=
  (forall j, (j < i)%nat -> Rabs (L i j * D j - T j i) <= u * (Rabs (L i j) * D j) + e * D j) /\
  (forall j, (j <= i)%nat -> Rabs (T j i - (A i j - Rsum j (fun m => L i m * T m j))) <=
     u * Rabs (T j i) + 3 * INR j * u * Rsum j (fun m => Rabs (L i m * T m j)) + (4 * INR j + 1) * e).

Definition KK i j := Rsum j (fun k => Rabs (L i k) * D k).
Definition BB i j := Rsum j (fun k => Rabs (L i k) * Rabs (L j k) * D k).
Definition RR i j := Rsum j (fun k => L i k * L i k * D k).

Lemma jn j : (j < n)%nat -> 0 <= INR j /\ INR j + 1 <= INR n.
Proof. intros H. split; [apply pos_INR|]. rewrite <- S_INR. apply le_INR. lia. Qed.
Lemma n1 : 1 <= INR n. Proof. apply (le_INR 1 n) in Hn. exact Hn. Qed.

Lemma T_bound i j : row_err i -> (j < i)%nat -> 0 < D j -> Rabs (T j i) <= (1 + u) * (Rabs (L i j) * D j) + e * D j.
Proof.
  intros [H _] Hj Pd. specialize (H j Hj). replace (T j i) with (L i j * D j - (L i j * D j - T j i)) by ring.
  eapply Rle_trans; [apply Rabs_triang|]. rewrite Rabs_Ropp, Rabs_mult, (Rabs_pos_eq (D j)) by lra. lra.
Qed.
(** the products in the row of [i] and the column of [j] *)
Lemma prod_bound i j : row_err j -> (forall k, (k < j)%nat -> 0 < D k) ->
  Rsum j (fun m => Rabs (L i m * T m j)) <= (1 + u) * BB i j + e * KK i j /\
  Rabs (Rsum j (fun m => L i m * T m j) - Rsum j (fun m => L i m * L j m * D m)) <= u * BB i j + e * KK i j.
Proof.
  intros Hj Pd. unfold BB, KK. rewrite <- !Rsum_scal, <- !Rsum_plus. split.
  - apply Rsum_le. intros k Hk. rewrite Rabs_mult. pose proof (T_bound j k Hj Hk (Pd k Hk)). pose proof (Rabs_pos (L i k)).
    apply Rle_trans with (Rabs (L i k) * ((1 + u) * (Rabs (L j k) * D k) + e * D k)); [apply Rmult_le_compat_l; lra|]. lra.
  - rewrite <- Rsum_minus. eapply Rle_trans; [apply Rabs_Rsum|]. apply Rsum_le. intros k Hk.
    replace (L i k * T k j - L i k * L j k * D k) with (- (L i k * (L j k * D k - T k j))) by ring. rewrite Rabs_Ropp, Rabs_mult.
    destruct Hj as [H _]. specialize (H k Hk). pose proof (Rabs_pos (L i k)).
    apply Rle_trans with (Rabs (L i k) * (u * (Rabs (L j k) * D k) + e * D k)); [apply Rmult_le_compat_l; lra|]. lra.
Qed.
Lemma BB_pos i j : (forall k, (k < j)%nat -> 0 < D k) -> 0 <= BB i j.
Proof. intros Pd. apply Rsum_nonneg. intros k Hk. specialize (Pd k Hk). repeat apply Rmult_le_pos; try apply Rabs_pos; lra. Qed.
Lemma KK_pos i j : (forall k, (k < j)%nat -> 0 < D k) -> 0 <= KK i j.
Proof. intros Pd. apply Rsum_nonneg. intros k Hk. specialize (Pd k Hk). apply Rmult_le_pos; [apply Rabs_pos|lra]. Qed.
Lemma ju j : (j < n)%nat -> 0 <= 3 * INR j * u <= 3 / 1000.
Proof.
  intros Hj. destruct (jn j Hj) as [J0 J1]. split; [apply Rmult_le_pos; lra|]. replace (3 * INR j * u) with (3 * (INR j * u)) by ring.
  assert (INR j * u <= INR n * u) by (apply Rmult_le_compat_r; lra). lra.
Qed.
Lemma u_small : u <= 1 / 1000.
Proof. pose proof n1. assert (1 * u <= INR n * u) by (apply Rmult_le_compat_r; lra). lra. Qed.

Lemma entry_err i j : (i < n)%nat -> (j < i)%nat -> row_err i -> row_err j -> (forall k, (k <= j)%nat -> 0 < D k) ->
  Rabs (A i j - (Rsum j (fun k => L i k * L j k * D k) + L i j * D j)) <=
  3 * (INR j + 1) * u * (BB i j + Rabs (L i j) * D j) + e * (2 * D j + 2 * KK i j + 4 * INR j + 1).
Proof.
  intros Hi Hj Ri Rj Pd. assert (Pd' : forall k, (k < j)%nat -> 0 < D k) by (intros; apply Pd; lia). pose proof (Pd j (le_n j)) as Dj.
  destruct (prod_bound i j Rj Pd') as [P1 P2]. pose proof (BB_pos i j Pd') as B0. pose proof (KK_pos i j Pd') as K0.
  pose proof (T_bound i j Ri Hj Dj) as Tb. destruct Ri as [Q1 Q2]. specialize (Q1 j Hj). specialize (Q2 j ltac:(lia)).
  set (S1 := Rsum j (fun m => L i m * T m j)) in *. set (S2 := Rsum j (fun m => L i m * L j m * D m)) in *. set (S3 := Rsum j (fun m => Rabs (L i m * T m j))) in *.
  set (B := BB i j) in *. set (K := KK i j) in *. set (l := Rabs (L i j) * D j) in *. assert (l0 : 0 <= l) by (apply Rmult_le_pos; [apply Rabs_pos|lra]).
  destruct (ju j ltac:(lia)) as [J0 J1]. pose proof u_small as U.
  assert (E1 : u * Rabs (T j i) <= u * ((1 + u) * l + e * D j)) by (apply Rmult_le_compat_l; lra).
  assert (E2 : 3 * INR j * u * S3 <= 3 * INR j * u * ((1 + u) * B + e * K)) by (apply Rmult_le_compat_l; lra).
  assert (E3 : 3 * INR j * u * (u * B) <= 3 / 1000 * (u * B)) by (apply Rmult_le_compat_r; [apply Rmult_le_pos|]; lra).
  assert (E4 : 3 * INR j * u * (e * K) <= 3 / 1000 * (e * K)) by (apply Rmult_le_compat_r; [apply Rmult_le_pos|]; lra).
  assert (E5 : u * (u * l) <= 1 / 1000 * (u * l)) by (apply Rmult_le_compat_r; [apply Rmult_le_pos|]; lra).
  assert (E6 : u * (e * D j) <= 1 / 1000 * (e * D j)) by (apply Rmult_le_compat_r; [apply Rmult_le_pos|]; lra).
  replace (A i j - (S2 + L i j * D j)) with (- (T j i - (A i j - S1)) + (- (L i j * D j - T j i) + (S1 - S2))) by ring.
  eapply Rle_trans; [apply Rabs_triang|]. rewrite Rabs_Ropp. eapply Rle_trans; [apply Rplus_le_compat_l; apply Rabs_triang|]. rewrite Rabs_Ropp.
  assert (X1 : 0 <= INR j * u * l) by (destruct (jn j ltac:(lia)); apply Rmult_le_pos; [apply Rmult_le_pos; lra|exact l0]).
  assert (X2 : 0 <= u * l) by (apply Rmult_le_pos; lra). assert (X3 : 0 <= u * B) by (apply Rmult_le_pos; lra).
  assert (X4 : 0 <= e * K) by (apply Rmult_le_pos; lra). assert (X5 : 0 <= e * D j) by (apply Rmult_le_pos; lra).
  clear - Q1 Q2 P2 E1 E2 E3 E4 E5 E6 X1 X2 X3 X4 X5. 
  replace (3 * (INR j + 1) * u * (B + l)) with (3 * INR j * u * B + 3 * (INR j * u * l) + 3 * (u * B) + 3 * (u * l)) by ring. lra.
Qed.
Lemma diag_err i : (i < n)%nat -> row_err i -> (forall k, (k < i)%nat -> 0 < D k) ->
  Rabs (A i i - (RR i i + D i)) <= u * Rabs (D i) + (3 * INR i + 2) * u * RR i i + e * (2 * KK i i + 4 * INR i + 1).
Proof.
  intros Hi Ri Pd. destruct (prod_bound i i Ri Pd) as [P1 P2]. pose proof (BB_pos i i Pd) as B0. pose proof (KK_pos i i Pd) as K0.
  destruct Ri as [_ Q2]. specialize (Q2 i (le_n i)). rewrite TD in Q2.
  assert (EB : BB i i = RR i i). { apply Rsum_ext. intros k Hk. rewrite <- Rabs_mult, Rabs_pos_eq by (apply Rle_0_sqr). reflexivity. }
  rewrite EB in *. fold (RR i i) in P2. set (S1 := Rsum i (fun m => L i m * T m i)) in *. set (S3 := Rsum i (fun m => Rabs (L i m * T m i))) in *.
  set (R := RR i i) in *. set (K := KK i i) in *. destruct (ju i Hi) as [J0 J1]. pose proof u_small as U.
  assert (E2 : 3 * INR i * u * S3 <= 3 * INR i * u * ((1 + u) * R + e * K)) by (apply Rmult_le_compat_l; lra).
  assert (E3 : 3 * INR i * u * (u * R) <= 3 / 1000 * (u * R)) by (apply Rmult_le_compat_r; [apply Rmult_le_pos|]; lra).
  assert (E4 : 3 * INR i * u * (e * K) <= 3 / 1000 * (e * K)) by (apply Rmult_le_compat_r; [apply Rmult_le_pos|]; lra).
  replace (A i i - (R + D i)) with (- (D i - (A i i - S1)) + (S1 - R)) by ring.
  eapply Rle_trans; [apply Rabs_triang|]. rewrite Rabs_Ropp.
  assert (X3 : 0 <= u * R) by (apply Rmult_le_pos; lra). assert (X4 : 0 <= e * K) by (apply Rmult_le_pos; lra).
  clear - Q2 P2 E2 E3 E4 X3 X4. lra.
Qed.

(** sizes *)
Lemma DW k : (k < n)%nat -> D k <= A k k -> D k <= W. Proof. intros Hk H. pose proof (Hdiag k Hk). lra. Qed.
Lemma RR_pos i j : (forall k, (k < j)%nat -> 0 < D k) -> 0 <= RR i j.
Proof. intros Pd. apply Rsum_nonneg. intros k Hk. specialize (Pd k Hk). apply Rmult_le_pos; [apply Rle_0_sqr|lra]. Qed.
Lemma KK_R i j : (j <= n)%nat -> (forall k, (k < j)%nat -> 0 < D k <= W) -> 2 * KK i j <= RR i j + INR n * W.
Proof.
  intros Hj Pd. unfold KK, RR. rewrite <- Rsum_scal.
  apply Rle_trans with (Rsum j (fun k => L i k * L i k * D k + W)).
  - apply Rsum_le. intros k Hk. destruct (Pd k Hk) as [P0 P1]. 
    assert (0 <= (Rabs (L i k) - 1) * (Rabs (L i k) - 1) * D k) by (apply Rmult_le_pos; [apply Rle_0_sqr|lra]).
    assert (Ea : Rabs (L i k) * Rabs (L i k) = L i k * L i k) by (rewrite <- Rabs_mult; apply Rabs_pos_eq; apply Rle_0_sqr).
    rewrite <- Ea. lra.
  - rewrite Rsum_plus. apply Rplus_le_compat_l. clear - Hj HW Hn. assert (E : forall m, Rsum m (fun _ => W) = INR m * W) by (induction m; [cbn; ring|cbn [Rsum]; rewrite IHm, S_INR; ring]).
    rewrite E. apply Rmult_le_compat_r; [lra|]. now apply le_INR.
Qed.
Lemma etiny i j : (j < n)%nat -> (forall k, (k < j)%nat -> 0 < D k <= W) -> RR i j <= 2 * W -> e * (2 * W + 2 * KK i j + 4 * INR j + 1) <= u * w / 10.
Proof.
  intros Hj Pd HR. pose proof (KK_R i j ltac:(lia) Pd) as K. pose proof n1 as N1. destruct (jn j Hj) as [J0 J1].
  assert (NW : 1 * W <= INR n * W) by (apply Rmult_le_compat_r; lra). assert (NW2 : INR n * 1 <= INR n * W) by (apply Rmult_le_compat_l; lra).
  assert (H : 2 * W + 2 * KK i j + 4 * INR j + 1 <= 10 * (INR n * W)) by lra.
  apply Rle_trans with (e * (10 * (INR n * W))); [apply Rmult_le_compat_l; lra|]. lra.
Qed.
Lemma diag_err' i : (i < n)%nat -> row_err i -> (forall k, (k < i)%nat -> 0 < D k <= W) ->
  Rabs (A i i - (RR i i + D i)) <= u * Rabs (D i) + 3 * INR n * u * RR i i + u * w / 10.
Proof.
  intros Hi Ri Pd. pose proof (diag_err i Hi Ri ltac:(intros; now apply Pd)) as H. pose proof (KK_R i i ltac:(lia) Pd) as K. pose proof (RR_pos i i ltac:(intros; now apply Pd)) as R0.
  pose proof n1 as N1. destruct (jn i Hi) as [J0 J1].
  assert (NW2 : INR n * 1 <= INR n * W) by (apply Rmult_le_compat_l; lra).
  assert (H1 : e * (2 * KK i i + 4 * INR i + 1) <= e * (RR i i + 10 * (INR n * W))) by (apply Rmult_le_compat_l; lra).
  assert (H2 : e * RR i i <= u * RR i i) by (apply Rmult_le_compat_r; lra).
  assert (H3 : (3 * INR i + 3) * (u * RR i i) <= 3 * INR n * (u * RR i i)) by (apply Rmult_le_compat_r; [apply Rmult_le_pos; lra|lra]).
  lra.
Qed.
(** an accepted row *)
Lemma accepted_size i : (i < n)%nat -> row_err i -> (forall k, (k < i)%nat -> 0 < D k <= W) -> 0 < D i -> RR i i + D i <= 101 / 100 * A i i.
Proof.
  intros Hi Ri Pd Di. pose proof (diag_err' i Hi Ri Pd) as H. pose proof (RR_pos i i ltac:(intros; now apply Pd)) as R0. destruct (Hdiag i Hi) as [A1 A2].
  rewrite (Rabs_pos_eq (D i)) in H by lra. apply Rabs_le_inv in H. pose proof u_small as U.
  assert (U1 : u * D i <= 1 / 1000 * D i) by (apply Rmult_le_compat_r; lra).
  assert (U2 : INR n * u * RR i i <= 1 / 1000 * RR i i) by (apply Rmult_le_compat_r; lra).
  assert (U3 : u * w <= 1 / 1000 * w) by (apply Rmult_le_compat_r; lra).
  lra.
Qed.

(** ** Quadratic forms of nearly equal matrices *)
Lemma Rsum_const m c : Rsum m (fun _ => c) = INR m * c.
Proof. induction m; [cbn; ring|cbn [Rsum]; rewrite IHm, S_INR; ring]. Qed.
Lemma quad_diff m (M : mtx) (A' : mtx) x c : (forall i j, (i < m)%nat -> (j < m)%nat -> x i * x j * (A' i j - M i j) <= c i + c j) ->
  quad m A' x - quad m M x <= 2 * INR m * Rsum m c.
Proof.
  intros H. assert (E : quad m A' x - quad m M x = Rsum m (fun i => Rsum m (fun j => x i * x j * (A' i j - M i j)))).
  { unfold quad, dot, mulmv. rewrite <- Rsum_minus. apply Rsum_ext. intros i Hi. rewrite <- Rmult_minus_distr_l, <- Rsum_minus, <- Rsum_scal.
    apply Rsum_ext. intros. ring. }
  rewrite E. apply Rle_trans with (Rsum m (fun i => Rsum m (fun j => c i + c j))).
  - apply Rsum_le. intros i Hi. apply Rsum_le. intros j Hj. auto.
  - assert (E2 : Rsum m (fun i => Rsum m (fun j => c i + c j)) = Rsum m (fun i => INR m * c i + Rsum m c)).
    { apply Rsum_ext. intros i Hi. rewrite Rsum_plus, Rsum_const. ring. }
    rewrite E2, Rsum_plus, Rsum_scal, Rsum_const. lra.
Qed.
(** one entry, weighted *)
Lemma BB_weighted i j a b : (forall k, (k < j)%nat -> 0 < D k) -> 0 <= a -> 0 <= b -> 2 * (a * b) * BB i j <= a * a * RR i j + b * b * RR j j.
Proof.
  intros Pd Ha Hb. unfold BB, RR. rewrite <- !Rsum_scal, <- Rsum_plus. apply Rsum_le. intros k Hk. specialize (Pd k Hk).
  assert (E1 : Rabs (L i k) * Rabs (L i k) = L i k * L i k) by (rewrite <- Rabs_mult; apply Rabs_pos_eq; apply Rle_0_sqr).
  assert (E2 : Rabs (L j k) * Rabs (L j k) = L j k * L j k) by (rewrite <- Rabs_mult; apply Rabs_pos_eq; apply Rle_0_sqr).
  assert (0 <= (a * Rabs (L i k) - b * Rabs (L j k)) * (a * Rabs (L i k) - b * Rabs (L j k)) * D k) by (apply Rmult_le_pos; [apply Rle_0_sqr|lra]).
  rewrite <- E1, <- E2. lra.
Qed.
Lemma last_weighted i j a b : 0 < D j -> 0 <= a -> 0 <= b -> 2 * (a * b) * (Rabs (L i j) * D j) <= a * a * (L i j * L i j * D j) + b * b * D j.
Proof.
  intros Pd Ha Hb.
  assert (E1 : Rabs (L i j) * Rabs (L i j) = L i j * L i j) by (rewrite <- Rabs_mult; apply Rabs_pos_eq; apply Rle_0_sqr).
  assert (0 <= (a * Rabs (L i j) - b) * (a * Rabs (L i j) - b) * D j) by (apply Rmult_le_pos; [apply Rle_0_sqr|lra]). rewrite <- E1. lra.
Qed.
Definition ldl i j := Rsum j (fun k => L i k * L j k * D k) + (if (i =? j)%nat then D i else L i j * D j).
Definition MM : mtx := fun i j => if (j <=? i)%nat then ldl i j else ldl j i.
Lemma MM_sym m : sym m MM.
Proof. clear. intros i j _ _. unfold MM. destruct (Nat.leb_spec j i), (Nat.leb_spec i j); auto; try lia. now replace j with i by lia. Qed.
Lemma MM_ldl m : ldl_of m MM L D.
Proof. intros i j Hj Hi. unfold MM. now rewrite (proj2 (Nat.leb_le j i)) by auto. Qed.

Lemma pair_err i j (x : vec) : (i < n)%nat -> (j < i)%nat -> row_err i -> row_err j -> (forall k, (k <= j)%nat -> 0 < D k <= W) ->
  RR i (S j) <= 101 / 100 * A i i -> RR j j + D j <= 101 / 100 * A j j ->
  Rabs (x i * x j * (A i j - ldl i j)) <= 2 * INR n * u * (A i i * (x i * x i)) + 2 * INR n * u * (A j j * (x j * x j)).
Proof.
  intros Hi Hj Ri Rj Pd R1 R2. destruct (Pd j (le_n j)) as [Dj DWj]. pose proof n1 as N1. destruct (jn j ltac:(lia)) as [J0 J1].
  assert (Pd' : forall k, (k < j)%nat -> 0 < D k <= W) by (intros; apply Pd; lia). destruct (Hdiag i Hi) as [Ai1 Ai2]. destruct (Hdiag j ltac:(lia)) as [Aj1 Aj2].
  pose proof (entry_err i j Hi Hj Ri Rj ltac:(intros; now apply Pd)) as H. unfold ldl. rewrite (proj2 (Nat.eqb_neq i j)) by lia.
  assert (RS : RR i (S j) = RR i j + L i j * L i j * D j) by reflexivity.
  assert (lq : 0 <= L i j * L i j * D j) by (apply Rmult_le_pos; [apply Rle_0_sqr|lra]).
  pose proof (RR_pos i j ltac:(intros; now apply Pd')) as R0.
  pose proof (etiny i j ltac:(lia) Pd' ltac:(lra)) as Et.
  assert (Et2 : e * (2 * D j + 2 * KK i j + 4 * INR j + 1) <= u * w / 10). { apply Rle_trans with (2 := Et). apply Rmult_le_compat_l; lra. }
  set (z := A i j - (Rsum j (fun k => L i k * L j k * D k) + L i j * D j)) in *.
  rewrite !Rabs_mult. set (a := Rabs (x i)). set (b := Rabs (x j)). assert (a0 : 0 <= a) by apply Rabs_pos. assert (b0 : 0 <= b) by apply Rabs_pos.
  assert (Ea : x i * x i = a * a) by (unfold a; rewrite <- Rabs_mult; symmetry; apply Rabs_pos_eq; apply Rle_0_sqr).
  assert (Eb : x j * x j = b * b) by (unfold b; rewrite <- Rabs_mult; symmetry; apply Rabs_pos_eq; apply Rle_0_sqr).
  rewrite Ea, Eb. assert (ab0 : 0 <= a * b) by (apply Rmult_le_pos; auto).
  pose proof (BB_weighted i j a b ltac:(intros; now apply Pd') a0 b0) as W1. pose proof (last_weighted i j a b Dj a0 b0) as W2.
  set (Y := BB i j + Rabs (L i j) * D j) in *.
  assert (aa : 0 <= a * a) by (apply Rmult_le_pos; auto). assert (bb : 0 <= b * b) by (apply Rmult_le_pos; auto).
  assert (WY : 2 * (a * b) * Y <= 101 / 100 * (a * a * A i i + b * b * A j j)).
  { unfold Y. assert (a * a * RR i (S j) <= a * a * (101 / 100 * A i i)) by (apply Rmult_le_compat_l; auto).
    assert (b * b * (RR j j + D j) <= b * b * (101 / 100 * A j j)) by (apply Rmult_le_compat_l; auto). rewrite RS in *. lra. }
  assert (Wab : 2 * (a * b) * w <= a * a * A i i + b * b * A j j).
  { assert (0 <= (a - b) * (a - b) * w) by (apply Rmult_le_pos; [apply Rle_0_sqr|lra]).
    assert (a * a * w <= a * a * A i i) by (apply Rmult_le_compat_l; auto). assert (b * b * w <= b * b * A j j) by (apply Rmult_le_compat_l; auto). lra. }
  apply Rle_trans with (a * b * (3 * (INR j + 1) * u * Y + u * w / 10)); [apply Rmult_le_compat_l; [exact ab0|lra]|].
  set (V := a * a * A i i + b * b * A j j) in *. assert (V0 : 0 <= V) by (apply Rle_trans with (2 := Wab); apply Rmult_le_pos; lra).
  replace (a * b * (3 * (INR j + 1) * u * Y + u * w / 10)) with (3 / 2 * ((INR j + 1) * u) * (2 * (a * b) * Y) + / 20 * u * (2 * (a * b) * w)) by field.
  apply Rle_trans with (3 / 2 * ((INR j + 1) * u) * (101 / 100 * V) + / 20 * u * V).
  { apply Rplus_le_compat; apply Rmult_le_compat_l; auto; try lra. apply Rmult_le_pos; [lra|apply Rmult_le_pos; lra]. }
  assert (X1 : (INR j + 1) * u * V <= INR n * u * V). { apply Rmult_le_compat_r; auto. apply Rmult_le_compat_r; lra. }
  assert (X2 : 1 * u * V <= INR n * u * V). { apply Rmult_le_compat_r; auto. apply Rmult_le_compat_r; lra. }
  replace (2 * INR n * u * (A i i * (a * a)) + 2 * INR n * u * (A j j * (b * b))) with (2 * (INR n * u * V)) by (unfold V; ring).
  assert (0 <= u * V) by (apply Rmult_le_pos; lra). lra.
Qed.
Lemma self_err i (x : vec) : (i < n)%nat -> row_err i -> (forall k, (k <= i)%nat -> 0 < D k <= W) ->
  Rabs (x i * x i * (A i i - ldl i i)) <= 2 * INR n * u * (A i i * (x i * x i)) + 2 * INR n * u * (A i i * (x i * x i)).
Proof.
  intros Hi Ri Pd. assert (Pd' : forall k, (k < i)%nat -> 0 < D k <= W) by (intros; apply Pd; lia). destruct (Pd i (le_n i)) as [Di _].
  pose proof (accepted_size i Hi Ri Pd' Di) as Sz. pose proof (diag_err' i Hi Ri Pd') as H. rewrite (Rabs_pos_eq (D i)) in H by lra.
  pose proof (RR_pos i i ltac:(intros; now apply Pd')) as R0. destruct (Hdiag i Hi) as [A1 A2]. pose proof n1 as N1.
  unfold ldl. rewrite Nat.eqb_refl. fold (RR i i). rewrite Rabs_mult, Rabs_pos_eq by apply Rle_0_sqr.
  assert (xx : 0 <= x i * x i) by apply Rle_0_sqr.
  replace (2 * INR n * u * (A i i * (x i * x i)) + 2 * INR n * u * (A i i * (x i * x i))) with (x i * x i * (4 * INR n * u * A i i)) by ring.
  apply Rmult_le_compat_l; [exact xx|]. apply Rle_trans with (1 := H).
  assert (nu : 0 <= INR n * u) by (apply Rmult_le_pos; lra).
  assert (X1 : 1 * (u * D i) <= INR n * (u * D i)) by (apply Rmult_le_compat_r; [apply Rmult_le_pos; lra|lra]).
  assert (X2 : 1 * (u * w) <= INR n * (u * w)) by (apply Rmult_le_compat_r; [apply Rmult_le_pos; lra|lra]).
  assert (X3 : INR n * u * w <= INR n * u * A i i) by (apply Rmult_le_compat_l; lra).
  assert (X4 : INR n * u * (RR i i + D i) <= INR n * u * (101 / 100 * A i i)) by (apply Rmult_le_compat_l; lra).
  assert (X5 : 0 <= INR n * u * D i) by (apply Rmult_le_pos; lra). assert (X6 : 0 <= INR n * u * A i i) by (apply Rmult_le_pos; lra). lra.
Qed.

(** ** All pivots positive *)
Lemma accepted_pd x : sym n A -> (forall i, (i < n)%nat -> row_err i /\ 0 < D i <= A i i) -> (exists i, (i < n)%nat /\ x i <> 0) ->
  0 < quad n A x + 4 * INR n * INR n * u * Rsum n (fun i => A i i * (x i * x i)).
Proof.
  intros Hs H Hx. assert (Pd : forall i k, (i < n)%nat -> (k <= i)%nat -> 0 < D k <= W).
  { intros i k Hi Hk. destruct (H k ltac:(lia)) as [_ H1]. pose proof (Hdiag k ltac:(lia)). lra. }
  assert (Sz : forall i, (i < n)%nat -> RR i i + D i <= 101 / 100 * A i i).
  { intros i Hi. apply accepted_size; auto; [apply H; auto| |apply (H i Hi)]. intros k Hk. apply (Pd i); lia. }
  assert (mono : forall i j, (i < n)%nat -> (j < i)%nat -> RR i (S j) <= RR i i).
  { intros i j Hi Hj. assert (G : forall m, (S j + m <= i)%nat -> RR i (S j) <= RR i (S j + m)).
    { induction m; intros Hm; [rewrite Nat.add_0_r; lra|]. rewrite Nat.add_succ_r. change (RR i (S (S j + m))) with (RR i (S j + m) + L i (S j + m)%nat * L i (S j + m)%nat * D (S j + m)%nat).
      assert (0 <= L i (S j + m)%nat * L i (S j + m)%nat * D (S j + m)%nat) by (apply Rmult_le_pos; [apply Rle_0_sqr|left; apply (Pd i); lia]).
      specialize (IHm ltac:(lia)). lra. }
    specialize (G (i - S j)%nat ltac:(lia)). replace (S j + (i - S j))%nat with i in G by lia. exact G. }
  assert (low : forall i j, (i < n)%nat -> (j < i)%nat -> Rabs (x i * x j * (A i j - ldl i j)) <= 2 * INR n * u * (A i i * (x i * x i)) + 2 * INR n * u * (A j j * (x j * x j))).
  { intros i j Hi Hj. apply pair_err; auto; try (apply H; lia).
    - intros k Hk. apply (Pd i); lia.
    - pose proof (mono i j Hi Hj). pose proof (Sz i Hi). destruct (H i Hi). lra.
    - apply Sz. lia. }
  pose proof (quad_diff n A MM x (fun i => 2 * INR n * u * (A i i * (x i * x i)))) as Q.
  rewrite Rsum_scal in Q.
  assert (Q' : quad n MM x - quad n A x <= 2 * INR n * (2 * INR n * u * Rsum n (fun i => A i i * (x i * x i)))).
  { rewrite <- Rsum_scal. apply quad_diff. intros i j Hi Hj. unfold MM. destruct (Nat.leb_spec j i) as [K|K].
    - destruct (Nat.eq_dec i j) as [->|Hne].
      + pose proof (self_err j x Hj ltac:(apply H; auto) ltac:(intros k Hk; apply (Pd j); lia)) as E. apply Rabs_le_inv in E. lra.
      + pose proof (low i j Hi ltac:(lia)) as E. apply Rabs_le_inv in E. lra.
    - pose proof (low j i Hj ltac:(lia)) as E. apply Rabs_le_inv in E. rewrite (Hs i j) by auto. lra. }
  assert (P : 0 < quad n MM x). { apply (ldl_pd n MM L D); auto; [apply MM_sym|apply MM_ldl|]. intros k Hk. apply H; auto. }
  lra.
Qed.
End Err.
