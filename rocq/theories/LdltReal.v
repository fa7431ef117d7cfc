(** The LDL' factorisation over the reals. *)
From Coq Require Import Reals List Bool Arith Lia Lra Psatz.
From Verif Require Import Num Res Arr ArrLemmas Spec RealLin EllSpec StableSpec StableReal Ldlt LdltLemmas LdltSpec.
Import ListNotations.
Open Scope R_scope.

Definition ldl_of (n : nat) (A L : mtx) (D : vec) : Prop := forall i j, (j <= i)%nat -> (i < n)%nat ->
  A i j = Rsum j (fun k => L i k * L j k * D k) + (if (i =? j)%nat then D i else L i j * D j).
Definition transp (L : mtx) : mtx := fun i j => L j i.

Lemma ldl_of_le n m A L D : (m <= n)%nat -> ldl_of n A L D -> ldl_of m A L D.
Proof. intros Hm H i j Hj Hi. apply H; lia. Qed.

Lemma upper_mv_S n L y k : (k < n)%nat -> upper_mv (S n) (transp L) y k = upper_mv n (transp L) y k + L n k * y n.
Proof. intros Hk. unfold upper_mv, transp. cbn [Rsum]. rewrite (proj2 (Nat.ltb_lt k n)) by auto. ring. Qed.
Lemma upper_mv_last n L y : upper_mv (S n) (transp L) y n = y n.
Proof.
  unfold upper_mv. cbn [Rsum]. rewrite Nat.ltb_irrefl. rewrite Rsum_zero; [ring|].
  intros j Hj. rewrite (proj2 (Nat.ltb_ge n j)) by lia. auto.
Qed.

Lemma quad_S n A y : sym (S n) A ->
  quad (S n) A y = quad n A y + 2 * y n * Rsum n (fun j => A n j * y j) + A n n * (y n * y n).
Proof.
  intros Hs. unfold quad, dot, mulmv. cbn [Rsum].
  assert (E : Rsum n (fun i => y i * (Rsum n (fun j => A i j * y j) + A i n * y n)) =
    Rsum n (fun i => y i * Rsum n (fun j => A i j * y j)) + y n * Rsum n (fun j => A n j * y j)).
  { rewrite <- Rsum_scal, <- Rsum_plus. apply Rsum_ext. intros i Hi. rewrite (Hs i n) by lia. ring. }
  rewrite E. ring.
Qed.

Lemma ldl_quad n A L D y : sym n A -> ldl_of n A L D ->
  quad n A y = Rsum n (fun k => D k * (upper_mv n (transp L) y k * upper_mv n (transp L) y k)).
Proof.
  revert y. induction n; intros y Hs HL; [reflexivity|].
  rewrite quad_S by auto. rewrite IHn.
  2:{ intros i j Hi Hj. apply Hs; lia. }
  2:{ apply (ldl_of_le (S n)); auto. }
  cbn [Rsum]. rewrite upper_mv_last.
  assert (E1 : Rsum n (fun j => A n j * y j) = Rsum n (fun k => D k * L n k * upper_mv n (transp L) y k)).
  { assert (E : Rsum n (fun j => A n j * y j) = Rsum n (fun j => Rsum n (fun k => if (k <? j)%nat then L n k * L j k * D k * y j else 0)) + Rsum n (fun j => L n j * D j * y j)).
    { rewrite <- Rsum_plus. apply Rsum_ext. intros j Hj. rewrite (HL n j) by lia.
      rewrite (proj2 (Nat.eqb_neq n j)) by lia. rewrite (Rsum_lt_split n j) by lia.
      rewrite (Rsum_scal_r j (y j) (fun k => L n k * L j k * D k)). ring. }
    rewrite E, Rsum_swap, <- Rsum_plus. apply Rsum_ext. intros k Hk. unfold upper_mv, transp.
    rewrite Rmult_plus_distr_l, <- Rsum_scal.
    assert (E2 : Rsum n (fun j => if (k <? j)%nat then L n k * L j k * D k * y j else 0) =
      Rsum n (fun i => D k * L n k * (if (k <? i)%nat then L i k * y i else 0))).
    { apply Rsum_ext. intros j Hj. destruct (k <? j)%nat; ring. }
    rewrite E2. ring. }
  rewrite E1. rewrite (HL n n) by lia. rewrite Nat.eqb_refl.
  assert (E3 : Rsum n (fun k => D k * (upper_mv (S n) (transp L) y k * upper_mv (S n) (transp L) y k)) =
    Rsum n (fun k => D k * (upper_mv n (transp L) y k * upper_mv n (transp L) y k)) +
    2 * y n * Rsum n (fun k => D k * L n k * upper_mv n (transp L) y k) +
    Rsum n (fun k => L n k * L n k * D k) * (y n * y n)).
  { rewrite <- Rsum_scal, <- (Rsum_scal_r n (y n * y n)), <- !Rsum_plus. apply Rsum_ext. intros k Hk. rewrite upper_mv_S by auto. ring. }
  rewrite E3. ring.
Qed.

Lemma upper_mv_inj n U y : (forall i, (i < n)%nat -> upper_mv n U y i = 0) -> forall i, (i < n)%nat -> y i = 0.
Proof.
  intros H.
  assert (K : forall k, (k <= n)%nat -> forall i, (n - k <= i < n)%nat -> y i = 0).
  { induction k; intros Hk i Hi; [lia|].
    destruct (Nat.eq_dec i (n - S k)) as [->|]; [|apply IHk; lia].
    specialize (H (n - S k)%nat ltac:(lia)). unfold upper_mv in H. rewrite Rsum_zero in H; [lra|].
    intros j Hj. destruct (Nat.ltb_spec (n - S k) j); auto. rewrite (IHk ltac:(lia) j) by lia. ring. }
  intros i Hi. apply (K n); lia.
Qed.

Lemma ldl_pd n A L D : sym n A -> ldl_of n A L D -> (forall k, (k < n)%nat -> 0 < D k) -> pd n A.
Proof.
  intros Hs HL HD y (i & Hi & Hy). rewrite (ldl_quad n A L D) by auto.
  set (v := upper_mv n (transp L) y).
  assert (Hp : 0 <= Rsum n (fun k => D k * (v k * v k))).
  { apply Rsum_nonneg. intros k Hk. specialize (HD k Hk). nra. }
  destruct (Req_dec (Rsum n (fun k => D k * (v k * v k))) 0) as [E|]; [|unfold v in *; lra].
  exfalso. apply Hy. apply (upper_mv_inj n (transp L)); auto. intros k Hk.
  pose proof (Rsum_pos_one n k (fun k => D k * (v k * v k)) Hk ltac:(intros q Hq; specialize (HD q Hq); nra)) as H. cbv beta in H.
  specialize (HD k Hk). fold v. destruct (Req_dec (v k) 0) as [|Hv]; auto. exfalso.
  assert (0 < v k * v k) by (apply Rsqr_pos_lt; auto). pose proof (Rmult_lt_0_compat _ _ HD H0). lra.
Qed.

Lemma Rsum_block n s m f : (s + m <= n)%nat -> (forall i, (i < n)%nat -> (i < s \/ s + m <= i)%nat -> f i = 0) ->
  Rsum n f = Rsum m (fun i => f (s + i)%nat).
Proof.
  revert n. induction m; intros n Hn H.
  - cbn [Rsum]. apply Rsum_zero. intros i Hi. apply H; lia.
  - cbn [Rsum].
    assert (K : forall q, (s + S m <= q <= n)%nat -> Rsum q f = Rsum (s + S m) f).
    { induction q; intros Hq; [lia|]. destruct (Nat.eq_dec (S q) (s + S m)) as [->|]; auto. cbn [Rsum]. rewrite IHq by lia. rewrite H by lia. ring. }
    rewrite (K n) by lia. replace (s + S m)%nat with (S (s + m)) by lia. cbn [Rsum]. f_equal.
    assert (E : Rsum (s + m) f = Rsum (s + m) (fun i => if (i <? s + m)%nat then f i else 0)).
    { apply Rsum_ext. intros i Hi. now rewrite (proj2 (Nat.ltb_lt i (s + m))) by auto. }
    clear E. assert (K2 : forall q, Rsum (s + q) f = Rsum s f + Rsum q (fun i => f (s + i)%nat)).
    { induction q; cbn [Rsum]; [rewrite Nat.add_0_r; ring|]. replace (s + S q)%nat with (S (s + q)) by lia. cbn [Rsum]. rewrite IHq. ring. }
    rewrite K2. rewrite (Rsum_zero s); [ring|]. intros i Hi. apply H; lia.
Qed.

Definition shift (s : nat) (A : mtx) : mtx := fun i j => A (s + i)%nat (s + j)%nat.
Lemma quad_block n A w s m : (s + m <= n)%nat -> (forall i, (i < n)%nat -> (i < s \/ s + m <= i)%nat -> w i = 0) ->
  quad n A w = quad m (shift s A) (fun i => w (s + i)%nat).
Proof.
  intros Hn Hw. unfold quad, dot, mulmv, shift. rewrite (Rsum_block n s m).
  - apply Rsum_ext. intros i Hi. f_equal. apply (Rsum_block n s m); auto. intros j Hj Ho. rewrite Hw by auto. ring.
  - auto.
  - intros i Hi Ho. rewrite Hw by auto. ring.
Qed.

(** From the relation on the storage to the factorisation. *)
Lemma rows_ldl n s p (G : nat -> nat -> num RNum) (st : list (num RNum)) : (s <= p)%nat ->
  (forall i, (s <= i <= p)%nat -> row_ok n s G st i) -> (forall i, (s <= i < p)%nat -> mget n st i i <> 0) ->
  ldl_of (S p - s) (shift s G) (shift s (mget (N := RNum) n st)) (fun i => mget (N := RNum) n st (s + i) (s + i)).
Proof.
  intros Hsp HR HD i j Hj Hi. unfold shift.
  assert (U : forall k q, (s <= k < q)%nat -> (q <= p)%nat -> @eq R (mget n st k q) (mget n st q k * mget n st k k)).
  { intros k q Hk Hq. destruct (HR q ltac:(lia)) as [R1 _]. destruct (R1 k ltac:(lia)) as [_ E].
    change (mget n st q k = Rdiv (mget n st k q) (mget n st k k)) in E. rewrite E. specialize (HD k ltac:(lia)).
    assert (K : forall a b : R, b <> 0 -> a = a / b * b) by (intros; field; auto). apply K. exact HD. }
  assert (P : @eq R (piv n s G st (s + i) (s + j)) (G (s + i)%nat (s + j)%nat - Rsum j (fun k => mget n st (s + i) (s + k) * mget n st (s + k) (s + j)))).
  { unfold piv. destruct (Nat.eqb_spec (s + j) s).
    - replace j with 0%nat by lia. cbn [Rsum]. unfold Rminus. rewrite Ropp_0, Rplus_0_r. auto.
    - replace (s + j - s)%nat with j by lia. rewrite accum_from. simpl. rewrite Rplus_0_l. reflexivity. }
  assert (Q : Rsum j (fun k => mget n st (s + i) (s + k) * mget n st (s + k) (s + j)) =
     Rsum j (fun k => (mget (N := RNum) n st (s + i) (s + k) : R) * mget (N := RNum) n st (s + j) (s + k) * mget (N := RNum) n st (s + k) (s + k))).
  { apply Rsum_ext. intros k Hk. rewrite (U (s + k)%nat (s + j)%nat) by lia. ring. }
  rewrite <- Q. destruct (Nat.eqb_spec i j) as [<-|Hne].
  - destruct (HR (s + i)%nat ltac:(lia)) as [_ E]. rewrite E, P.
    assert (K : forall a b : R, a = b + (a - b)) by (intros; ring). apply K.
  - destruct (HR (s + i)%nat ltac:(lia)) as [R1 _]. destruct (R1 (s + j)%nat ltac:(lia)) as [E _].
    rewrite P in E. rewrite (U (s + j)%nat (s + i)%nat) in E by lia.
    assert (K : forall a b c : R, c = a - b -> a = b + c) by (intros; lra). apply K. exact E.
Qed.
