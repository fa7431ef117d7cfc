(** A rejected matrix is not safely positive definite: pure real-number part of C99. *)
From Coq Require Import Reals Arith Lia Lra Psatz Bool.
From Flocq Require Import Core.Raux.
From Verif Require Import Spec RealLin EllSpec StableSpec StableReal LdltReal FloatErr LdltErr.
Local Open Scope R_scope.

Lemma solve_upper N (U : mtx) (top : R) : (0 < N)%nat ->
  exists y, y (N - 1)%nat = top /\ forall k, (k < N - 1)%nat -> upper_mv N U y k = 0.
Proof.
  intros HN.
  assert (G : forall s, (s <= N - 1)%nat -> exists y, y (N - 1)%nat = top /\ forall k, (N - 1 - s <= k < N - 1)%nat -> upper_mv N U y k = 0).
  { induction s; intros Hs.
    - exists (fun _ => top). split; auto. intros; lia.
    - destruct (IHs ltac:(lia)) as (y & Y1 & Y2). set (k0 := (N - 1 - S s)%nat).
      set (v := - Rsum N (fun j => if (k0 <? j)%nat then U k0 j * y j else 0)).
      exists (fun i => if (i =? k0)%nat then v else y i). split.
      + rewrite (proj2 (Nat.eqb_neq (N - 1) k0)) by (unfold k0; lia). exact Y1.
      + intros k Hk. unfold upper_mv.
        assert (E : Rsum N (fun j => if (k <? j)%nat then U k j * (if (j =? k0)%nat then v else y j) else 0) = Rsum N (fun j => if (k <? j)%nat then U k j * y j else 0)).
        { apply Rsum_ext. intros j Hj. destruct (Nat.ltb_spec k j); auto. rewrite (proj2 (Nat.eqb_neq j k0)) by (unfold k0; lia). reflexivity. }
        rewrite E. destruct (Nat.eqb_spec k k0) as [->|Hne]; [unfold v; ring|]. apply Y2. unfold k0 in Hne. lia. }
  destruct (G (N - 1)%nat (le_n _)) as (y & Y1 & Y2). exists y. split; auto. intros k Hk. apply Y2. lia.
Qed.
Lemma Rsum_support n p q f : (q <= p)%nat -> (p < n)%nat -> (forall i, (q <= i < n)%nat -> i <> p -> f i = 0) -> Rsum n f = Rsum q f + f p.
Proof.
  intros Hq Hp. revert Hp. induction n; intros Hp H; [lia|]. cbn [Rsum].
  destruct (Nat.eq_dec n p) as [->|Hne].
  - f_equal. assert (G : forall s, (q + s <= p)%nat -> Rsum (q + s) f = Rsum q f).
    { induction s; intros Hs; [now rewrite Nat.add_0_r|]. rewrite Nat.add_succ_r. cbn [Rsum]. rewrite IHs, H by lia. ring. }
    rewrite <- (G (p - q)%nat) by lia. f_equal. lia.
  - rewrite IHn by (try lia; intros; apply H; lia). rewrite (H n) by lia. ring.
Qed.
Lemma first_reach (f : nat -> R) q p : f 0%nat < q -> q <= f p -> exists m, (m < p)%nat /\ f m < q <= f (S m).
Proof.
  induction p; intros H0 Hp; [lra|]. destruct (Rlt_le_dec (f p) q) as [K|K].
  - exists p. split; [lia|]. lra.
  - destruct (IHp H0 K) as (m & Hm & H). exists m. split; [lia|exact H].
Qed.

Section Rej.
Variables (n : nat) (A L T : mtx) (D : vec) (u e w W : R).
Hypotheses (Hu : 0 < u) (He : 0 < e) (Heu : e <= u) (Hnu : INR n * u <= 1 / 1000) (Hw : 0 < w) (HW : 1 <= W)
  (Htiny : 100 * INR n * W * e <= u * w) (Hn : (1 <= n)%nat)
  (Hdiag : forall i, (i < n)%nat -> w <= A i i <= W) (TD : forall i, T i i = D i).
Notation row_err := (row_err A L T D u e).
Notation RR := (RR L D).
Notation BB := (BB L D).
Notation KK := (KK L D).
Notation ldl := (ldl L D).
Variable p : nat.
Hypotheses (Hp : (p < n)%nat) (Hs : sym n A) (Hrow : forall i, (i <= p)%nat -> row_err i) (Hpos : forall i, (i < p)%nat -> 0 < D i <= A i i) (Hneg : D p <= 0).
Let nu := INR n * u.
Let Q := A p p * (1 - 4 * nu).
Lemma nu_b : 0 < nu <= 1 / 1000.
Proof. split; [|exact Hnu]. unfold nu. apply Rmult_lt_0_compat; auto. pose proof (n1 n Hn). lra. Qed.
Lemma PdW k : (k < p)%nat -> 0 < D k <= W.
Proof. intros Hk. destruct (Hpos k Hk). pose proof (Hdiag k ltac:(lia)). lra. Qed.
Lemma Szk i : (i < p)%nat -> RR i i + D i <= 101 / 100 * A i i.
Proof. intros Hi. apply (accepted_size n A L T D u e w W); auto; try lia; [apply Hrow; lia| |apply Hpos; auto]. intros k Hk. apply PdW. lia. Qed.
Lemma reach : Q <= RR p p.
Proof.
  pose proof (diag_err' n A L T D u e w W Hu He Heu Hnu HW Htiny Hn TD p Hp (Hrow p (le_n p)) ltac:(intros; apply PdW; lia)) as H.
  rewrite (Rabs_left1 (D p)) in H by exact Hneg. apply Rabs_le_inv in H. destruct (Hdiag p Hp) as [A1 A2]. pose proof nu_b as NB.
  pose proof (RR_pos L D p p ltac:(intros; now apply PdW)) as R0. pose proof (n1 n Hn) as N1.
  assert (U1 : 0 <= u * - D p <= - D p). { split; [apply Rmult_le_pos; lra|]. pose proof (u_small n u Hu Hnu Hn). rewrite <- (Rmult_1_l (- D p)) at 2. apply Rmult_le_compat_r; lra. }
  replace (3 * INR n * u * RR p p) with (3 * nu * RR p p) in H by (unfold nu; ring).
  assert (U2 : u * w <= nu * A p p). { unfold nu. apply Rmult_le_compat; try lra. rewrite <- (Rmult_1_l u) at 1. apply Rmult_le_compat_r; lra. }
  assert (G : A p p * (1 - nu / 10) <= RR p p * (1 + 3 * nu)) by lra.
  apply Rmult_le_reg_r with (1 + 3 * nu); [lra|]. apply Rle_trans with (2 := G). unfold Q. rewrite Rmult_assoc. apply Rmult_le_compat_l; [lra|].
  assert (0 <= nu * nu) by apply Rle_0_sqr. lra.
Qed.

Lemma rejected_not_pd : exists x : vec, (exists i, (i < n)%nat /\ x i <> 0) /\ quad n A x <= 16 * INR n * INR n * u * Rsum n (fun i => A i i * (x i * x i)).
Proof.
  pose proof nu_b as NB. destruct (Hdiag p Hp) as [A1 A2]. pose proof (n1 n Hn) as N1.
  assert (HQ : 0 < Q <= A p p).
  { unfold Q. split; [apply Rmult_lt_0_compat; lra|]. assert (0 <= A p p * nu) by (apply Rmult_le_pos; lra). lra. }
  destruct (first_reach (fun j => RR p j) Q p) as (m & Hm & R1 & R2); [exact (proj1 HQ)|exact reach|].
  set (l := L p m) in *. set (d := D m) in *. assert (Hd : 0 < d <= W) by (apply PdW; auto).
  change (RR p (S m)) with (RR p m + l * l * d) in R2. pose proof (RR_pos L D p m ltac:(intros; apply PdW; lia)) as R0.
  set (g := l * l * d) in *. assert (g0 : 0 < g) by lra.
  assert (exists th, 0 < th <= 1 /\ RR p m + th * th * g = Q) as (th & Hth & Eth).
  { exists (sqrt ((Q - RR p m) / g)). assert (F : 0 < (Q - RR p m) / g <= 1).
    { split; [apply Rdiv_lt_0_compat; lra|]. apply Rmult_le_reg_r with g; auto. replace ((Q - RR p m) / g * g) with (Q - RR p m) by (field; lra). lra. }
    split; [split; [apply sqrt_lt_R0; lra|]|].
    - rewrite <- sqrt_1. apply sqrt_le_1_alt. lra.
    - rewrite sqrt_def by lra. field. lra. }
  set (L2 := fun i k => if (i =? S m)%nat then (if (k =? m)%nat then th * l else L p k) else L i k).
  set (D2 := fun k => if (k =? S m)%nat then 0 else D k).
  set (sg := fun i => if (i =? S m)%nat then p else i). set (A' := fun i j => A (sg i) (sg j)).
  destruct (solve_upper (S (S m)) (transp L2) 1 ltac:(lia)) as (y & Y1 & Y2). replace (S (S m) - 1)%nat with (S m) in * by lia.
  set (M2 := MM L2 D2).
  assert (Q0 : quad (S (S m)) M2 y = 0).
  { rewrite (ldl_quad (S (S m)) M2 L2 D2 y (MM_sym L2 D2 _) (MM_ldl L2 D2 _)). apply Rsum_zero. intros k Hk.
    destruct (Nat.eq_dec k (S m)) as [->|Hne]; [unfold D2; rewrite Nat.eqb_refl; ring|]. rewrite Y2 by lia. ring. }
  assert (Ym : y m = - (th * l)).
  { specialize (Y2 m ltac:(lia)). unfold upper_mv in Y2. rewrite (Rsum_one (S (S m)) (S m)) in Y2; [|lia|].
    - rewrite (proj2 (Nat.ltb_lt m (S m))) in Y2 by lia. unfold transp, L2 in Y2. rewrite !Nat.eqb_refl, Y1 in Y2. lra.
    - intros i Hi Hne. destruct (Nat.ltb_spec m i); auto. lia. }
  set (c := fun i => 8 * nu * (A' i i * (y i * y i))).
  assert (Asg : forall i, (i < S (S m))%nat -> w <= A' i i <= W). { intros i Hi. unfold A', sg. destruct (i =? S m)%nat eqn:Ei; apply Hdiag; auto. apply Nat.eqb_neq in Ei. lia. }
  assert (c2 : forall i, (i < S (S m))%nat -> 0 <= 2 * nu * (A' i i * (y i * y i)) <= c i).
  { intros i Hi. specialize (Asg i Hi). assert (K0 : 0 <= A' i i * (y i * y i)) by (apply Rmult_le_pos; [lra|apply Rle_0_sqr]). unfold c.
    set (z := A' i i * (y i * y i)) in *. clearbody z. assert (0 <= nu * z) by (apply Rmult_le_pos; [left; apply NB|exact K0]). lra. }
  assert (old : forall i j, (j < i)%nat -> (i < S m)%nat -> y i * y j * (A' i j - M2 i j) <= c i + c j).
  { intros i j Hj Hi. pose proof (c2 i ltac:(lia)) as Ci. pose proof (c2 j ltac:(lia)) as Cj.
    assert (P : Rabs (y i * y j * (A i j - ldl i j)) <= 2 * INR n * u * (A i i * (y i * y i)) + 2 * INR n * u * (A j j * (y j * y j))).
    { apply (pair_err n A L T D u e w W); auto; try lia; try (apply Hrow; lia); [intros; apply PdW; lia| |apply Szk; lia].
      apply Rle_trans with (RR i i + D i); [|apply Szk; lia]. destruct (PdW i ltac:(lia)) as [Di _].
      assert (G : forall k, (S j + k <= i)%nat -> RR i (S j) <= RR i (S j + k)).
      { induction k; intros Hk; [rewrite Nat.add_0_r; lra|]. rewrite Nat.add_succ_r. change (RR i (S (S j + k))) with (RR i (S j + k) + L i (S j + k)%nat * L i (S j + k)%nat * D (S j + k)%nat).
        assert (0 <= L i (S j + k)%nat * L i (S j + k)%nat * D (S j + k)%nat) by (apply Rmult_le_pos; [apply Rle_0_sqr|left; apply PdW; lia]). specialize (IHk ltac:(lia)). lra. }
      specialize (G (i - S j)%nat ltac:(lia)). replace (S j + (i - S j))%nat with i in G by lia. lra. }
    apply Rabs_le_inv in P.
    assert (EM : M2 i j = ldl i j).
    { unfold M2, MM. rewrite (proj2 (Nat.leb_le j i)) by lia. unfold LdltErr.ldl. rewrite (proj2 (Nat.eqb_neq i j)) by lia. unfold L2, D2.
      rewrite (proj2 (Nat.eqb_neq i (S m))), (proj2 (Nat.eqb_neq j (S m))) by lia. f_equal. apply Rsum_ext. intros k Hk. rewrite (proj2 (Nat.eqb_neq k (S m))) by lia. reflexivity. }
    assert (EA : A' i j = A i j /\ A' i i = A i i /\ A' j j = A j j). { unfold A', sg. rewrite (proj2 (Nat.eqb_neq i (S m))), (proj2 (Nat.eqb_neq j (S m))) by lia. auto. }
    destruct EA as (E1 & E2 & E3). rewrite EM, E1. rewrite E2 in Ci. rewrite E3 in Cj. unfold nu in Ci, Cj. lra. }
  assert (self : forall i, (i < S m)%nat -> y i * y i * (A' i i - M2 i i) <= c i + c i).
  { intros i Hi. pose proof (c2 i ltac:(lia)) as Ci.
    pose proof (self_err n A L T D u e w W Hu He Heu Hnu Hw HW Htiny Hn Hdiag TD i y ltac:(lia) ltac:(apply Hrow; lia) ltac:(intros; apply PdW; lia)) as P.
    apply Rabs_le_inv in P.
    assert (EM : M2 i i = ldl i i).
    { unfold M2, MM. rewrite (proj2 (Nat.leb_le i i)) by lia. unfold LdltErr.ldl. rewrite Nat.eqb_refl. unfold L2, D2.
      rewrite (proj2 (Nat.eqb_neq i (S m))) by lia. f_equal. apply Rsum_ext. intros k Hk. rewrite (proj2 (Nat.eqb_neq k (S m))) by lia. reflexivity. }
    assert (EA : A' i i = A i i). { unfold A', sg. rewrite (proj2 (Nat.eqb_neq i (S m))) by lia. auto. }
    rewrite EM. rewrite EA in *. unfold nu in Ci. lra. }
  assert (App : A' (S m) (S m) = A p p) by (unfold A', sg; now rewrite Nat.eqb_refl).
  assert (low : forall j, (j < m)%nat -> y (S m) * y j * (A' (S m) j - M2 (S m) j) <= c (S m) + c j).
  { intros j Hj. pose proof (c2 (S m) ltac:(lia)) as Ci. pose proof (c2 j ltac:(lia)) as Cj.
    set (y' := fun i => if (i =? p)%nat then 1 else y i).
    assert (mono : RR p (S j) <= RR p m).
    { assert (G : forall k, (S j + k <= m)%nat -> RR p (S j) <= RR p (S j + k)).
      { induction k; intros Hk; [rewrite Nat.add_0_r; lra|]. rewrite Nat.add_succ_r. change (RR p (S (S j + k))) with (RR p (S j + k) + L p (S j + k)%nat * L p (S j + k)%nat * D (S j + k)%nat).
        assert (0 <= L p (S j + k)%nat * L p (S j + k)%nat * D (S j + k)%nat) by (apply Rmult_le_pos; [apply Rle_0_sqr|left; apply PdW; lia]). specialize (IHk ltac:(lia)). lra. }
      specialize (G (m - S j)%nat ltac:(lia)). replace (S j + (m - S j))%nat with m in G by lia. exact G. }
    assert (P : Rabs (y' p * y' j * (A p j - ldl p j)) <= 2 * INR n * u * (A p p * (y' p * y' p)) + 2 * INR n * u * (A j j * (y' j * y' j))).
    { apply (pair_err n A L T D u e w W); auto; try lia; try (apply Hrow; lia); [intros; apply PdW; lia|lra|apply Szk; lia]. }
    unfold y' in P. rewrite Nat.eqb_refl, (proj2 (Nat.eqb_neq j p)) in P by lia. apply Rabs_le_inv in P.
    assert (EM : M2 (S m) j = ldl p j).
    { unfold M2, MM. rewrite (proj2 (Nat.leb_le j (S m))) by lia. unfold LdltErr.ldl. rewrite (proj2 (Nat.eqb_neq (S m) j)), (proj2 (Nat.eqb_neq p j)) by lia. unfold L2, D2.
      rewrite Nat.eqb_refl, (proj2 (Nat.eqb_neq j (S m))), (proj2 (Nat.eqb_neq j m)) by lia. f_equal. apply Rsum_ext. intros k Hk. rewrite (proj2 (Nat.eqb_neq k (S m))), (proj2 (Nat.eqb_neq k m)) by lia. reflexivity. }
    assert (EA : A' (S m) j = A p j /\ A' j j = A j j). { unfold A', sg. rewrite Nat.eqb_refl, (proj2 (Nat.eqb_neq j (S m))) by lia. auto. }
    destruct EA as (E1 & E3). rewrite EM, E1, Y1. rewrite App, Y1 in Ci. rewrite E3 in Cj. unfold nu in Ci, Cj. lra. }
  assert (corner : y (S m) * y (S m) * (A' (S m) (S m) - M2 (S m) (S m)) <= c (S m) + c (S m)).
  { pose proof (c2 (S m) ltac:(lia)) as Ci. rewrite App, Y1 in *.
    assert (EM : M2 (S m) (S m) = Q).
    { unfold M2, MM. rewrite Nat.leb_refl. unfold LdltErr.ldl. rewrite Nat.eqb_refl. cbn [Rsum]. rewrite <- Eth. unfold L2, D2. rewrite !Nat.eqb_refl. rewrite (proj2 (Nat.eqb_neq m (S m))) by lia.
      unfold g, d. rewrite Rplus_0_r. f_equal; [|ring]. apply Rsum_ext. intros k Hk. rewrite (proj2 (Nat.eqb_neq k (S m))), (proj2 (Nat.eqb_neq k m)) by lia. reflexivity. }
    rewrite EM. unfold Q. lra. }
  assert (crit : y (S m) * y m * (A' (S m) m - M2 (S m) m) <= c (S m) + c m).
  { assert (EA : A' (S m) m = A p m /\ A' m m = A m m). { unfold A', sg. rewrite Nat.eqb_refl, (proj2 (Nat.eqb_neq m (S m))) by lia. auto. }
    destruct EA as (E1 & E3).
    set (S1 := Rsum m (fun k => L p k * L m k * D k)).
    assert (EM : M2 (S m) m = S1 + th * l * d).
    { unfold M2, MM. rewrite (proj2 (Nat.leb_le m (S m))) by lia. unfold LdltErr.ldl. rewrite (proj2 (Nat.eqb_neq (S m) m)) by lia. unfold L2, D2.
      rewrite !Nat.eqb_refl, (proj2 (Nat.eqb_neq m (S m))) by lia. f_equal. apply Rsum_ext. intros k Hk. rewrite (proj2 (Nat.eqb_neq k (S m))), (proj2 (Nat.eqb_neq k m)) by lia. reflexivity. }
    pose proof (entry_err n A L T D u e Hu He Hnu Hn p m Hp Hm (Hrow p (le_n p)) (Hrow m ltac:(lia)) ltac:(intros; apply PdW; lia)) as P.
    fold S1 l d in P. pose proof (etiny n L D u e w W He HW Htiny Hn p m ltac:(lia) ltac:(intros; apply PdW; lia) ltac:(lra)) as Et.
    assert (Et2 : e * (2 * d + 2 * KK p m + 4 * INR m + 1) <= u * w / 10). { apply Rle_trans with (2 := Et). apply Rmult_le_compat_l; lra. }
    set (Dl := A p m - (S1 + l * d)) in *.
    rewrite E1, EM, Y1, Ym. unfold c. rewrite App, E3, Y1, Ym.
    replace (1 * - (th * l) * (A p m - (S1 + th * l * d))) with (- (th * l) * Dl - th * (1 - th) * g) by (unfold Dl, g; ring).
    set (b := th * Rabs l). assert (b0 : 0 <= b) by (apply Rmult_le_pos; [lra|apply Rabs_pos]).
    assert (Eb : - (th * l) * - (th * l) = b * b). { unfold b. replace (th * Rabs l * (th * Rabs l)) with (th * th * (Rabs l * Rabs l)) by ring. rewrite <- Rabs_mult, Rabs_pos_eq by apply Rle_0_sqr. ring. }
    rewrite Eb. assert (X0 : - (th * l) * Dl <= b * Rabs Dl).
    { apply Rle_trans with (Rabs (- (th * l) * Dl)); [apply Rle_abs|]. rewrite Rabs_mult, Rabs_Ropp, Rabs_mult, (Rabs_pos_eq th) by lra. fold b. lra. }
    destruct (jn n Hn m ltac:(lia)) as [J0 J1]. set (BBm := BB p m) in *. assert (BB0 : 0 <= BBm) by (apply (BB_pos L D); intros; apply PdW; lia).
    assert (ld0 : 0 <= Rabs l * d) by (apply Rmult_le_pos; [apply Rabs_pos|lra]).
    assert (X1 : Rabs Dl <= 3 * nu * (BBm + Rabs l * d) + u * w / 10).
    { apply Rle_trans with (1 := P). apply Rplus_le_compat; [|exact Et2]. apply Rmult_le_compat_r; [lra|]. unfold nu. rewrite <- Rmult_assoc. apply Rmult_le_compat_r; lra. }
    assert (X2 : b * Rabs Dl <= b * (3 * nu * (BBm + Rabs l * d) + u * w / 10)) by (apply Rmult_le_compat_l; auto).
    pose proof (BB_weighted L D p m 1 b ltac:(intros; apply PdW; lia) ltac:(lra) b0) as W1. fold BBm in W1.
    assert (bg : b * (Rabs l * d) = th * g). { unfold b, g. replace (th * Rabs l * (Rabs l * d)) with (th * (Rabs l * Rabs l) * d) by ring. rewrite <- Rabs_mult, Rabs_pos_eq by apply Rle_0_sqr. ring. }
    pose proof (Szk m Hm) as Sm. fold d in Sm. destruct (Hdiag m ltac:(lia)) as [Am1 Am2].
    assert (bb : 0 <= b * b) by (apply Rmult_le_pos; auto).
    assert (X3 : b * b * RR m m <= b * b * (101 / 100 * A m m)) by (apply Rmult_le_compat_l; lra).
    assert (X4 : nu * (2 * (1 * b) * BBm) <= nu * (A p p + 101 / 100 * (b * b * A m m))) by (apply Rmult_le_compat_l; lra).
    assert (X5 : 2 * b * w <= A p p + b * b * A m m).
    { assert (0 <= (1 - b) * (1 - b) * w) by (apply Rmult_le_pos; [apply Rle_0_sqr|lra]). assert (b * b * w <= b * b * A m m) by (apply Rmult_le_compat_l; lra). lra. }
    assert (X6 : u * (2 * b * w) <= nu * (A p p + b * b * A m m)).
    { apply Rmult_le_compat; try lra; [apply Rmult_le_pos; [apply Rmult_le_pos; [lra|exact b0]|lra]|]. unfold nu. rewrite <- (Rmult_1_l u) at 1. apply Rmult_le_compat_r; lra. }
    assert (X7 : 3 * nu * (th * g) - th * (1 - th) * g <= 6 * (nu * A p p)).
    { assert (T0 : 0 <= th * g) by (apply Rmult_le_pos; lra). assert (0 <= nu * A p p) by (apply Rmult_le_pos; lra).
      destruct (Rle_lt_dec th (1 / 2)) as [K|K].
      - assert ((3 * nu - (1 - th)) * (th * g) <= 0 * (th * g)) by (apply Rmult_le_compat_r; lra). lra.
      - assert (th * g <= 2 * Q). { assert (1 / 2 * (th * g) <= th * (th * g)) by (apply Rmult_le_compat_r; lra). lra. }
        assert (nu * (th * g) <= nu * (2 * A p p)) by (apply Rmult_le_compat_l; lra).
        assert (0 <= (1 - th) * (th * g)) by (apply Rmult_le_pos; lra). lra. }
    assert (Y0 : 0 <= nu * (b * b * A m m)) by (apply Rmult_le_pos; [lra|apply Rmult_le_pos; lra]). assert (Z0 : 0 <= nu * A p p) by (apply Rmult_le_pos; lra).
    replace (b * (3 * nu * (BBm + Rabs l * d) + u * w / 10)) with (3 / 2 * (nu * (2 * (1 * b) * BBm)) + 3 * nu * (b * (Rabs l * d)) + / 20 * (u * (2 * b * w))) in X2 by field.
    rewrite bg in X2. clear - X0 X2 X4 X6 X7 Y0 Z0. lra. }
  assert (all : quad (S (S m)) A' y - quad (S (S m)) M2 y <= 2 * INR (S (S m)) * Rsum (S (S m)) c).
  { apply quad_diff. assert (M2s : forall i j, M2 i j = M2 j i) by (intros i j; apply (MM_sym L2 D2 (S (i + j))); lia).
    assert (As : forall i j, (i < S (S m))%nat -> (j < S (S m))%nat -> A' i j = A' j i). { intros i j Hi Hj. unfold A'. apply Hs; unfold sg; destruct (_ =? _)%nat eqn:Ei; auto; apply Nat.eqb_neq in Ei; lia. }
    assert (half : forall i j, (j <= i)%nat -> (i < S (S m))%nat -> y i * y j * (A' i j - M2 i j) <= c i + c j).
    { intros i j Hj Hi. destruct (Nat.eq_dec i (S m)) as [->|Hne].
      - destruct (Nat.eq_dec j (S m)) as [->|]; [exact corner|]. destruct (Nat.eq_dec j m) as [->|]; [exact crit|]. apply low. lia.
      - destruct (Nat.eq_dec i j) as [->|]; [apply self; lia|apply old; lia]. }
    intros i j Hi Hj. destruct (Nat.le_gt_cases j i) as [K|K]; [apply half; lia|]. rewrite (As i j), (M2s i j) by auto. pose proof (half j i ltac:(lia) Hj). lra. }
  rewrite Q0 in all.
  set (x := fun i => if (i <? S m)%nat then y i else if (i =? p)%nat then 1 else 0).
  exists x. split.
  { exists p. split; auto. unfold x. rewrite (proj2 (Nat.ltb_ge p (S m))) by lia. rewrite Nat.eqb_refl. lra. }
  assert (emb : forall h h', (forall i, (i < S (S m))%nat -> h' i = h (sg i)) -> forall z z', (forall i, (i < S (S m))%nat -> z' i = z (sg i)) ->
    (forall i, (S m <= i < n)%nat -> i <> p -> z i = 0) -> Rsum n (fun i => h i * z i) = Rsum (S (S m)) (fun i => h' i * z' i)).
  { intros h h' Hh z z' Hz Hz0. rewrite (Rsum_support n p (S m)) by (try lia; intros i Hi Hne; rewrite Hz0 by auto; ring).
    cbn [Rsum]. rewrite (Hh (S m)), (Hz (S m)), (Hh m), (Hz m) by lia. unfold sg at 3 4. rewrite Nat.eqb_refl. unfold sg at 1 2. rewrite (proj2 (Nat.eqb_neq m (S m))) by lia.
    f_equal. f_equal. apply Rsum_ext. intros i Hi. rewrite (Hh i), (Hz i) by lia. unfold sg. rewrite (proj2 (Nat.eqb_neq i (S m))) by lia. reflexivity. }
  assert (xs : forall i, (i < S (S m))%nat -> y i = x (sg i)).
  { intros i Hi. unfold x, sg. destruct (Nat.eqb_spec i (S m)) as [->|]; [rewrite (proj2 (Nat.ltb_ge p (S m))), Nat.eqb_refl by lia; exact Y1|]. now rewrite (proj2 (Nat.ltb_lt i (S m))) by lia. }
  assert (x0 : forall i, (S m <= i < n)%nat -> i <> p -> x i = 0).
  { intros i Hi Hne. unfold x. rewrite (proj2 (Nat.ltb_ge i (S m))), (proj2 (Nat.eqb_neq i p)) by lia. reflexivity. }
  assert (EQ : quad n A x = quad (S (S m)) A' y).
  { unfold quad, dot. rewrite (Rsum_ext n _ (fun i => mulmv n A x i * x i)) by (intros; ring). rewrite (Rsum_ext (S (S m)) _ (fun i => mulmv (S (S m)) A' y i * y i)) by (intros; ring).
    apply emb; auto. intros i Hi. unfold mulmv. symmetry. apply (emb (fun j => A (sg i) j) (fun j => A' i j)); auto. }
  assert (ES : Rsum n (fun i => A i i * (x i * x i)) = Rsum (S (S m)) (fun i => A' i i * (y i * y i))).
  { apply (emb (fun i => A i i) (fun i => A' i i)); [reflexivity| |].
    - intros i Hi. now rewrite <- xs.
    - intros i Hi Hne. rewrite x0 by auto. ring. }
  rewrite EQ, ES. unfold c in all. rewrite Rsum_scal in all. set (S0 := Rsum (S (S m)) (fun i => A' i i * (y i * y i))) in *.
  assert (S00 : 0 <= S0). { apply Rsum_nonneg. intros i Hi. specialize (Asg i Hi). apply Rmult_le_pos; [lra|apply Rle_0_sqr]. }
  assert (In : INR (S (S m)) <= INR n) by (apply le_INR; lia).
  assert (2 * INR (S (S m)) * (8 * nu * S0) <= 2 * INR n * (8 * nu * S0)). { apply Rmult_le_compat_r; [apply Rmult_le_pos; lra|lra]. }
  unfold nu in *. lra.
Qed.
End Rej.
