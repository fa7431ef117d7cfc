(** What the LDL' factorisation computes, for every number type. *)
From Coq Require Import ZArith List Bool Arith Lia.
From Verif Require Import Num Res Arr ArrLemmas Ldlt.
Import ListNotations.

Section Gen.
Context {N : Num}.
Variables (n s : nat).

(** The value of the inner expression for row [i], column [j], in terms of the
    storage. *)
Definition piv (G : nat -> nat -> N) (st : list N) (i j : nat) : N :=
  if j =? s then G i j
  else G i j -! accum n0 (fun k => mget n st i (s + k) *! mget n st (s + k) j) (j - s).
Definition row_ok (G : nat -> nat -> N) (st : list N) (i : nat) : Prop :=
  (forall j, s <= j < i -> mget n st j i = piv G st i j /\ mget n st i j = mget n st j i /! mget n st j j) /\
  mget n st i i = piv G st i i.

Lemma piv_ext G st st' i j :
  (forall k, s <= k < j -> mget n st i k = mget n st' i k /\ mget n st k j = mget n st' k j) -> piv G st i j = piv G st' i j.
Proof.
  intros H. unfold piv. destruct (j =? s); auto. f_equal. apply accum_ext. intros k Hk.
  destruct (H (s + k)) as [-> ->]; [lia|auto].
Qed.
Lemma row_ok_ext G st st' i : (forall a b, s <= a <= i -> s <= b <= i -> mget n st a b = mget n st' a b) -> s <= i ->
  row_ok G st i -> row_ok G st' i.
Proof.
  intros H Hs [R1 R2]. split.
  - intros j Hj. destruct (R1 j Hj) as [A B]. rewrite <- !H by lia. split; auto. rewrite A. apply piv_ext.
    intros k Hk. split; apply H; lia.
  - rewrite <- H by lia. rewrite R2. apply piv_ext. intros k Hk. split; apply H; lia.
Qed.

Lemma ldlt_inner_ok i stop (st : list N) : length st = n * n -> i < n -> stop < n -> s <= stop ->
  ldlt_inner n s i stop st = Ok (accum n0 (fun k => mget n st i (s + k) *! mget n st (s + k) stop) (stop - s)).
Proof.
  intros Ls Hi Hst Hs. unfold ldlt_inner.
  destruct (for_range_inv (fun k v => v = accum n0 (fun k => mget n st i (s + k) *! mget n st (s + k) stop) (k - s)) s stop
    (fun k s0 => a <- rd st (i * n + k);; b <- rd st (k * n + stop);; Ok (s0 +! a *! b)) n0) as (v & E & H).
  - auto.
  - now rewrite Nat.sub_diag.
  - intros k v [Hk1 Hk2] Hv.
    rewrite (rd_nth st _ n0) by (rewrite Ls; apply flat_lt; lia). cbn [bind].
    rewrite (rd_nth st _ n0) by (rewrite Ls; apply flat_lt; lia). cbn [bind].
    eexists. split; [reflexivity|]. rewrite Nat.sub_succ_l by lia. cbn [accum]. rewrite <- Hv.
    replace (s + (k - s)) with k by lia. reflexivity.
  - now rewrite E, H.
Qed.

Lemma ldlt_row_ok i get (G : nat -> nat -> N) (st : list N) : length st = n * n -> s <= i < n ->
  (forall j, s <= j <= i -> get i j = Ok (G i j)) ->
  exists st', ldlt_row n s i get st = Ok (st', mget n st' i i) /\ length st' = n * n /\ row_ok G st' i /\
    forall a b, a < n -> b < n -> a <> i -> b <> i -> mget n st' a b = mget n st a b.
Proof.
  intros Ls [Hs Hi] Hg. unfold ldlt_row. rewrite Hg by lia. cbn [bind].
  match goal with |- context [for_range s i ?body (st, G i s)] =>
    destruct (for_range_inv (fun j '(t, diag) => length t = n * n /\
      (forall a b, a < n -> b < n -> a <> i -> b <> i -> mget n t a b = mget n st a b) /\
      (forall k, s <= k < j -> mget n t k i = piv G t i k /\ mget n t i k = mget n t k i /! mget n t k k) /\
      diag = piv G t i j) s i body (st, G i s)) as ([t diag] & E & Lt & Hun & Hrow & Hd)
  end.
  - auto.
  - repeat split; auto; try lia. unfold piv. now rewrite Nat.eqb_refl.
  - intros j [t diag] [Hj1 Hj2] (Lt & Hun & Hrow & Hd).
    rewrite wr_ok by (rewrite Lt; apply flat_lt; lia). cbn [bind].
    set (t1 := upd t (j * n + i) diag).
    assert (L1 : length t1 = n * n) by (unfold t1; rewrite upd_length; auto).
    rewrite (rd_nth t1 _ n0) by (rewrite L1; apply flat_lt; lia). cbn [bind].
    change (nth (j * n + j) t1 n0) with (mget n t1 j j).
    rewrite wr_ok by (rewrite L1; apply flat_lt; lia). cbn [bind].
    set (t2 := upd t1 (i * n + j) (diag /! mget n t1 j j)).
    assert (L2 : length t2 = n * n) by (unfold t2; rewrite upd_length; auto).
    rewrite ldlt_inner_ok by (auto; lia). cbn [bind]. rewrite Hg by lia. cbn [bind].
    assert (G1 : forall a b, a < n -> b < n -> mget n t1 a b = if (j =? a) && (i =? b) then diag else mget n t a b).
    { intros a b Ha Hb. unfold t1. apply mget_upd; auto. rewrite Lt; apply flat_lt; lia. }
    assert (G2 : forall a b, a < n -> b < n -> mget n t2 a b = if (i =? a) && (j =? b) then diag /! mget n t1 j j
        else if (j =? a) && (i =? b) then diag else mget n t a b).
    { intros a b Ha Hb. unfold t2. rewrite mget_upd; auto; try lia. 2: rewrite L1; apply flat_lt; lia. rewrite (G1 a b) by auto; reflexivity. }
    assert (G2o : forall a b, a < n -> b < n -> (a <> i \/ b <> j) -> (a <> j \/ b <> i) -> mget n t2 a b = mget n t a b).
    { intros a b Ha Hb H1 H2. rewrite G2 by auto.
      destruct (Nat.eqb_spec i a), (Nat.eqb_spec j b), (Nat.eqb_spec j a), (Nat.eqb_spec i b); simpl; auto; lia. }
    assert (Gji : mget n t2 j i = diag).
    { rewrite G2 by lia. rewrite (proj2 (Nat.eqb_neq i j)) by lia. simpl. now rewrite !Nat.eqb_refl. }
    assert (Gjj : mget n t2 j j = mget n t j j). { apply G2o; lia. }
    assert (Gij : mget n t2 i j = diag /! mget n t j j).
    { rewrite G2 by lia. rewrite !Nat.eqb_refl. simpl. f_equal. rewrite G1 by lia.
      rewrite (proj2 (Nat.eqb_neq i j)) by lia. now rewrite andb_false_r. }
    eexists. split; [reflexivity|]. split; auto. split; [|split].
    + intros a b Ha Hb Hai Hbi. rewrite G2o by lia. auto.
    + intros k Hk. destruct (Nat.eq_dec k j) as [->|Hne].
      * rewrite Gji, Gij, Gjj. split; auto. rewrite Hd. apply piv_ext. intros q Hq. split; symmetry; apply G2o; lia.
      * destruct (Hrow k) as [A B]; [lia|]. rewrite (G2o k i), (G2o i k), (G2o k k) by lia. split; auto.
        rewrite A. apply piv_ext. intros q Hq. split; symmetry; apply G2o; lia.
    + unfold piv. rewrite Nat.add_1_r. rewrite (proj2 (Nat.eqb_neq (S j) s)) by lia. reflexivity.
  - rewrite E. cbn [bind]. rewrite wr_ok by (rewrite Lt; apply flat_lt; lia). cbn [bind].
    set (t' := upd t (i * n + i) diag).
    assert (G1 : forall a b, a < n -> b < n -> mget n t' a b = if (i =? a) && (i =? b) then diag else mget n t a b).
    { intros a b Ha Hb. unfold t'. apply mget_upd; auto. rewrite Lt; apply flat_lt; lia. }
    assert (G1o : forall a b, a < n -> b < n -> (a <> i \/ b <> i) -> mget n t' a b = mget n t a b).
    { intros a b Ha Hb H. rewrite G1 by auto. destruct (Nat.eqb_spec i a), (Nat.eqb_spec i b); simpl; auto; lia. }
    assert (Gii : mget n t' i i = diag). { rewrite G1 by auto. now rewrite Nat.eqb_refl. }
    exists t'. split; [now rewrite Gii|]. split; [unfold t'; now rewrite upd_length|]. split.
    + split.
      * intros j Hj. destruct (Hrow j Hj) as [A B]. rewrite (G1o j i), (G1o i j), (G1o j j) by lia. split; auto.
        rewrite A. apply piv_ext. intros k Hk. split; symmetry; apply G1o; lia.
      * rewrite Gii, Hd. apply piv_ext. intros k Hk. split; symmetry; apply G1o; lia.
    + intros a b Ha Hb Hai Hbi. rewrite G1o by lia. auto.
Qed.

(** Rows from [s] to [e] determine the block. *)
Lemma rows_unique G1 G2 st1 st2 e : (forall i j, s <= j <= i -> i < e -> G1 i j = G2 i j) ->
  (forall i, s <= i < e -> row_ok G1 st1 i) -> (forall i, s <= i < e -> row_ok G2 st2 i) ->
  forall i j, s <= i < e -> s <= j < e -> mget n st1 i j = mget n st2 i j.
Proof.
  intros HG H1 H2.
  assert (K : forall m, m <= e -> forall i j, s <= i < m -> s <= j < m -> mget n st1 i j = mget n st2 i j).
  { induction m as [|m IH]; intros Hm; [lia|].
    destruct (Nat.le_gt_cases s m) as [Hsm|Hsm]; [|intros; lia].
    destruct (H1 m ltac:(lia)) as [A1 B1]. destruct (H2 m ltac:(lia)) as [A2 B2].
    assert (KR : forall q, q <= m -> forall k, s <= k < q -> mget n st1 k m = mget n st2 k m /\ mget n st1 m k = mget n st2 m k).
    { induction q as [|q IHq]; intros Hq k Hk; [lia|].
      destruct (Nat.eq_dec k q) as [->|]; [|apply IHq; lia].
      assert (E : mget n st1 q m = mget n st2 q m).
      { rewrite (proj1 (A1 q ltac:(lia))), (proj1 (A2 q ltac:(lia))). unfold piv. rewrite HG by lia.
        destruct (q =? s); auto. f_equal. apply accum_ext. intros k Hk'.
        rewrite (proj2 (IHq ltac:(lia) (s + k) ltac:(lia))). rewrite (IH ltac:(lia) (s + k) q) by lia. auto. }
      split; auto. rewrite (proj2 (A1 q ltac:(lia))), (proj2 (A2 q ltac:(lia))). rewrite E. f_equal. apply IH; lia. }
    assert (KD : mget n st1 m m = mget n st2 m m).
    { rewrite B1, B2. unfold piv. rewrite HG by lia. destruct (m =? s); auto. f_equal. apply accum_ext. intros k Hk.
      destruct (KR m ltac:(lia) (s + k) ltac:(lia)) as [-> ->]. auto. }
    intros i j Hi Hj. destruct (Nat.eq_dec i m) as [->|], (Nat.eq_dec j m) as [->|]; auto.
    - apply (KR m); lia.
    - apply (KR m); lia.
    - apply IH; lia. }
  intros i j Hi Hj. apply (K e); auto.
Qed.
End Gen.

Section Factor.
Context {N : Num}.
Variable n : nat.
Definition ldlt_wf (m : LDLT N) : Prop := l_ndim m = n /\ length (l_storage m) = n * n /\ length (adata (l_wit m)) = n.
Definition lower_ok (get : nat -> nat -> res N) (G : nat -> nat -> N) : Prop :=
  forall i j, j <= i -> i < n -> get i j = Ok (G i j).

Lemma ldlt_new_wf : ldlt_wf (ldlt_new n).
Proof. repeat split; simpl; apply repeat_length. Qed.

(** The strict factorisation. *)
Lemma ldlt_factor_ok get G (m : LDLT N) : ldlt_wf m -> lower_ok get G ->
  exists st, length st = n * n /\
   ((ldlt_factor get m = Ok (mkLDLT (0, 0) (l_wit m) n st, true) /\
      forall i, i < n -> row_ok n 0 G st i /\ (mget n st i i <=?! n0) = false) \/
    (exists p, p < n /\ ldlt_factor get m = Ok (mkLDLT (0, p + 1) (l_wit m) n st, false) /\
      (forall i, i <= p -> row_ok n 0 G st i) /\
      (forall i, i < p -> (mget n st i i <=?! n0) = false) /\ (mget n st p p <=?! n0) = true)).
Proof.
  intros (Hn & Ls & Lw) Hg. unfold ldlt_factor. rewrite Hn.
  match goal with |- context [loop_range 0 n ?body ?s0] =>
    destruct (loop_range_inv (fun i st => length st = n * n /\ forall k, k < i -> row_ok n 0 G st k /\ (mget n st k k <=?! n0) = false)
      (fun '(st, pos) => length st = n * n /\ exists p, p < n /\ pos = (0, p + 1) /\ (forall k, k <= p -> row_ok n 0 G st k) /\
         (forall k, k < p -> (mget n st k k <=?! n0) = false) /\ (mget n st p p <=?! n0) = true) 0 n body s0)
      as [(st & E & Lst & H)|([st pos] & E & Lst & H)]
  end.
  - lia.
  - split; auto. intros; lia.
  - intros i st [_ Hi] [Lst H].
    destruct (ldlt_row_ok n 0 i get G st Lst) as (st' & E & L' & R & U); [lia|intros; apply Hg; lia|].
    rewrite E. cbn [bind].
    assert (K : forall k, k < i -> row_ok n 0 G st' k /\ (mget n st' k k <=?! n0) = false).
    { intros k Hk. rewrite U by lia. destruct (H k Hk) as [H1 H2]. split; auto.
      apply (row_ok_ext n 0 G st); auto; [|lia]. intros a b Ha Hb. symmetry. apply U; lia. }
    destruct (mget n st' i i <=?! n0) eqn:B.
    + right. eexists. split; [reflexivity|]. split; auto. exists i. do 2 (split; auto).
      split; [|split; auto]. { intros k Hk. destruct (Nat.eq_dec k i) as [->|]; auto. apply K; lia. }
      intros k Hk. now apply K.
    + left. eexists. split; [reflexivity|]. split; auto. intros k Hk. destruct (Nat.eq_dec k i) as [->|]; [auto|apply K; lia].
  - exists st. split; auto. left. rewrite E. cbn [bind]. split; auto.
  - exists st. split; auto. right. destruct H as (p & Hp & -> & H1 & H2 & H3). exists p. split; auto.
    rewrite E. cbn [bind]. split; [|auto]. unfold ldlt_is_spd. simpl. replace (p + 1 =? 0) with false by (symmetry; apply Nat.eqb_neq; lia). reflexivity.
Qed.

(** The semidefinite variant: what a rejection means, and that it always answers. *)
Lemma ldlt_semi_ok get G (m : LDLT N) : ldlt_wf m -> lower_ok get G ->
  exists st, length st = n * n /\
   (ldlt_factor_semi get m = Ok (mkLDLT (0, 0) (l_wit m) n st, true) \/
    (exists s p, s <= p < n /\ ldlt_factor_semi get m = Ok (mkLDLT (s, p + 1) (l_wit m) n st, false) /\
      (forall i, s <= i <= p -> row_ok n s G st i) /\
      (forall i, s <= i < p -> (mget n st i i <?! n0) = false /\ (mget n st i i =?! n0) = false) /\ (mget n st p p <?! n0) = true)).
Proof.
  intros (Hn & Ls & Lw) Hg. unfold ldlt_factor_semi. rewrite Hn.
  match goal with |- context [loop_range 0 n ?body ?s0] =>
    destruct (loop_range_inv (fun i '(st, s) => length st = n * n /\ s <= i /\
        forall k, s <= k < i -> row_ok n s G st k /\ (mget n st k k <?! n0) = false /\ (mget n st k k =?! n0) = false)
      (fun '(st, pos) => length st = n * n /\ exists s p, s <= p < n /\ pos = (s, p + 1) /\ (forall k, s <= k <= p -> row_ok n s G st k) /\
         (forall k, s <= k < p -> (mget n st k k <?! n0) = false /\ (mget n st k k =?! n0) = false) /\ (mget n st p p <?! n0) = true) 0 n body s0)
      as [([st s] & E & Lst & H)|([st pos] & E & Lst & H)]
  end.
  - lia.
  - split; auto. split; auto. intros; lia.
  - intros i [st s] [_ Hi] (Lst & Hs & H).
    destruct (ldlt_row_ok n s i get G st Lst) as (st' & E & L' & R & U); [lia|intros; apply Hg; lia|].
    rewrite E. cbn [bind].
    assert (K : forall k, s <= k < i -> row_ok n s G st' k /\ (mget n st' k k <?! n0) = false /\ (mget n st' k k =?! n0) = false).
    { intros k Hk. rewrite U by lia. destruct (H k Hk) as [H1 H2]. split; auto.
      apply (row_ok_ext n s G st); auto; [|lia]. intros a b Ha Hb. symmetry. apply U; lia. }
    destruct (mget n st' i i <?! n0) eqn:B.
    + right. eexists. split; [reflexivity|]. split; auto. exists s, i. split; [lia|]. split; auto.
      split; [|split; auto]. { intros k Hk. destruct (Nat.eq_dec k i) as [->|]; auto. apply K; lia. }
      intros k Hk. now apply K.
    + destruct (mget n st' i i =?! n0) eqn:B2.
      * left. eexists. split; [reflexivity|]. split; auto. split; [lia|]. intros; lia.
      * left. eexists. split; [reflexivity|]. split; auto. split; [lia|]. intros k Hk. destruct (Nat.eq_dec k i) as [->|]; [auto|apply K; lia].
  - exists st. split; auto. left. rewrite E. reflexivity.
  - exists st. split; auto. right. destruct H as (s & p & Hp & -> & H1 & H2 & H3). exists s, p. split; auto.
    rewrite E. cbn [bind]. split; [|auto]. unfold ldlt_is_spd. simpl. replace (p + 1 =? 0) with false by (symmetry; apply Nat.eqb_neq; lia). reflexivity.
Qed.

(** The witness vector. *)
Lemma ldlt_witness_ok (l : LDLT N) s p : l_ndim l = n -> length (l_storage l) = n * n -> length (adata (l_wit l)) = n ->
  l_pos l = (s, p + 1) -> s <= p < n ->
  exists w, ldlt_witness l = Ok (mkLDLT (l_pos l) w n (l_storage l), -! mget n (l_storage l) p p) /\
    length (adata w) = n /\ vget w p = n1 /\
    (forall i, s <= i < p -> vget w i = -! accum n0 (fun k => mget n (l_storage l) (S i + k) i *! vget w (S i + k)) (p - i)) /\
    (forall i, i < s \/ p < i -> vget w i = vget (l_wit l) i).
Proof.
  intros Hn Ls Lw Hpos Hp. unfold ldlt_witness, ldlt_is_spd, assert. rewrite Hpos, Hn. cbn [snd fst].
  replace (p + 1 =? 0) with false by (symmetry; apply Nat.eqb_neq; lia). cbn [negb].
  replace (p + 1 - 1) with p by lia.
  unfold a_setidx at 1. rewrite wr_ok by lia. cbn [bind].
  match goal with |- context [for_rev (s + 1) (p + 1) ?body ?w0] =>
    destruct (for_rev_inv (fun i (w : Arr N) => length (adata w) = n /\ vget w p = n1 /\
      (forall k, i <= k + 1 <= p -> vget w k = -! accum n0 (fun q => mget n (l_storage l) (S k + q) k *! vget w (S k + q)) (p - k)) /\
      (forall k, k + 1 < i \/ p < k -> k <> p -> vget w k = vget (l_wit l) k)) (s + 1) (p + 1) body w0) as (w & E & Lw' & W1 & W2 & W3)
  end.
  - lia.
  - cbn [adata]. split; [now rewrite upd_length|]. split; [unfold vget; cbn [adata]; now rewrite nth_upd_same by lia|].
    split; [intros; lia|]. intros k Hk Hne. unfold vget. cbn [adata]. now rewrite nth_upd_other by auto.
  - intros i w [Hi1 Hi2] (L & W1 & W2 & W3).
    destruct (for_range_inv (fun k v => v = accum n0 (fun q => mget n (l_storage l) (i + q) (i - 1) *! vget w (i + q)) (k - i)) i (p + 1)
      (fun k s0 => a <- rd (l_storage l) (k * n + (i - 1));; b <- a_idx w k;; Ok (s0 +! a *! b)) n0) as (v & Ev & Hv).
    + lia.
    + now rewrite Nat.sub_diag.
    + intros k v [Hk1 Hk2] Hv. rewrite (rd_nth _ _ n0) by (rewrite Ls; apply flat_lt; lia). cbn [bind].
      unfold a_idx. rewrite (rd_nth _ _ n0) by lia. cbn [bind]. eexists. split; [reflexivity|].
      rewrite Nat.sub_succ_l by lia. cbn [accum]. rewrite <- Hv. replace (i + (k - i)) with k by lia. reflexivity.
    + rewrite Ev. cbn [bind]. unfold a_setidx. rewrite wr_ok by lia. cbn [bind].
      assert (V : forall k, vget (mkArr (upd (adata w) (i - 1) (-! v)) (arows w) (acols w)) k = if i - 1 =? k then -! v else vget w k).
      { intros k. unfold vget. cbn [adata]. apply nth_upd. lia. }
      eexists. split; [reflexivity|]. cbn [adata]. split; [now rewrite upd_length|].
      split. { rewrite V. replace (i - 1 =? p) with false by (symmetry; apply Nat.eqb_neq; lia). auto. }
      split.
      * intros k Hk. rewrite V. destruct (Nat.eqb_spec (i - 1) k) as [<-|Hne].
        -- f_equal. replace (p + 1 - i) with (p - (i - 1)) in Hv by lia. replace (S (i - 1)) with i by lia.
           etransitivity; [exact Hv|]. apply accum_ext. intros q Hq. rewrite V. replace (i - 1 =? i + q) with false by (symmetry; apply Nat.eqb_neq; lia). auto.
        -- rewrite W2 by lia. f_equal. apply accum_ext. intros q Hq. rewrite V.
           replace (i - 1 =? S k + q) with false by (symmetry; apply Nat.eqb_neq; lia). auto.
      * intros k Hk Hne. rewrite V. destruct (Nat.eqb_spec (i - 1) k); [lia|]. apply W3; auto; lia.
  - rewrite E. cbn [bind]. rewrite (rd_nth _ _ n0) by (rewrite Ls; apply flat_lt; lia). cbn [bind].
    exists w. split; auto. split; auto. split; auto. split.
    + intros i Hi. apply W2. lia.
    + intros i Hi. apply W3; lia.
Qed.
Lemma ldlt_witness_panics (l : LDLT N) : snd (l_pos l) = 0 -> ldlt_witness l = Panic.
Proof. intros H. unfold ldlt_witness, ldlt_is_spd. rewrite H. reflexivity. Qed.

(** The square root. *)
Lemma ldlt_sqrt_ok (l : LDLT N) : l_ndim l = n -> length (l_storage l) = n * n -> snd (l_pos l) = 0 ->
  exists r, ldlt_sqrt l = Ok (mkArr r n n) /\ length r = n * n /\
    forall i j, i < n -> j < n -> mget n r i j =
      if i =? j then nsqrt (mget n (l_storage l) i i)
      else if i <? j then mget n (l_storage l) j i *! nsqrt (mget n (l_storage l) i i) else n0.
Proof.
  intros Hn Ls Hp. unfold ldlt_sqrt, ldlt_is_spd, assert. rewrite Hp, Hn. simpl (0 =? 0). cbn [negb]. cbv iota.
  set (F := fun i j => if i =? j then nsqrt (mget n (l_storage l) i i)
      else if i <? j then mget n (l_storage l) j i *! nsqrt (mget n (l_storage l) i i) else n0).
  match goal with |- context [for_range 0 n ?body ?w0] =>
    destruct (for_range_inv (fun i (a : Arr N) => exists r, a = mkArr r n n /\ length r = n * n /\
      forall a b, a < n -> b < n -> mget n r a b = if a <? i then F a b else n0) 0 n body w0) as (a & E & r & -> & Lr & H)
  end.
  - lia.
  - exists (repeat n0 (n * n)). split; auto. split; [apply repeat_length|]. intros a b Ha Hb. simpl. unfold mget. apply nth_repeat.
  - intros i a [_ Hi] (r & -> & Lr & H). rewrite (rd_nth _ _ n0) by (rewrite Ls; apply flat_lt; lia). cbn [bind].
    fold (mget n (l_storage l) i i). unfold a_set at 1. cbn [adata arows acols]. rewrite wr_ok by (rewrite Lr; apply flat_lt; lia). cbn [bind].
    match goal with |- context [for_range (i + 1) n ?body ?w0] =>
      destruct (for_range_inv (fun j (a : Arr N) => exists r, a = mkArr r n n /\ length r = n * n /\
        forall a b, a < n -> b < n -> mget n r a b = if (a <? i) || ((a =? i) && (b <? j)) then F a b else n0) (i + 1) n body w0)
        as (a & E & r' & -> & Lr' & H')
    end.
    + lia.
    + eexists. split; [reflexivity|]. split; [now rewrite upd_length|]. intros a b Ha Hb. rewrite mget_upd by (auto; rewrite Lr; apply flat_lt; lia).
      rewrite H by auto. destruct (Nat.eqb_spec i a) as [<-|]; simpl.
      * rewrite Nat.ltb_irrefl, Nat.eqb_refl. simpl. destruct (Nat.eqb_spec i b) as [<-|].
        -- replace (i <? i + 1) with true by (symmetry; apply Nat.ltb_lt; lia). unfold F. now rewrite Nat.eqb_refl.
        -- destruct (Nat.ltb_spec b (i + 1)); auto. unfold F. rewrite (proj2 (Nat.eqb_neq i b)) by auto.
           rewrite (proj2 (Nat.ltb_ge i b)) by lia. auto.
      * rewrite (proj2 (Nat.eqb_neq a i)) by auto. simpl. now rewrite orb_false_r.
    + intros j a [Hj1 Hj2] (r1 & -> & L1 & H1). rewrite (rd_nth _ _ n0) by (rewrite Ls; apply flat_lt; lia). cbn [bind].
      unfold a_set. cbn [adata arows acols]. rewrite wr_ok by (rewrite L1; apply flat_lt; lia). cbn [bind].
      eexists. split; [reflexivity|]. eexists. split; [reflexivity|]. split; [now rewrite upd_length|].
      intros a b Ha Hb. rewrite mget_upd by (auto; rewrite L1; apply flat_lt; lia). rewrite H1 by auto.
      destruct (Nat.eqb_spec i a) as [<-|]; simpl.
      * rewrite Nat.ltb_irrefl, Nat.eqb_refl. simpl. destruct (Nat.eqb_spec j b) as [<-|].
        -- replace (j <? S j) with true by (symmetry; apply Nat.ltb_lt; lia). unfold F.
           rewrite (proj2 (Nat.eqb_neq i j)) by lia. rewrite (proj2 (Nat.ltb_lt i j)) by lia. auto.
        -- destruct (Nat.ltb_spec b j), (Nat.ltb_spec b (S j)); auto; lia.
      * rewrite (proj2 (Nat.eqb_neq a i)) by auto. reflexivity.
    + rewrite E. eexists. split; [reflexivity|]. exists r'. split; auto. split; auto. intros a b Ha Hb. rewrite H' by auto.
      destruct (Nat.ltb_spec a i), (Nat.eqb_spec a i), (Nat.ltb_spec b n), (Nat.ltb_spec a (S i)); simpl; auto; lia.
  - exists r. split; auto. split; auto. intros i j Hi Hj. rewrite H by auto. rewrite (proj2 (Nat.ltb_lt i n)) by auto. reflexivity.
Qed.
Lemma ldlt_sqrt_panics (l : LDLT N) : snd (l_pos l) <> 0 -> ldlt_sqrt l = Panic.
Proof. intros H. unfold ldlt_sqrt, ldlt_is_spd. rewrite (proj2 (Nat.eqb_neq _ _) H). reflexivity. Qed.
End Factor.
