(** Shapes, panics and results of the operations of arr.rs (C34-C37). *)
From Coq Require Import ZArith List Bool Arith Lia.
From Verif Require Import Num Res Arr ArrLemmas.
Import ListNotations.

(** The arrays the public constructors build: matrices, vectors, and the empty
    data with zero columns that [zeros(r, 0)] makes. *)
Definition arr_wf {N : Num} (a : Arr N) : Prop :=
  (0 < acols a /\ length (adata a) = arows a * acols a) \/
  (acols a = 0 /\ (length (adata a) = arows a \/ length (adata a) = 0)).

Lemma assert_panic {A} b (k : res A) : Res.assert b k = Panic <-> b = false \/ k = Panic.
Proof. destruct b; simpl; intuition discriminate. Qed.
Lemma not_panic {A} (m : res A) : m <> Panic <-> exists a, m = Ok a.
Proof. destruct m; split; intros H; try eauto; try discriminate; try congruence. now destruct H. Qed.

Lemma nth_slice {A} (d : list A) s l j x : j < l -> nth j (firstn l (skipn s d)) x = nth (s + j) d x.
Proof.
  revert d l j. induction s; simpl.
  - intros d. induction d; intros [|l] [|j] Hj; simpl; auto; try lia. apply IHd. lia.
  - intros [|y d] l j Hj; [rewrite firstn_nil; now destruct j|]. now apply IHs.
Qed.

Section Gen.
Context {N : Num}.
Notation arr := (Arr N).

Lemma two_d (a : arr) : a_is_2d a = true <-> 0 < acols a.
Proof. apply Nat.ltb_lt. Qed.
Lemma not_two_d (a : arr) : a_is_2d a = false <-> acols a = 0.
Proof. unfold a_is_2d. destruct (Nat.ltb_spec 0 (acols a)); split; intros; try discriminate; try lia; auto. Qed.

(** ** Binary element-wise operations *)
Lemma a_zip_panic f (a b : arr) : a_zip f a b = Panic <-> length (adata a) <> length (adata b).
Proof.
  unfold a_zip. rewrite assert_panic. unfold a_len. rewrite Nat.eqb_neq. split; [intros [H|H]; [auto|discriminate]|auto].
Qed.
Lemma a_zip_ok f (a b c : arr) : a_zip f a b = Ok c ->
  arows c = arows a /\ acols c = acols a /\ length (adata c) = length (adata a) /\
  forall i, i < length (adata a) -> vget c i = f (vget a i) (vget b i).
Proof.
  unfold a_zip, Res.assert, a_len. destruct (Nat.eqb_spec (length (adata a)) (length (adata b))) as [E|]; [|discriminate].
  intros H. inversion H; subst c; clear H. cbn [arows acols adata]. split; auto. split; auto. split.
  - rewrite zipwith_length. lia.
  - intros i Hi. unfold vget. cbn [adata]. apply zipwith_nth; lia.
Qed.

Lemma a_binary_shape (op : arr -> arr -> res arr) (a b : arr) : op = a_add \/ op = a_sub \/ op = a_mul ->
  (op a b = Panic <-> length (adata a) <> length (adata b)) /\
  (forall c, op a b = Ok c -> arows c = arows a /\ acols c = acols a /\ length (adata c) = length (adata a)).
Proof.
  intros [->|[->| ->]]; (split; [apply a_zip_panic|intros c E; apply a_zip_ok in E; tauto]).
Qed.

(** ** dot, dot_mv *)
Lemma a_dot_panic (a b : arr) : a_dot a b = Panic <->
  0 < acols a \/ 0 < acols b \/ length (adata a) <> length (adata b).
Proof.
  unfold a_dot. rewrite !assert_panic. rewrite andb_false_iff, !negb_false_iff, !two_d, Nat.eqb_neq. unfold a_len.
  intuition discriminate.
Qed.
Lemma a_dot_mv_panic (a x : arr) : arr_wf a -> (a_dot_mv a x = Panic <->
  acols a = 0 \/ 0 < acols x \/ acols a <> length (adata x)).
Proof.
  intros Hw. split.
  - intros H. destruct (Nat.eq_dec (acols a) 0) as [|H1]; auto. destruct (Nat.eq_dec (acols x) 0) as [H2|]; [|right; left; lia].
    destruct (Nat.eq_dec (acols a) (length (adata x))) as [H3|]; auto. exfalso.
    rewrite (a_dot_mv_ok (arows a) (acols a)) in H; [discriminate|lia| |].
    + destruct Hw as [[_ ?]|[? _]]; [split; auto|lia].
    + split; auto.
  - intros H. unfold a_dot_mv. rewrite !assert_panic, not_two_d, negb_false_iff, two_d, Nat.eqb_neq. unfold a_len. tauto.
Qed.
Lemma a_dot_mv_shape (a x y : arr) : arr_wf a -> a_dot_mv a x = Ok y ->
  arows y = arows a /\ acols y = 0 /\ length (adata y) = arows a.
Proof.
  intros Hw E.
  assert (Hn : a_dot_mv a x <> Panic) by (rewrite E; discriminate).
  rewrite a_dot_mv_panic in Hn by auto.
  rewrite (a_dot_mv_ok (arows a) (acols a)) in E.
  - inversion E. cbn. repeat split. now rewrite map_length, seq_length.
  - lia.
  - destruct Hw as [[_ ?]|[? _]]; [split; auto|lia].
  - split; lia.
Qed.

(** ** outer *)
Lemma a_outer_ok m n (a b : arr) : is_vec m a -> is_vec n b -> exists d, a_outer a b = Ok (mkArr d m n) /\
  length d = m * n /\ forall i j, i < m -> j < n -> mget n d i j = vget a i *! vget b j.
Proof.
  intros [La Ca] [Lb Cb]. unfold a_outer, Res.assert, a_is_2d, a_len. rewrite Ca, Cb, La, Lb. simpl.
  destruct (for_range_inv (fun k d => length d = m * n /\ forall i j, i < k -> j < n -> mget n d i j = vget a i *! vget b j)
    0 m (fun i d => for_range 0 n (fun j d => x <- a_idx a i;; y <- a_idx b j;; wr d (i * n + j) (x *! y)) d) (repeat n0 (m * n)))
    as (d & E & Ld & Hd).
  - lia.
  - split; [apply repeat_length|]. intros; lia.
  - intros i d [_ Hi] [Ld Hd].
    destruct (for_range_inv (fun k t => length t = m * n /\ (forall i' j, i' < i -> j < n -> mget n t i' j = vget a i' *! vget b j) /\
        forall j, j < k -> mget n t i j = vget a i *! vget b j)
      0 n (fun j d => x <- a_idx a i;; y <- a_idx b j;; wr d (i * n + j) (x *! y)) d) as (d' & E & Ld' & Hd1 & Hd2).
    + lia.
    + split; auto. split; auto. intros; lia.
    + intros j t [_ Hj] (Lt & Ht1 & Ht2). unfold a_idx.
      rewrite (rd_nth (adata a) _ n0) by lia. simpl. rewrite (rd_nth (adata b) _ n0) by lia. simpl.
      rewrite wr_ok by (rewrite Lt; now apply flat_lt). eexists. split; [reflexivity|]. split; [now rewrite upd_length|].
      assert (Fl : i * n + j < length t) by (rewrite Lt; now apply flat_lt).
      split.
      * intros i' j' Hi' Hj'. rewrite mget_upd by (auto; lia). destruct (Nat.eqb_spec i i'); [lia|]. simpl. auto.
      * intros j' Hj'. rewrite mget_upd by (auto; lia). rewrite Nat.eqb_refl. simpl.
        destruct (Nat.eqb_spec j j') as [<-|]; [reflexivity|]. apply Ht2. lia.
    + exists d'. split; auto. split; auto. intros i' j Hi' Hj. destruct (Nat.eq_dec i' i) as [->|]; auto. apply Hd1; lia.
  - rewrite E. simpl. exists d. auto.
Qed.
Lemma a_outer_panic (a b : arr) : a_outer a b = Panic <-> 0 < acols a \/ 0 < acols b.
Proof.
  split.
  - intros H. destruct (Nat.eq_dec (acols a) 0) as [H1|]; [|lia]. destruct (Nat.eq_dec (acols b) 0) as [H2|]; [|lia]. exfalso.
    destruct (a_outer_ok (length (adata a)) (length (adata b)) a b) as (d & E & _); [split; auto..|]. congruence.
  - intros H. unfold a_outer. rewrite assert_panic, andb_false_iff, !negb_false_iff, !two_d. auto.
Qed.

(** ** rank_one_update *)
Definition raised (old : nat -> nat -> N) (alpha : N) (u : nat -> N) (i j : nat) : N :=
  if j <=? i then old i j +! alpha *! u i *! u j else old j i +! alpha *! u j *! u i.

Notation r1body n alpha u := (fun i d => ui <- a_idx u i ;;
         for_range 0 (i + 1) (fun j d => uj <- a_idx u j ;; v <- rd d (i * n + j) ;;
           d <- wr d (i * n + j) (v +! alpha *! ui *! uj) ;;
           if negb (i =? j) then (w <- rd d (i * n + j) ;; wr d (j * n + i) w) else Ok d) d).

Lemma rank_one_loop n alpha (g : arr) L d : length (adata g) = n -> length d = L -> n * n <= L ->
  exists d', for_range 0 n (r1body n alpha g) d = Ok d' /\ length d' = L /\
    forall i j, i < n -> j < n -> mget n d' i j = raised (mget n d) alpha (vget g) i j.
Proof.
  intros Lg Ld HL.
  set (new := raised (mget n d) alpha (vget g)).
  destruct (for_range_inv (fun i t => length t = L /\ forall a b, a < n -> b < n ->
      mget n t a b = if Nat.max a b <? i then new a b else mget n d a b)
    0 n (r1body n alpha g) d)
    as (d' & E & Ld' & Hd').
  - lia.
  - split; auto.
  - intros i t [_ Hi] [Lt Ht]. unfold a_idx. rewrite (rd_nth (adata g) _ n0) by lia. cbn [bind]. cbv zeta.
    fold (vget g i).
    destruct (for_range_inv (fun j t' => length t' = L /\ forall a b, a < n -> b < n ->
        mget n t' a b = if (Nat.max a b <? i) || ((Nat.max a b =? i) && (Nat.min a b <? j)) then new a b else mget n d a b)
      0 (i + 1) (fun j d1 => gj <- rd (adata g) j;;
         v <- rd d1 (i * n + j);; d2 <- wr d1 (i * n + j) (v +! alpha *! vget g i *! gj);;
         (if negb (i =? j) then w <- rd d2 (i * n + j);; wr d2 (j * n + i) w else Ok d2)) t)
      as (t' & E & Lt' & Ht').
    + lia.
    + split; auto. intros a b Ha Hb. rewrite Ht by auto.
      destruct (Nat.ltb_spec (Nat.min a b) 0); [lia|]. now rewrite Bool.andb_false_r, Bool.orb_false_r.
    + intros j u [_ Hj] [Lu Hu].
      assert (Fij : i * n + j < n * n) by (apply flat_lt; lia).
      assert (Fji : j * n + i < n * n) by (apply flat_lt; lia).
      rewrite (rd_nth (adata g) _ n0) by lia. cbn [bind]. fold (vget g j).
      rewrite (rd_nth u _ n0) by lia. cbn [bind]. rewrite wr_ok by lia. cbn [bind].
      fold (mget n u i j).
      assert (Eold : mget n u i j = mget n d i j).
      { rewrite Hu by lia. destruct (Nat.ltb_spec (Nat.max i j) i); [lia|].
        destruct (Nat.ltb_spec (Nat.min i j) j); [lia|]. now rewrite Bool.andb_false_r. }
      rewrite Eold. set (nv := mget n d i j +! alpha *! vget g i *! vget g j).
      assert (En1 : new i j = nv). { unfold new, raised. destruct (Nat.leb_spec j i); [reflexivity|lia]. }
      assert (En2 : new j i = nv).
      { unfold new, raised. destruct (Nat.leb_spec i j); [|reflexivity]. replace j with i by lia.
        unfold nv. now replace j with i by lia. }
      destruct (Nat.eqb_spec i j) as [<-|Ne]; cbn [negb].
      * eexists. split; [reflexivity|]. split; [now rewrite upd_length|].
        intros a b Ha Hb. rewrite mget_upd by lia. rewrite Hu by lia.
        destruct (Nat.eqb_spec i a) as [<-|]; [destruct (Nat.eqb_spec i b) as [<-|]|]; cbn [andb].
        -- rewrite En1. destruct (Nat.ltb_spec (Nat.max i i) i); [lia|]. destruct (Nat.eqb_spec (Nat.max i i) i); [|lia].
           destruct (Nat.ltb_spec (Nat.min i i) (S i)); [reflexivity|lia].
        -- destruct (Nat.ltb_spec (Nat.max i b) i), (Nat.eqb_spec (Nat.max i b) i), (Nat.ltb_spec (Nat.min i b) i),
             (Nat.ltb_spec (Nat.min i b) (S i)); auto; lia.
        -- destruct (Nat.ltb_spec (Nat.max a b) i), (Nat.eqb_spec (Nat.max a b) i), (Nat.ltb_spec (Nat.min a b) i),
             (Nat.ltb_spec (Nat.min a b) (S i)); auto; lia.
      * rewrite (rd_nth _ _ n0) by (rewrite upd_length; lia). cbn [bind].
        rewrite nth_upd_same by lia. rewrite wr_ok by (rewrite upd_length; lia).
        eexists. split; [reflexivity|]. split; [now rewrite !upd_length|].
        intros a b Ha Hb. rewrite mget_upd by (try rewrite upd_length; lia).
        rewrite mget_upd by lia. rewrite Hu by lia.
        destruct (Nat.eqb_spec j a) as [<-|]; [destruct (Nat.eqb_spec i b) as [<-|]|]; cbn [andb].
        -- rewrite En2. destruct (Nat.ltb_spec (Nat.max j i) i); [lia|]. destruct (Nat.eqb_spec (Nat.max j i) i); [|lia].
           destruct (Nat.ltb_spec (Nat.min j i) (S j)); [reflexivity|lia].
        -- destruct (Nat.eqb_spec i j); [lia|]. cbn [andb].
           destruct (Nat.ltb_spec (Nat.max j b) i), (Nat.eqb_spec (Nat.max j b) i), (Nat.ltb_spec (Nat.min j b) j),
             (Nat.ltb_spec (Nat.min j b) (S j)); auto; lia.
        -- destruct (Nat.eqb_spec i a) as [<-|]; [destruct (Nat.eqb_spec j b) as [<-|]|]; cbn [andb].
           ++ rewrite En1. destruct (Nat.ltb_spec (Nat.max i j) i); [lia|]. destruct (Nat.eqb_spec (Nat.max i j) i); [|lia].
              destruct (Nat.ltb_spec (Nat.min i j) (S j)); [reflexivity|lia].
           ++ destruct (Nat.ltb_spec (Nat.max i b) i), (Nat.eqb_spec (Nat.max i b) i), (Nat.ltb_spec (Nat.min i b) j),
                (Nat.ltb_spec (Nat.min i b) (S j)); auto; lia.
           ++ destruct (Nat.ltb_spec (Nat.max a b) i), (Nat.eqb_spec (Nat.max a b) i), (Nat.ltb_spec (Nat.min a b) j),
                (Nat.ltb_spec (Nat.min a b) (S j)); auto; lia.
    + exists t'. split; auto. split; auto. intros a b Ha Hb. rewrite Ht' by auto.
      destruct (Nat.ltb_spec (Nat.max a b) i), (Nat.eqb_spec (Nat.max a b) i), (Nat.ltb_spec (Nat.min a b) (i + 1)),
        (Nat.ltb_spec (Nat.max a b) (S i)); auto; lia.
  - exists d'. split; auto. split; auto. intros a b Ha Hb. rewrite Hd' by auto.
    destruct (Nat.ltb_spec (Nat.max a b) n); auto; lia.
Qed.

(** a run of the loops touches (n-1, n-1) in stride n *)
Lemma rank_one_in_range n alpha (g : arr) d d' : for_range 0 n (r1body n alpha g) d = Ok d' ->
  0 < n -> (n - 1) * n + (n - 1) < length d.
Proof.
  intros E Hn.
  assert (H : length d' = length d /\ (0 < n -> (n - 1) * n + (n - 1) < length d)); [|now apply H].
  apply (for_range_inv_ok (fun k t => length t = length d /\ (0 < k -> (k - 1) * n + (k - 1) < length d)) 0 n _ d d' ltac:(lia) E).
  - split; auto. lia.
  - intros i t t' _ [Lt _] Eb. apply bind_inv in Eb as (ui & _ & Eb).
    assert (H : length t' = length d /\ (0 < i + 1 -> i * n + (i + 1 - 1) < length d)).
    { apply (for_range_inv_ok (fun k s => length s = length d /\ (0 < k -> i * n + (k - 1) < length d)) 0 (i + 1) _ t t' ltac:(lia) Eb).
      - split; auto. lia.
      - intros j s s' _ [Ls _] Es. apply bind_inv in Es as (uj & _ & Es). apply bind_inv in Es as (v & Ev & Es).
        apply bind_inv in Es as (s2 & Ew & Es).
        assert (Hr : i * n + j < length s) by (apply rd_ok_iff; eauto).
        rewrite wr_ok in Ew by auto. inversion Ew; subst s2. split.
        + destruct (negb (i =? j)).
          * apply bind_inv in Es as (w & _ & Es). unfold wr in Es. destruct (_ <? _); [|discriminate].
            inversion Es. now rewrite !upd_length.
          * inversion Es. now rewrite upd_length.
        + intros _. replace (S j - 1) with j by lia. lia. }
    destruct H as [H1 H2]. split; auto. intros _. replace (S i - 1) with i by lia. specialize (H2 ltac:(lia)). lia.
Qed.

Lemma a_rank_one_panic (a u : arr) alpha : arr_wf a -> (a_rank_one_update a alpha u = Panic <->
  acols a = 0 \/ 0 < acols u \/ arows a <> length (adata u) \/ acols a < arows a).
Proof.
  intros Hw. unfold a_rank_one_update. cbv zeta. rewrite !assert_panic, not_two_d, negb_false_iff, two_d, Nat.eqb_neq. unfold a_len.
  split.
  - intros [H|[H|[H|H]]]; auto.
    destruct (Nat.eq_dec (acols a) 0) as [|Hc]; auto. destruct (Nat.eq_dec (arows a) (length (adata u))) as [Hr|]; auto.
    destruct (Nat.lt_ge_cases (acols a) (arows a)) as [|Hge]; auto. exfalso.
    destruct Hw as [[_ Hl]|[? _]]; [|lia].
    destruct (rank_one_loop (arows a) alpha u (length (adata a)) (adata a)) as (d' & E & _); auto.
    + rewrite Hl. now apply Nat.mul_le_mono_l.
    + rewrite E in H. discriminate.
  - intros [H|[H|[H|H]]]; auto.
    destruct (Nat.eq_dec (acols a) 0) as [|Hc]; auto. destruct (Nat.eq_dec (arows a) (length (adata u))) as [Hr|]; auto.
    right. right. right. destruct Hw as [[_ Hl]|[? _]]; [|lia].
    match goal with |- bind ?l _ = _ => destruct l as [d'|] eqn:E end; [|reflexivity]. exfalso.
    apply rank_one_in_range in E; [|lia]. rewrite Hl in E.
    assert (arows a * acols a <= arows a * (arows a - 1)) by (apply Nat.mul_le_mono_l; lia). nia.
Qed.
Lemma a_rank_one_ok n (a u : arr) alpha : 0 < n -> is_mat n n a -> is_vec n u ->
  exists d, a_rank_one_update a alpha u = Ok (mkArr d n n) /\ length d = n * n /\
    forall i j, i < n -> j < n -> mget n d i j = raised (mget n (adata a)) alpha (vget u) i j.
Proof.
  intros Hn (La & Ra & Ca) (Lu & Cu). unfold a_rank_one_update, Res.assert, a_is_2d, a_len. rewrite Ra, Ca, Cu, Lu.
  apply Nat.ltb_lt in Hn. rewrite Hn, Nat.eqb_refl. simpl.
  destruct (rank_one_loop n alpha u (n * n) (adata a)) as (d & E & Ld & Hd); auto. exists d. rewrite E. auto.
Qed.

(** ** row, copy_from, from_shape_vec, element access *)
Lemma slice_ok (d : list N) s l : s + l <= length d -> slice d s l = Ok (firstn l (skipn s d)).
Proof. intros H. unfold slice, Res.assert. apply Nat.leb_le in H. now rewrite H. Qed.
Lemma a_row_panic (a : arr) i : arr_wf a -> (a_row a i = Panic <-> acols a = 0 \/ arows a <= i).
Proof.
  intros Hw. unfold a_row. rewrite !assert_panic, not_two_d, Nat.ltb_ge. split.
  - intros [H|[H|H]]; auto. destruct (Nat.eq_dec (acols a) 0) as [|Hc]; auto.
    destruct (Nat.lt_ge_cases i (arows a)) as [Hi|]; auto. exfalso.
    destruct Hw as [[_ Hl]|[? _]]; [|lia].
    rewrite slice_ok in H; [discriminate|]. rewrite Hl. assert ((i + 1) * acols a <= arows a * acols a) by (apply Nat.mul_le_mono_r; lia). lia.
  - tauto.
Qed.
Lemma a_row_ok (a : arr) i r : arr_wf a -> a_row a i = Ok r -> is_vec (acols a) r /\ arows r = acols a /\
  forall j, j < acols a -> vget r j = mget (acols a) (adata a) i j.
Proof.
  intros Hw E. assert (Hn : a_row a i <> Panic) by (rewrite E; discriminate). rewrite a_row_panic in Hn by auto.
  destruct Hw as [[Hc Hl]|[? _]]; [|lia].
  assert (Hb : i * acols a + acols a <= length (adata a)).
  { rewrite Hl. assert ((i + 1) * acols a <= arows a * acols a) by (apply Nat.mul_le_mono_r; lia). lia. }
  unfold a_row, Res.assert in E. apply two_d in Hc as Hc'. rewrite Hc' in E.
  destruct (i <? arows a); [|discriminate]. rewrite slice_ok in E by auto. simpl in E. inversion E; subst r; clear E.
  assert (Lf : length (firstn (acols a) (skipn (i * acols a) (adata a))) = acols a) by (rewrite firstn_length, skipn_length; lia).
  split; [split; auto|]. split; auto. intros j Hj. unfold vget, mget. cbn [adata].
  apply nth_slice. auto.
Qed.
Lemma a_copy_panic (a b : arr) : a_copy_from a b = Panic <-> length (adata a) <> length (adata b).
Proof. unfold a_copy_from. rewrite assert_panic, Nat.eqb_neq. unfold a_len. intuition discriminate. Qed.
Lemma a_shape_vec_panic r c (d : list N) : a_from_shape_vec r c d = Panic <-> length d <> r * c.
Proof. unfold a_from_shape_vec. rewrite assert_panic, Nat.eqb_neq. intuition discriminate. Qed.
Lemma rd_panic_iff {A} (l : list A) i : rd l i = Panic <-> length l <= i.
Proof.
  split; [|apply rd_panic]. intros H. destruct (Nat.lt_ge_cases i (length l)) as [Hi|]; auto.
  apply rd_ok_iff in Hi as [v E]. congruence.
Qed.
Lemma wr_panic_iff {A} (l : list A) i v : wr l i v = Panic <-> length l <= i.
Proof.
  split; [|apply wr_panic]. intros H. destruct (Nat.lt_ge_cases i (length l)) as [Hi|]; auto.
  rewrite wr_ok in H by auto. discriminate.
Qed.
Lemma a_get_panic (a : arr) i j : a_get a i j = Panic <-> length (adata a) <= i * acols a + j.
Proof. apply rd_panic_iff. Qed.
Lemma a_set_panic (a : arr) i j v : a_set a i j v = Panic <-> length (adata a) <= i * acols a + j.
Proof.
  unfold a_set. destruct (wr _ _ _) eqn:E; simpl.
  - split; [discriminate|]. intros H. apply (wr_panic_iff (adata a) _ v) in H. congruence.
  - split; auto. intros _. now apply wr_panic_iff in E.
Qed.
Lemma a_idx_panic (a : arr) i : a_idx a i = Panic <-> length (adata a) <= i.
Proof. apply rd_panic_iff. Qed.
(** a column index past the row end reads the next row *)
Lemma a_get_alias (a : arr) i j : a_get a i (acols a + j) = a_get a (S i) j.
Proof. unfold a_get. f_equal. lia. Qed.

(** ** the element-wise functions cos, ln, abs, exp, sqrt *)
Lemma a_elementwise_ok f (a : arr) : (0 < acols a /\ length (adata a) = arows a * acols a) \/ (acols a = 0 /\ length (adata a) = arows a) ->
  a_elementwise f a = Ok (mkArr (map f (adata a)) (arows a) (acols a)).
Proof.
  intros Hw. unfold a_elementwise, a_len.
  assert (Hs : exists z, make_same_shape a = mkArr z (arows a) (acols a) /\ length z = length (adata a)).
  { unfold make_same_shape, a_is_2d. destruct Hw as [[Hc Hl]|[Hc Hl]].
    - apply Nat.ltb_lt in Hc. rewrite Hc. eexists. split; [reflexivity|]. now rewrite repeat_length.
    - rewrite Hc. simpl. eexists. split; [reflexivity|]. now rewrite repeat_length. }
  destruct Hs as (z & -> & Lz).
  destruct (for_range_inv (fun k (o : arr) => exists d, o = mkArr d (arows a) (acols a) /\ length d = length (adata a) /\
     forall i, i < k -> nth i d n0 = f (vget a i))
    0 (length (adata a)) (fun i o => x <- a_idx a i;; a_setidx o i (f x)) (mkArr z (arows a) (acols a))) as (o & E & d & -> & Ld & Hd).
  - lia.
  - exists z. repeat split; auto. intros; lia.
  - intros i t [_ Hi] (d & -> & Ld & Hd). unfold a_idx, a_setidx. rewrite (rd_nth (adata a) _ n0) by lia. simpl.
    rewrite wr_ok by lia. simpl. eexists. split; [reflexivity|]. eexists. split; [reflexivity|]. split; [now rewrite upd_length|].
    intros k Hk. rewrite nth_upd by lia. destruct (Nat.eqb_spec i k) as [<-|]; [reflexivity|]. apply Hd. lia.
  - rewrite E. f_equal. f_equal. apply nth_ext with n0 (f n0).
    + now rewrite map_length.
    + intros i Hi. rewrite Hd by lia. rewrite map_nth. reflexivity.
Qed.
(** but on [zeros(r, 0)] they return [r] zeros for an input without elements *)
Lemma a_elementwise_empty f r : 
  a_elementwise f (a_zeros r 0 : arr) = Ok (mkArr (repeat n0 r) r 0) /\ a_len (a_zeros r 0 : arr) = 0.
Proof.
  unfold a_elementwise, a_zeros, a_len, make_same_shape, a_is_2d, a_new. rewrite Nat.mul_0_r. simpl. auto.
Qed.
End Gen.
