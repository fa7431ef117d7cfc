(** What the array loops compute, for every number type. *)
From Coq Require Import ZArith List Bool Arith Lia.
From Verif Require Import Num Res Arr.
Import ListNotations.

(** Left-to-right accumulation of [f 0, ..., f (n-1)] onto [z]. *)
Fixpoint accum {N : Num} (z : N) (f : nat -> N) (n : nat) : N :=
  match n with O => z | S k => accum z f k +! f k end.
Lemma accum_ext {N : Num} (z : N) f g n : (forall i, i < n -> f i = g i) -> accum z f n = accum z g n.
Proof. induction n; simpl; intros H; auto. rewrite H by lia. rewrite IHn; auto. Qed.

(** Entries of a flat row-major buffer with [n] columns. *)
Definition mget {N : Num} (n : nat) (d : list N) (i j : nat) : N := nth (i * n + j) d n0.

Lemma flat_inj n i j i' j' : j < n -> j' < n -> i * n + j = i' * n + j' -> i = i' /\ j = j'.
Proof.
  intros Hj Hj' E.
  assert (i = i').
  { transitivity ((i * n + j) / n); [apply Nat.div_unique with j; lia|].
    symmetry. apply Nat.div_unique with j'; lia. }
  subst. split; auto. lia.
Qed.
Lemma flat_lt n m i j : i < m -> j < n -> i * n + j < m * n.
Proof. intros Hi Hj. assert (i * n + n <= m * n) by (rewrite <- Nat.mul_succ_l; apply Nat.mul_le_mono_r; lia). lia. Qed.

Lemma mget_upd {N : Num} n (d : list N) i j v i' j' : j < n -> j' < n -> i * n + j < length d ->
  mget n (upd d (i * n + j) v) i' j' = if (i =? i') && (j =? j') then v else mget n d i' j'.
Proof.
  intros Hj Hj' Hl. unfold mget. rewrite nth_upd by auto.
  destruct (Nat.eqb_spec (i * n + j) (i' * n + j')) as [E|E].
  - apply flat_inj in E as [-> ->]; auto. now rewrite !Nat.eqb_refl.
  - destruct (Nat.eqb_spec i i') as [->|]; auto. destruct (Nat.eqb_spec j j') as [->|]; auto. lia.
Qed.

Lemma nth_map_seq {A} (f : nat -> A) n i d : i < n -> nth i (map f (seq 0 n)) d = f i.
Proof.
  intros H. rewrite (nth_indep _ d (f 0)) by now rewrite map_length, seq_length.
  rewrite map_nth, seq_nth; auto.
Qed.
Lemma list_eq_nth {A} (l m : list A) d : length l = length m ->
  (forall i, i < length l -> nth i l d = nth i m d) -> l = m.
Proof. intros H E. apply nth_ext with d d; auto. Qed.
Lemma list_map_seq {A} (f : nat -> A) n l d : length l = n -> (forall i, i < n -> nth i l d = f i) ->
  l = map f (seq 0 n).
Proof.
  intros Hl H. apply list_eq_nth with d.
  - now rewrite map_length, seq_length.
  - intros i Hi. rewrite nth_map_seq by lia. apply H. lia.
Qed.

Section Gen.
Context {N : Num}.
Notation arr := (Arr N).

Definition is_vec (n : nat) (a : arr) : Prop := length (adata a) = n /\ acols a = 0.
Definition is_mat (r c : nat) (a : arr) : Prop :=
  length (adata a) = r * c /\ arows a = r /\ acols a = c.
(** components *)
Definition vget (a : arr) (i : nat) : N := nth i (adata a) n0.

Lemma zipwith_length f (l m : list N) : length (zipwith f l m) = Nat.min (length l) (length m).
Proof. revert m; induction l; destruct m; simpl; auto. Qed.
Lemma zipwith_nth f (l m : list N) i d d1 d2 : i < length l -> i < length m ->
  nth i (zipwith f l m) d = f (nth i l d1) (nth i m d2).
Proof. revert m i; induction l; destruct m, i; simpl; intros; try lia; auto. apply IHl; lia. Qed.

Lemma fold_accum (l : list N) : forall z, fold_left nadd l z = accum z (fun i => nth i l n0) (length l).
Proof.
  induction l as [|x l IH] using rev_ind; intros z; simpl; auto.
  rewrite fold_left_app. simpl. rewrite app_length, Nat.add_1_r. simpl.
  rewrite app_nth2 by lia. rewrite Nat.sub_diag. simpl. rewrite IH. f_equal.
  apply accum_ext. intros i Hi. now rewrite app_nth1.
Qed.

Lemma a_dot_ok n (a b : arr) : is_vec n a -> is_vec n b ->
  a_dot a b = Ok (accum nsum0 (fun i => vget a i *! vget b i) n).
Proof.
  intros [La Ca] [Lb Cb]. unfold a_dot, assert, a_is_2d, a_len. rewrite Ca, Cb, La, Lb. simpl.
  rewrite Nat.eqb_refl. unfold isum. rewrite fold_accum. rewrite zipwith_length, La, Lb, Nat.min_id.
  f_equal. apply accum_ext. intros i Hi. apply zipwith_nth; lia.
Qed.

Lemma a_dot_mv_ok r c (a x : arr) : 0 < c -> is_mat r c a -> is_vec c x ->
  a_dot_mv a x = Ok (mkArr (map (fun i => accum n0 (fun j => mget c (adata a) i j *! vget x j) c) (seq 0 r)) r 0).
Proof.
  intros Hc (La & Ra & Ca) (Lx & Cx). unfold a_dot_mv, assert, a_is_2d, a_len. rewrite Ra, Ca, Cx, Lx.
  apply Nat.ltb_lt in Hc. rewrite Hc. simpl. rewrite Nat.eqb_refl. apply Nat.ltb_lt in Hc.
  set (row i := accum n0 (fun j => mget c (adata a) i j *! vget x j) c).
  destruct (for_range_inv (fun i out => length out = r /\ forall k, k < r -> nth k out n0 = if k <? i then row k else n0)
    0 r (fun i out => for_range 0 c (fun j out => m <- rd (adata a) (i * c + j);; xj <- a_idx x j;; o <- rd out i;; wr out i (o +! m *! xj)) out)
    (repeat n0 r)) as (out & E & Lo & Ho).
  - lia.
  - split; [apply repeat_length|]. intros k Hk. simpl. apply nth_repeat.
  - intros i out [_ Hi] [Lo Ho].
    destruct (for_range_inv (fun j out => length out = r /\ forall k, k < r -> nth k out n0 =
        if k <? i then row k else if k =? i then accum n0 (fun j => mget c (adata a) i j *! vget x j) j else n0)
      0 c (fun j out => m <- rd (adata a) (i * c + j);; xj <- a_idx x j;; o <- rd out i;; wr out i (o +! m *! xj)) out)
      as (out' & E & Lo' & Ho').
    + lia.
    + split; auto. intros k Hk. rewrite Ho by auto. destruct (k <? i); auto. now destruct (k =? i).
    + intros j t [_ Hj] [Lt Ht].
      rewrite (rd_nth (adata a) _ n0) by (rewrite La; now apply flat_lt). simpl.
      unfold a_idx. rewrite (rd_nth (adata x) _ n0) by lia. simpl.
      rewrite (rd_nth t _ n0) by lia. simpl. rewrite wr_ok by lia.
      eexists. split; [reflexivity|]. split; [now rewrite upd_length|].
      intros k Hk. rewrite nth_upd by lia. destruct (Nat.eqb_spec i k) as [<-|Ne].
      * rewrite Ht by lia. rewrite Nat.ltb_irrefl, Nat.eqb_refl. reflexivity.
      * rewrite Ht by lia. destruct (k <? i); auto. destruct (Nat.eqb_spec k i); auto. lia.
    + exists out'. split; auto. split; auto. intros k Hk. rewrite Ho' by auto.
      destruct (Nat.ltb_spec k i), (Nat.ltb_spec k (S i)), (Nat.eqb_spec k i); try lia; auto. now subst k.
  - rewrite E. simpl. f_equal. f_equal. apply list_map_seq with n0; auto.
    intros i Hi. rewrite Ho by auto. apply Nat.ltb_lt in Hi. now rewrite Hi.
Qed.

Lemma a_eye_ok n : exists d, a_eye n = Ok (mkArr d n n) /\ length d = n * n /\
  forall i j, i < n -> j < n -> mget n d i j = if i =? j then n1 else (n0 : N).
Proof.
  unfold a_eye.
  destruct (for_range_inv (fun k (a : arr) => exists d, a = mkArr d n n /\ length d = n * n /\
     forall i j, i < n -> j < n -> mget n d i j = if (i =? j) && (i <? k) then n1 else n0)
     0 n (fun i a => a_set a i i n1) (a_zeros n n)) as (a & E & d & -> & Ld & Hd).
  - lia.
  - eexists. split; [reflexivity|]. split; [apply repeat_length|]. intros i j Hi Hj.
    rewrite Bool.andb_false_r. unfold mget. apply nth_repeat.
  - intros i t [_ Hi] (d & -> & Ld & Hd). unfold a_set. simpl.
    rewrite wr_ok by (rewrite Ld; now apply flat_lt). simpl. eexists. split; [reflexivity|].
    eexists. split; [reflexivity|]. split; [now rewrite upd_length|].
    intros i' j' Hi' Hj'. rewrite mget_upd by (auto; rewrite Ld; now apply flat_lt).
    rewrite Hd by auto.
    destruct (Nat.eqb_spec i i'), (Nat.eqb_spec i j'), (Nat.eqb_spec i' j'); subst; simpl; try lia; auto.
    + destruct (Nat.ltb_spec j' (S j')); auto; lia.
    + destruct (Nat.ltb_spec j' i), (Nat.ltb_spec j' (S i)); auto; lia.
  - exists d. split; auto. split; auto. intros i j Hi Hj. rewrite Hd by auto.
    apply Nat.ltb_lt in Hi. rewrite Hi. now rewrite Bool.andb_true_r.
Qed.

Lemma a_from_diag_ok n (v : arr) : is_vec n v -> exists d, a_from_diag v = Ok (mkArr d n n) /\ length d = n * n /\
  forall i j, i < n -> j < n -> mget n d i j = if i =? j then vget v i else (n0 : N).
Proof.
  intros [Lv Cv]. unfold a_from_diag, assert, a_is_2d, a_len. rewrite Cv, Lv. simpl.
  destruct (for_range_inv (fun k (a : arr) => exists d, a = mkArr d n n /\ length d = n * n /\
     forall i j, i < n -> j < n -> mget n d i j = if (i =? j) && (i <? k) then vget v i else n0)
     0 n (fun i a => x <- a_idx v i ;; a_set a i i x) (a_zeros n n)) as (a & E & d & -> & Ld & Hd).
  - lia.
  - eexists. split; [reflexivity|]. split; [apply repeat_length|]. intros i j Hi Hj.
    rewrite Bool.andb_false_r. unfold mget. apply nth_repeat.
  - intros i t [_ Hi] (d & -> & Ld & Hd). unfold a_idx. rewrite (rd_nth _ _ n0) by lia. simpl. unfold a_set. simpl.
    rewrite wr_ok by (rewrite Ld; now apply flat_lt). simpl. eexists. split; [reflexivity|].
    eexists. split; [reflexivity|]. split; [now rewrite upd_length|].
    intros i' j' Hi' Hj'. rewrite mget_upd by (auto; rewrite Ld; now apply flat_lt).
    rewrite Hd by auto.
    destruct (Nat.eqb_spec i i'), (Nat.eqb_spec i j'), (Nat.eqb_spec i' j'); subst; simpl; try lia; auto.
    + destruct (Nat.ltb_spec j' (S j')); auto; lia.
    + destruct (Nat.ltb_spec j' i), (Nat.ltb_spec j' (S i)); auto; lia.
  - exists d. split; auto. split; auto. intros i j Hi Hj. rewrite Hd by auto.
    apply Nat.ltb_lt in Hi. rewrite Hi. now rewrite Bool.andb_true_r.
Qed.
End Gen.
