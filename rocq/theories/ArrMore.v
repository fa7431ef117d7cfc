(** More about arrays, for every number type: writing, copying, constructing, and the
    rank-one update of matrices that are not symmetric. *)
From Coq Require Import List Arith Bool Lia.
From Verif Require Import Num Res Arr ArrLemmas EllSpec ArrProps.
Import ListNotations.

Section M.
Context {N : Num}.
Notation arr := (Arr N).
Lemma rd_upd (l : list N) i v k : i < length l -> rd (upd l i v) k = if k =? i then Ok v else rd l k.
Proof.
  unfold rd. revert i k. induction l as [|h l IH]; intros i k H; [cbn in H; lia|]. destruct i, k; cbn [upd nth_error Nat.eqb]; auto.
  apply IH. cbn in H. lia.
Qed.
Lemma upd_len (l : list N) i v : length (upd l i v) = length l.
Proof. revert i. induction l as [|h l IH]; intros [|i]; cbn; auto. Qed.
Lemma setidx_ok (a b : arr) i v : a_setidx a i v = Ok b -> arows b = arows a /\ acols b = acols a /\ length (adata b) = length (adata a) /\
  forall k, a_idx b k = if k =? i then Ok v else a_idx a k.
Proof.
  unfold a_setidx, a_idx, wr. destruct (i <? length (adata a)) eqn:E; cbn [bind]; [|discriminate]. intros H. injection H as <-. cbn [arows acols adata].
  apply Nat.ltb_lt in E. repeat split; auto; [apply upd_len|]. intros k. now apply rd_upd.
Qed.
Lemma set_ok (a b : arr) i j v : a_set a i j v = Ok b -> arows b = arows a /\ acols b = acols a /\ length (adata b) = length (adata a) /\
  (forall i' j', j < acols a -> j' < acols a -> a_get b i' j' = if (i' =? i) && (j' =? j) then Ok v else a_get a i' j').
Proof.
  intros E. destruct (setidx_ok a b (i * acols a + j) v E) as (H1 & H2 & H3 & H4). repeat split; auto.
  intros i' j' Hj Hj'. unfold a_get. rewrite H2. change (a_idx b (i' * acols a + j') = if (i' =? i) && (j' =? j) then Ok v else a_idx a (i' * acols a + j')).
  rewrite H4. assert (G : (i' * acols a + j' =? i * acols a + j) = (i' =? i) && (j' =? j)); [|now rewrite G].
  destruct (Nat.eqb_spec i' i), (Nat.eqb_spec j' j); cbn [andb]; subst; try apply Nat.eqb_refl; apply Nat.eqb_neq; nia.
Qed.
Lemma setidx_panic (a : arr) i v : a_setidx a i v = Panic <-> length (adata a) <= i.
Proof. unfold a_setidx, wr. destruct (i <? length (adata a)) eqn:E; cbn [bind]; [apply Nat.ltb_lt in E|apply Nat.ltb_ge in E]; split; intros; try discriminate; auto; lia. Qed.
Lemma copy_ok (a b c : arr) : a_copy_from a b = Ok c -> arows c = arows a /\ acols c = acols a /\ adata c = adata b.
Proof. unfold a_copy_from, Res.assert. destruct (_ =? _); [|discriminate]. intros E. injection E as <-. auto. Qed.
Lemma shape_vec_ok r c (d : list N) a : a_from_shape_vec r c d = Ok a -> arows a = r /\ acols a = c /\ forall i j, i < r -> j < c -> a_get a i j = rd d (i * c + j).
Proof. unfold a_from_shape_vec, Res.assert. destruct (_ =? _); [|discriminate]. intros E. injection E as <-. repeat split; auto. Qed.
Lemma rd_repeat (v : N) n i : rd (repeat v n) i = if i <? n then Ok v else Panic.
Proof. unfold rd. revert i. induction n; intros i; cbn [repeat]; [destruct i; reflexivity|]. destruct i; cbn [nth_error]; [reflexivity|]. apply IHn. Qed.
Lemma rank_one_lower n (a u : arr) alpha : 0 < n -> is_mat n n a -> is_vec n u -> exists b, a_rank_one_update a alpha u = Ok b /\ is_mat n n b /\
  forall i j, i < n -> j <= i -> mget n (adata b) i j = nadd (mget n (adata a) i j) (nmul (nmul alpha (vget u i)) (vget u j)) /\ mget n (adata b) j i = mget n (adata b) i j.
Proof.
  intros Hn Ha Hu. destruct (a_rank_one_ok n a u alpha Hn Ha Hu) as (d & E & Ld & Hd). exists (mkArr d n n). split; [exact E|]. split; [now repeat split|].
  intros i j Hi Hj. cbn [adata]. rewrite !Hd by lia. unfold raised. rewrite (proj2 (Nat.leb_le j i) Hj).
  split; [reflexivity|]. destruct (i <=? j) eqn:Eij; [|reflexivity]. apply Nat.leb_le in Eij. assert (i = j) by lia. now subst.
Qed.
End M.
