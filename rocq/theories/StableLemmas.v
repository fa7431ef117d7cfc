(** What an update of EllStable computes, for every number type. *)
From Coq Require Import ZArith List Bool Arith Lia.
From Verif Require Import Num Res Arr CuttingPlane EllCalc Ell EllStable ArrLemmas EllLemmas.
Import ListNotations.

(** Left-to-right subtraction. *)
Fixpoint subacc {N : Num} (z : N) (f : nat -> N) (n : nat) : N :=
  match n with O => z | S k => subacc z f k -! f k end.
Lemma subacc_ext {N : Num} (z : N) f g n : (forall i, i < n -> f i = g i) -> subacc z f n = subacc z g n.
Proof. induction n; simpl; intros H; auto. rewrite H by lia. rewrite IHn; auto. Qed.

Section Gen.
Context {N : Num}.
Notation arr := (Arr N).

(** ** forward substitution *)
Lemma stable_forward_ok n (mq g : arr) : is_mat n n mq -> length (adata g) = n ->
  exists d w, stable_forward n mq g = Ok (mkArr d n n, mkArr w (arows g) (acols g)) /\
    length d = n * n /\ length w = n /\
    (forall i j, i < n -> j < n -> i <= j -> mget n d i j = mget n (adata mq) i j) /\
    (forall i j, i < n -> j < i -> mget n d i j = mget n (adata mq) j i *! nth j w n0) /\
    (forall i, i < n -> nth i w n0 = subacc (vget g i) (fun j => mget n (adata mq) j i *! nth j w n0) i).
Proof.
  intros (Lm & Rm & Cm) Lg. unfold stable_forward.
  destruct (Nat.eq_dec n 0) as [->|Hn0].
  { rewrite for_range_empty by lia. exists (adata mq), (adata g). destruct mq as [md mr mc], g; simpl in *. subst.
    split; [reflexivity|]. do 2 (split; [auto|]). repeat split; intros; lia. }
  destruct (for_range_inv (fun k (s : arr * arr) => exists d w, s = (mkArr d n n, mkArr w (arows g) (acols g)) /\
      length d = n * n /\ length w = n /\
      (forall i j, i < n -> j < n -> i <= j -> mget n d i j = mget n (adata mq) i j) /\
      (forall i j, i < k -> j < i -> mget n d i j = mget n (adata mq) j i *! nth j w n0) /\
      (forall i, i < k -> nth i w n0 = subacc (vget g i) (fun j => mget n (adata mq) j i *! nth j w n0) i) /\
      (forall i, k <= i < n -> nth i w n0 = vget g i))
    1 n (fun i '(mq, w) => for_range 0 i (fun j '(mq, w) =>
      l <- a_get mq j i ;; wj <- a_idx w j ;; let val := l *! wj in
      mq <- a_setidx mq (i * n + j) val ;; wi <- a_idx w i ;; w <- a_setidx w i (wi -! val) ;;
      Ok (mq, w)) (mq, w)) (mq, g)) as (s & E & d & w & -> & Ld & Lw & H1 & H2 & H3 & _).
  - lia.
  - exists (adata mq), (adata g). destruct mq as [md mr mc], g; simpl in *. subst.
    split; [reflexivity|]. do 3 (split; [auto|]). split; [intros; lia|]. split; [|auto].
    intros i Hi. replace i with 0 by lia. reflexivity.
  - intros i s [Hi1 Hi] (d & w & -> & Ld & Lw & H1 & H2 & H3 & H4).
    destruct (for_range_inv (fun k (s : arr * arr) => exists d' w', s = (mkArr d' n n, mkArr w' (arows g) (acols g)) /\
        length d' = n * n /\ length w' = n /\
        (forall a b, a < n -> b < n -> a <= b -> mget n d' a b = mget n (adata mq) a b) /\
        (forall a b, a < i -> b < a -> mget n d' a b = mget n (adata mq) b a *! nth b w n0) /\
        (forall b, b < k -> mget n d' i b = mget n (adata mq) b i *! nth b w n0) /\
        (forall a, a <> i -> nth a w' n0 = nth a w n0) /\
        nth i w' n0 = subacc (vget g i) (fun j => mget n (adata mq) j i *! nth j w n0) k)
      0 i (fun j '(mq, w) =>
        l <- a_get mq j i ;; wj <- a_idx w j ;; let val := l *! wj in
        mq <- a_setidx mq (i * n + j) val ;; wi <- a_idx w i ;; w <- a_setidx w i (wi -! val) ;;
        Ok (mq, w)) (mkArr d n n, mkArr w (arows g) (acols g)))
      as (s & E & d' & w' & -> & Ld' & Lw' & G1 & G2 & G3 & G4 & G5).
    + lia.
    + exists d, w. split; [reflexivity|]. do 4 (split; [auto|]). split; [intros; lia|]. split; auto. simpl. apply H4. lia.
    + intros j s [_ Hj] (d' & w' & -> & Ld' & Lw' & G1 & G2 & G3 & G4 & G5).
      assert (Fij : i * n + j < n * n) by (apply flat_lt; lia).
      assert (Fji : j * n + i < n * n) by (apply flat_lt; lia).
      unfold a_get, a_idx, a_setidx. cbn [adata acols arows].
      rewrite (rd_nth d' _ n0) by lia. cbn [bind]. rewrite (rd_nth w' _ n0) by lia. cbn [bind]. cbv zeta.
      fold (mget n d' j i). rewrite G1 by lia. rewrite G4 by lia.
      rewrite wr_ok by lia. cbn [bind]. rewrite (rd_nth w' _ n0) by lia. cbn [bind]. rewrite wr_ok by lia. cbn [bind].
      cbn [adata acols arows].
      eexists. split; [reflexivity|]. eexists. eexists. split; [reflexivity|].
      split; [now rewrite upd_length|]. split; [now rewrite upd_length|].
      split; [|split; [|split; [|split]]].
      * intros a b Ha Hb Hab. rewrite mget_upd by lia. destruct (Nat.eqb_spec i a) as [<-|]; [|now apply G1].
        destruct (Nat.eqb_spec j b) as [<-|]; [lia|]. now apply G1.
      * intros a b Ha Hb. rewrite mget_upd by lia. destruct (Nat.eqb_spec i a) as [<-|]; [lia|]. now apply G2.
      * intros b Hb. rewrite mget_upd by lia. rewrite Nat.eqb_refl. cbn [andb].
        destruct (Nat.eqb_spec j b) as [<-|]; [reflexivity|]. apply G3. lia.
      * intros a Ha. rewrite nth_upd_other by auto. now apply G4.
      * rewrite nth_upd_same by lia. simpl. now rewrite G5.
    + eexists. split; [exact E|]. exists d', w'. split; [reflexivity|]. do 3 (split; [auto|]). split; [|split].
      * intros a b Ha Hb. rewrite (G4 b) by lia. destruct (Nat.eq_dec a i) as [->|]; [now apply G3|]. apply G2; lia.
      * intros a Ha. destruct (Nat.eq_dec a i) as [->|Ne].
        -- rewrite G5. apply subacc_ext. intros b Hb. now rewrite (G4 b) by lia.
        -- rewrite G4 by auto. rewrite H3 by lia. apply subacc_ext. intros b Hb. now rewrite (G4 b) by lia.
      * intros a Ha. rewrite G4 by lia. apply H4. lia.
  - exists d, w. split; [exact E|]. do 3 (split; [auto|]). auto.
Qed.

(** ** scaling by the diagonal, omega *)
Lemma stable_scale_ok n d (w : list N) r c : length d = n * n -> length w = n ->
  exists z, stable_scale n (mkArr d n n) (mkArr w r c) = Ok (mkArr z r c) /\ length z = n /\
    forall i, i < n -> nth i z n0 = nth i w n0 *! mget n d i i.
Proof.
  intros Ld Lw. unfold stable_scale.
  destruct (for_range_inv (fun k (a : arr) => exists z, a = mkArr z r c /\ length z = n /\
      forall i, i < n -> nth i z n0 = if i <? k then nth i w n0 *! mget n d i i else nth i w n0)
    0 n (fun i z => zi <- a_idx z i ;; x <- a_get (mkArr d n n) i i ;; a_setidx z i (zi *! x)) (mkArr w r c))
    as (a & E & z & -> & Lz & Hz).
  - lia.
  - exists w. auto.
  - intros i a [_ Hi] (z & -> & Lz & Hz). unfold a_idx, a_get, a_setidx. cbn [adata acols arows].
    rewrite (rd_nth z _ n0) by lia. cbn [bind]. rewrite (rd_nth d _ n0) by (rewrite Ld; apply flat_lt; lia). cbn [bind].
    rewrite wr_ok by lia. cbn [bind]. eexists. split; [reflexivity|]. eexists. split; [reflexivity|].
    split; [now rewrite upd_length|]. intros j Hj. rewrite nth_upd by lia.
    destruct (Nat.eqb_spec i j) as [<-|].
    + rewrite Hz by lia. rewrite Nat.ltb_irrefl. destruct (Nat.ltb_spec i (S i)); [reflexivity|lia].
    + rewrite Hz by lia. destruct (Nat.ltb_spec j i), (Nat.ltb_spec j (S i)); auto; lia.
  - exists z. split; auto. split; auto. intros i Hi. rewrite Hz by auto. apply Nat.ltb_lt in Hi. now rewrite Hi.
Qed.
Lemma stable_omega_ok n (z w : list N) r c r' c' : length z = n -> length w = n ->
  exists gg, stable_omega n (mkArr z r c) (mkArr w r' c') = Ok (mkArr gg r c, accum n0 (fun i => nth i z n0 *! nth i w n0) n) /\
    length gg = n /\ forall i, i < n -> nth i gg n0 = nth i z n0 *! nth i w n0.
Proof.
  intros Lz Lw. unfold stable_omega.
  destruct (for_range_inv (fun k (s : arr * N) => exists gg, s = (mkArr gg r c, accum n0 (fun i => nth i z n0 *! nth i w n0) k) /\
      length gg = n /\ forall i, i < n -> nth i gg n0 = if i <? k then nth i z n0 *! nth i w n0 else nth i z n0)
    0 n (fun i '(gg_t, omega) =>
    a <- a_idx gg_t i ;; b <- a_idx (mkArr w r' c') i ;;
    gg_t <- a_setidx gg_t i (a *! b) ;; v <- a_idx gg_t i ;; Ok (gg_t, omega +! v)) (mkArr z r c, n0))
    as (a & E & gg & -> & Lg & Hg).
  - lia.
  - exists z. auto.
  - intros i s [_ Hi] (gg & -> & Lg & Hg). unfold a_idx, a_setidx. cbn [adata acols arows].
    rewrite (rd_nth gg _ n0) by lia. cbn [bind]. rewrite (rd_nth w _ n0) by lia. cbn [bind].
    rewrite wr_ok by lia. cbn [bind adata]. rewrite (rd_nth _ _ n0) by (rewrite upd_length; lia). cbn [bind].
    rewrite nth_upd_same by lia.
    assert (Ei : nth i gg n0 = nth i z n0) by (rewrite Hg by lia; now rewrite Nat.ltb_irrefl). rewrite Ei.
    eexists. split; [reflexivity|]. eexists. split; [reflexivity|].
    split; [now rewrite upd_length|]. intros j Hj. rewrite nth_upd by lia.
    destruct (Nat.eqb_spec i j) as [<-|].
    + destruct (Nat.ltb_spec i (S i)); [reflexivity|lia].
    + rewrite Hg by lia. destruct (Nat.ltb_spec j i), (Nat.ltb_spec j (S i)); auto; lia.
  - exists gg. split; auto. split; auto. intros i Hi. rewrite Hg by auto. apply Nat.ltb_lt in Hi. now rewrite Hi.
Qed.

(** ** back substitution, as written *)
Lemma stable_backward_ok n d (z : list N) r c : 0 < n -> length d = n * n -> length z = n ->
  exists q, stable_backward n (mkArr d n n) (mkArr z r c) = Ok (mkArr q r c) /\ length q = n /\
    forall i, i < n -> nth i q n0 = subacc (nth i z n0) (fun k => mget n d (S i + k) i *! nth (S i + k) q n0) (n - S i).
Proof.
  intros Hn Ld Lz. unfold stable_backward.
  destruct (for_rev_inv (fun i (a : arr) => exists q, a = mkArr q r c /\ length q = n /\
      (forall j, j < n -> i <= S j -> nth j q n0 = subacc (nth j z n0) (fun k => mget n d (S j + k) j *! nth (S j + k) q n0) (n - S j)) /\
      (forall j, S j < i -> nth j q n0 = nth j z n0))
    1 n (fun i g_t => for_range i n (fun j g_t =>
      a <- a_idx g_t (i - 1) ;; l <- a_get (mkArr d n n) j (i - 1) ;; b <- a_idx g_t j ;;
      a_setidx g_t (i - 1) (a -! l *! b)) g_t) (mkArr z r c)) as (a & E & q & -> & Lq & H1 & _).
  - lia.
  - exists z. split; auto. split; auto. split; auto. intros j Hj Hj'. replace (n - S j) with 0 by lia. reflexivity.
  - intros i a [Hi1 Hi] (q & -> & Lq & H1 & H2).
    destruct (for_range_inv (fun k (a : arr) => exists q', a = mkArr q' r c /\ length q' = n /\
        (forall j, j <> i - 1 -> nth j q' n0 = nth j q n0) /\
        nth (i - 1) q' n0 = subacc (nth (i - 1) z n0) (fun k => mget n d (i + k) (i - 1) *! nth (i + k) q n0) (k - i))
      i n (fun j g_t => a <- a_idx g_t (i - 1) ;; l <- a_get (mkArr d n n) j (i - 1) ;; b <- a_idx g_t j ;;
        a_setidx g_t (i - 1) (a -! l *! b)) (mkArr q r c)) as (a & E & q' & -> & Lq' & G1 & G2).
    + lia.
    + exists q. split; auto. split; auto. split; auto. rewrite Nat.sub_diag. simpl. apply H2. lia.
    + intros j a [Hj1 Hj] (q' & -> & Lq' & G1 & G2). unfold a_idx, a_get, a_setidx. cbn [adata acols arows].
      rewrite (rd_nth q' _ n0) by lia. cbn [bind]. rewrite (rd_nth d _ n0) by (rewrite Ld; apply flat_lt; lia). cbn [bind].
      rewrite (rd_nth q' _ n0) by lia. cbn [bind]. rewrite wr_ok by lia. cbn [bind].
      eexists. split; [reflexivity|]. eexists. split; [reflexivity|]. split; [now rewrite upd_length|]. split.
      * intros a Ha. rewrite nth_upd_other by lia. auto.
      * rewrite nth_upd_same by lia. rewrite G2. rewrite (G1 j) by lia.
        replace (S j - i) with (S (j - i)) by lia. simpl. replace (i + (j - i)) with j by lia. reflexivity.
    + eexists. split; [exact E|]. exists q'. split; auto. split; auto. split.
      * intros j Hj Hj'. destruct (Nat.eq_dec j (i - 1)) as [->|Ne].
        -- rewrite G2. replace (S (i - 1)) with i by lia. apply subacc_ext. intros k Hk. now rewrite G1 by lia.
        -- rewrite G1 by auto. rewrite H1 by lia. apply subacc_ext. intros k Hk. now rewrite G1 by lia.
      * intros j Hj. rewrite G1 by lia. apply H2. lia.
  - exists q. split; auto. split; auto. intros i Hi. apply H1; lia.
Qed.

(** ** rank-one update of the factors *)

Lemma stable_rank_one_ok n sigma omega d (z gg : list N) r c : 0 < n -> length d = n * n -> length z = n -> length gg = n ->
  let t := accum (omega /! (sigma /! (n1 -! sigma))) (fun i => nth i gg n0) in
  exists d', stable_rank_one n sigma omega (mkArr d n n) (mkArr z r c) (mkArr gg r c) = Ok (mkArr d' n n) /\ length d' = n * n /\
    (forall i j, j < i -> i < n -> mget n d' i j = mget n d i j) /\
    (forall i, i < n -> mget n d' i i = mget n d i i *! (t i /! t (S i))) /\
    (forall i j, i < j -> j < n -> mget n d' i j = mget n d i j +! (nth i z n0 /! t (S i)) *! mget n d j i).
Proof.
  intros Hn Ld Lz Lg t. unfold stable_rank_one. rewrite (proj2 (Nat.ltb_lt 0 n) Hn). cbn [Res.assert]. cbv zeta.
  set (new := fun i j => if i =? j then mget n d i i *! (t i /! t (S i))
    else if i <? j then mget n d i j +! (nth i z n0 /! t (S i)) *! mget n d j i else mget n d i j).
  destruct (for_range_inv (fun k (s : arr * N) => exists d', s = (mkArr d' n n, t k) /\ length d' = n * n /\
      forall i j, i < n -> j < n -> mget n d' i j = if i <? k then new i j else mget n d i j)
    0 (n - 1) (fun j '(mq, oldt) =>
       gj <- a_idx (mkArr gg r c) j ;;
       let temp := oldt +! gj in
       zj <- a_idx (mkArr z r c) j ;;
       let beta2 := zj /! temp in
       d <- a_idx mq (j * n + j) ;;
       mq <- a_setidx mq (j * n + j) (d *! (oldt /! temp)) ;;
       mq <- for_range (j + 1) n (fun l mq =>
               v <- a_idx mq (j * n + l) ;;
               s <- a_get mq l j ;;
               a_setidx mq (j * n + l) (v +! beta2 *! s)) mq ;;
       Ok (mq, temp)) (mkArr d n n, omega /! (sigma /! (n1 -! sigma)))) as (s & E & d' & -> & Ld' & Hd').
  - lia.
  - exists d. split; [reflexivity|]. split; auto.
  - intros j s [_ Hj] (d' & -> & Ld' & Hd').
    assert (Fjj : j * n + j < n * n) by (apply flat_lt; lia).
    unfold a_idx at 1. cbn [adata]. rewrite (rd_nth gg _ n0) by lia. cbn [bind]. cbv zeta.
    change (t j +! nth j gg n0) with (t (S j)).
    unfold a_idx at 1. cbn [adata]. rewrite (rd_nth z _ n0) by lia. cbn [bind].
    unfold a_idx at 1. cbn [adata]. rewrite (rd_nth d' _ n0) by lia. cbn [bind].
    unfold a_setidx at 1. cbn [adata arows acols]. rewrite wr_ok by lia. cbn [bind].
    fold (mget n d' j j). rewrite Hd' by lia. rewrite Nat.ltb_irrefl.
    set (d1 := upd d' _ _).
    destruct (for_range_inv (fun k (a : arr) => exists d2, a = mkArr d2 n n /\ length d2 = n * n /\
        forall i l, i < n -> l < n -> mget n d2 i l = if (i <? j) || ((i =? j) && (j <=? l) && (l <? k)) then new i l else mget n d i l)
      (j + 1) n (fun l mq => v <- a_idx mq (j * n + l) ;; s <- a_get mq l j ;;
         a_setidx mq (j * n + l) (v +! nth j z n0 /! t (S j) *! s)) (mkArr d1 n n)) as (a & E & d2 & -> & Ld2 & Hd2).
    + lia.
    + exists d1. split; auto. unfold d1. split; [now rewrite upd_length|]. intros i l Hi Hl. rewrite mget_upd by lia. rewrite Hd' by lia.
      destruct (Nat.eqb_spec j i) as [<-|Ne]; cbn [andb].
      * rewrite Nat.ltb_irrefl, Nat.eqb_refl. cbn [andb orb].
        destruct (Nat.eqb_spec j l) as [<-|Nl].
        -- rewrite Nat.leb_refl. destruct (Nat.ltb_spec j (j + 1)); [|lia]. cbn [andb]. unfold new. now rewrite Nat.eqb_refl.
        -- destruct (Nat.leb_spec j l), (Nat.ltb_spec l (j + 1)); cbn [andb]; auto; lia.
      * destruct (Nat.eqb_spec i j); [lia|]. cbn [andb]. now rewrite Bool.orb_false_r.
    + intros l a [Hl1 Hl] (d2 & -> & Ld2 & Hd2).
      assert (Fjl : j * n + l < n * n) by (apply flat_lt; lia).
      assert (Flj : l * n + j < n * n) by (apply flat_lt; lia).
      unfold a_idx, a_get, a_setidx. cbn [adata acols arows].
      rewrite (rd_nth d2 _ n0) by lia. cbn [bind]. rewrite (rd_nth d2 _ n0) by lia. cbn [bind]. rewrite wr_ok by lia. cbn [bind].
      fold (mget n d2 j l). fold (mget n d2 l j). rewrite !Hd2 by lia.
      rewrite Nat.ltb_irrefl, Nat.eqb_refl, Nat.ltb_irrefl. rewrite Bool.andb_false_r. cbn [orb].
      destruct (Nat.ltb_spec l j); [lia|]. destruct (Nat.eqb_spec l j); [lia|]. cbn [andb orb].
      eexists. split; [reflexivity|]. eexists. split; [reflexivity|]. split; [now rewrite upd_length|].
      intros i k Hi Hk. rewrite mget_upd by lia. rewrite Hd2 by lia.
      destruct (Nat.eqb_spec j i) as [<-|Ne]; cbn [andb].
      * rewrite Nat.ltb_irrefl, Nat.eqb_refl. cbn [andb orb]. destruct (Nat.eqb_spec l k) as [<-|Nk].
        -- destruct (Nat.leb_spec j l); [|lia]. destruct (Nat.ltb_spec l (S l)); [|lia]. cbn [andb].
           unfold new. destruct (Nat.eqb_spec j l); [lia|]. destruct (Nat.ltb_spec j l); [reflexivity|lia].
        -- destruct (Nat.leb_spec j k), (Nat.ltb_spec k l), (Nat.ltb_spec k (S l)); cbn [andb]; auto; lia.
      * destruct (Nat.eqb_spec i j); [lia|]. reflexivity.
    + rewrite E. cbn [bind]. eexists. split; [reflexivity|]. exists d2. split; auto. split; auto.
      intros i l Hi Hl. rewrite Hd2 by lia.
      destruct (Nat.ltb_spec i j), (Nat.eqb_spec i j), (Nat.leb_spec j l), (Nat.ltb_spec l n), (Nat.ltb_spec i (S j));
        cbn [andb orb]; auto; try lia.
      subst i. unfold new. destruct (Nat.eqb_spec j l); [lia|]. destruct (Nat.ltb_spec j l); [lia|reflexivity].
  - match goal with |- context [bind ?m _] => replace m with (Ok (mkArr d' n n, t (n - 1))) by (symmetry; exact E) end. cbn [bind].
    assert (Fl : (n - 1) * n + (n - 1) < n * n) by (apply flat_lt; lia).
    unfold a_idx, a_setidx. cbn [adata acols arows]. rewrite (rd_nth gg _ n0) by lia. cbn [bind].
    rewrite (rd_nth d' _ n0) by lia. cbn [bind]. rewrite wr_ok by lia. cbn [bind].
    eexists. split; [reflexivity|]. split; [now rewrite upd_length|].
    assert (Hf : forall i j, i < n -> j < n -> mget n (upd d' ((n - 1) * n + (n - 1))
       (nth ((n - 1) * n + (n - 1)) d' n0 *! (t (n - 1) /! (t (n - 1) +! nth (n - 1) gg n0)))) i j = new i j).
    { intros i j Hi Hj. rewrite mget_upd by lia. fold (mget n d' (n - 1) (n - 1)). rewrite !Hd' by lia.
      rewrite Nat.ltb_irrefl. change (t (n - 1) +! nth (n - 1) gg n0) with (t (S (n - 1))).
      destruct (Nat.eqb_spec (n - 1) i) as [<-|Ne]; cbn [andb].
      - rewrite Nat.ltb_irrefl. unfold new. destruct (Nat.eqb_spec (n - 1) j) as [<-|]; auto.
        destruct (Nat.ltb_spec (n - 1) j); [lia|reflexivity].
      - destruct (Nat.ltb_spec i (n - 1)); [auto|lia]. }
    split; [|split].
    + intros i j Hji Hi. rewrite Hf by lia. unfold new. destruct (Nat.eqb_spec i j); [lia|]. destruct (Nat.ltb_spec i j); [lia|reflexivity].
    + intros i Hi. rewrite Hf by lia. unfold new. now rewrite Nat.eqb_refl.
    + intros i j Hij Hj. rewrite Hf by lia. unfold new. destruct (Nat.eqb_spec i j); [lia|]. destruct (Nat.ltb_spec i j); [reflexivity|lia].
Qed.

(** ** one update *)
Definition stable_wf (n : nat) (e : EllStable N) : Prop :=
  0 < n /\ is_mat n n (s_mq e) /\ length (adata (s_xc e)) = n.
(** entry (i, j) of the buffer *)
Definition sget (n : nat) (e : EllStable N) (i j : nat) : N := mget n (adata (s_mq e)) i j.

(** The update, in terms of the vectors it computes: [w] = inv(L) g, [z], [q]. *)
Lemma stable_update_core_ok n (e : EllStable N) (g : arr) (strategy : N -> cutres N) :
  stable_wf n e -> length (adata g) = n ->
  exists e' st rho sigma delta (w z q : nat -> N) om,
    (forall i, i < n -> w i = subacc (vget g i) (fun j => sget n e j i *! w j) i) /\
    (forall i, i < n -> z i = w i *! sget n e i i) /\
    om = accum n0 (fun i => z i *! w i) n /\
    (forall i, i < n -> q i = subacc (z i) (fun k => (sget n e i (S i + k) *! w i) *! q (S i + k)) (n - S i)) /\
    strategy (s_kappa e *! om) = (st, (rho, sigma, delta)) /\
    stable_update_core e g strategy = Ok (e', st) /\ stable_wf n e' /\
    s_tsq e' = s_kappa e *! om /\ s_helper e' = s_helper e /\
    arows (s_xc e') = arows (s_xc e) /\ acols (s_xc e') = acols (s_xc e) /\
    (forall i j, j < i -> i < n -> sget n e' i j = sget n e j i *! w j) /\
    (st <> Success -> s_xc e' = s_xc e /\ s_kappa e' = s_kappa e /\
       forall i j, i <= j -> j < n -> sget n e' i j = sget n e i j) /\
    (st = Success ->
      let t := accum (om /! (sigma /! (n1 -! sigma))) (fun i => z i *! w i) in
      s_kappa e' = s_kappa e *! delta /\
      (forall i, i < n -> vget (s_xc e') i = vget (s_xc e) i -! rho /! om *! q i) /\
      (forall i, i < n -> sget n e' i i = sget n e i i *! (t i /! t (S i))) /\
      (forall i j, i < j -> j < n -> sget n e' i j = sget n e i j +! (z i /! t (S i)) *! (sget n e i j *! w i))).
Proof.
  intros (Hn & Hm & Hx) Lg.
  destruct (stable_forward_ok n (s_mq e) g Hm Lg) as (d & w & E1 & Ld & Lw & F1 & F2 & F3).
  destruct (stable_scale_ok n d w (arows g) (acols g) Ld Lw) as (z & E2 & Lz & Hz).
  destruct (stable_omega_ok n z w (arows g) (acols g) (arows g) (acols g) Lz Lw) as (gg & E3 & Lgg & Hgg).
  set (om := accum n0 (fun i => nth i z n0 *! nth i w n0) n) in *.
  destruct (strategy (s_kappa e *! om)) as [st [[rho sigma] delta]] eqn:Es.
  destruct (stable_backward_ok n d z (arows g) (acols g) Hn Ld Lz) as (q & E4 & Lq & Hq).
  destruct (stable_rank_one_ok n sigma om d z gg (arows g) (acols g) Hn Ld Lz Lgg) as (d' & E5 & Ld' & R1 & R2 & R3).
  pose proof (ell_move_xc_ok n (rho /! om) (mkArr q (arows g) (acols g)) (s_xc e) Lq Hx) as E6.
  assert (Hz' : forall i, i < n -> nth i z n0 = nth i w n0 *! sget n e i i).
  { intros i Hi. rewrite Hz by auto. now rewrite F1 by lia. }
  assert (Hq' : forall i, i < n -> nth i q n0 = subacc (nth i z n0) (fun k => (sget n e i (S i + k) *! nth i w n0) *! nth (S i + k) q n0) (n - S i)).
  { intros i Hi. rewrite Hq by auto. apply subacc_ext. intros k Hk. rewrite F2 by lia. reflexivity. }
  assert (Et : forall sg i, i <= n -> accum sg (fun i => nth i gg n0) i = accum sg (fun i => nth i z n0 *! nth i w n0) i).
  { intros sg i Hi. apply accum_ext. intros j Hj. apply Hgg. lia. }
  unfold stable_update_core, a_len. rewrite Hx. rewrite E1. cbn [bind]. rewrite E2. cbn [bind]. rewrite E3. cbn [bind]. rewrite Es.
  destruct (is_success st) eqn:Est; cbn [negb].
  - assert (Hst : st = Success) by (destruct st; auto; discriminate).
    rewrite E4. cbn [bind]. rewrite E6. cbn [bind]. rewrite E5. cbn [bind].
    eexists. exists st, rho, sigma, delta, (fun i => nth i w n0), (fun i => nth i z n0), (fun i => nth i q n0), om.
    do 5 (split; [auto; reflexivity|]). split; [reflexivity|].
    split. { split; auto. split; [split; auto|]. cbn [s_xc adata]. now rewrite map_length, seq_length. }
    do 4 (split; [reflexivity|]).
    split. { intros i j Hji Hi. unfold sget at 1. cbn [s_mq adata]. rewrite R1, F2 by lia. reflexivity. }
    split; [congruence|]. intros _. cbv zeta. split; [reflexivity|].
    split. { intros i Hi. cbn [s_xc]. unfold vget at 1. cbn [adata]. rewrite nth_map_seq by auto. reflexivity. }
    split.
    + intros i Hi. unfold sget at 1. cbn [s_mq adata]. rewrite R2 by auto. rewrite !Et by lia. rewrite F1 by lia. reflexivity.
    + intros i j Hij Hj. unfold sget at 1. cbn [s_mq adata]. rewrite R3 by auto. rewrite !Et by lia. rewrite F1, F2 by lia. reflexivity.
  - eexists. exists st, rho, sigma, delta, (fun i => nth i w n0), (fun i => nth i z n0), (fun i => nth i q n0), om.
    do 5 (split; [auto; reflexivity|]). split; [reflexivity|].
    split. { split; auto. split; [split; auto|]. auto. }
    do 4 (split; [reflexivity|]).
    split. { intros i j Hji Hi. unfold sget at 1. cbn [s_mq adata]. rewrite F2 by lia. reflexivity. }
    split. { intros _. do 2 (split; [reflexivity|]). intros i j Hij Hj. unfold sget at 1. cbn [s_mq adata]. now rewrite F1 by lia. }
    intros ->. discriminate.
Qed.

(** ** the scratch triangle does not matter *)
Definition same_but_scratch (n : nat) (e1 e2 : EllStable N) : Prop :=
  s_xc e1 = s_xc e2 /\ s_kappa e1 = s_kappa e2 /\ s_helper e1 = s_helper e2 /\
  forall i j, i <= j -> j < n -> sget n e1 i j = sget n e2 i j.

Lemma forward_scratch n (m1 m2 g : arr) : is_mat n n m1 -> is_mat n n m2 -> length (adata g) = n ->
  (forall i j, i <= j -> j < n -> mget n (adata m1) i j = mget n (adata m2) i j) ->
  stable_forward n m1 g = stable_forward n m2 g.
Proof.
  intros H1 H2 Lg He.
  destruct (stable_forward_ok n m1 g H1 Lg) as (d1 & w1 & -> & Ld1 & Lw1 & A1 & A2 & A3).
  destruct (stable_forward_ok n m2 g H2 Lg) as (d2 & w2 & -> & Ld2 & Lw2 & B1 & B2 & B3).
  assert (Ew : forall k i, i < k -> i < n -> nth i w1 n0 = nth i w2 n0).
  { induction k; intros i Hi Hin; [lia|]. rewrite A3, B3 by auto. apply subacc_ext. intros j Hj.
    rewrite He by lia. now rewrite IHk by lia. }
  assert (w1 = w2) as <-. { apply nth_ext with n0 n0; [lia|]. intros i Hi. apply (Ew (S i)); lia. }
  assert (d1 = d2) as <-; [|reflexivity].
  destruct (Nat.eq_dec n 0) as [->|Hn]. { destruct d1, d2; simpl in *; auto; lia. }
  apply nth_ext with n0 n0; [lia|]. intros k Hk.
  assert (Hk' : k = (k / n) * n + k mod n) by (rewrite Nat.mul_comm; apply Nat.div_mod; lia).
  assert (Hm : k mod n < n) by (apply Nat.mod_upper_bound; lia).
  assert (Hd : k / n < n) by (apply Nat.div_lt_upper_bound; lia).
  rewrite Hk'. change (mget n d1 (k / n) (k mod n) = mget n d2 (k / n) (k mod n)).
  destruct (Nat.le_gt_cases (k / n) (k mod n)).
  - rewrite A1, B1 by lia. apply He; lia.
  - rewrite A2, B2 by lia. rewrite He by lia. reflexivity.
Qed.

Lemma core_scratch n (e1 e2 : EllStable N) g strategy : stable_wf n e1 -> stable_wf n e2 -> length (adata g) = n ->
  same_but_scratch n e1 e2 -> stable_update_core e1 g strategy = stable_update_core e2 g strategy.
Proof.
  intros (Hn & M1 & X1) (_ & M2 & X2) Lg (Hx & Hk & Hh & Hm). unfold stable_update_core, a_len.
  rewrite X1, X2. rewrite (forward_scratch n (s_mq e1) (s_mq e2) g) by auto. rewrite Hx, Hk, Hh. reflexivity.
Qed.
End Gen.
