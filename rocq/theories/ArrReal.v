(** The results of the Arr operations over the reals; linspace and arange. *)
From Coq Require Import Reals List Arith Lia Lra ZArith.
From Flocq Require Import Core.
From Verif Require Import Num Res Arr ArrLemmas Spec RealLin EllSpec EllReal ArrProps.
Import ListNotations.
Open Scope R_scope.

(** entry (i, j) of a matrix value *)
Definition entry (a : Arr RNum) : mtx := fun i j => nth (i * acols a + j) (adata a) 0.
Definition matn (r c : nat) (a : Arr RNum) : Prop :=
  arows a = r /\ acols a = c /\ length (adata a) = (r * c)%nat /\ (0 < c)%nat.

Lemma coords_vget a i : coords a i = vget (N := RNum) a i. Proof. reflexivity. Qed.

Lemma real_dot n a b : vecn n a -> vecn n b -> a_dot (N := RNum) a b = Ok (dot n (coords a) (coords b)).
Proof. intros Ha Hb. rewrite (a_dot_ok n) by auto. f_equal. apply accum_Rsum. Qed.
Lemma real_dot_mv r c a x : matn r c a -> vecn c x -> exists y, a_dot_mv (N := RNum) a x = Ok y /\ vecn r y /\
  forall i, (i < r)%nat -> coords y i = mulmv c (entry a) (coords x) i.
Proof.
  intros (Hr & Hc & Hl & H0) Hx. rewrite (a_dot_mv_ok r c) by (auto; split; auto). eexists. split; [reflexivity|]. split.
  - split; [|reflexivity]. cbn [adata]. now rewrite map_length, seq_length.
  - intros i Hi. unfold coords. cbn [adata]. rewrite nth_map_seq by auto. unfold mulmv, entry. rewrite Hc. apply accum_Rsum.
Qed.
Lemma real_outer m n a b : vecn m a -> vecn n b -> exists o, a_outer (N := RNum) a b = Ok o /\
  arows o = m /\ acols o = n /\ length (adata o) = (m * n)%nat /\
  forall i j, (i < m)%nat -> (j < n)%nat -> entry o i j = coords a i * coords b j.
Proof.
  intros Ha Hb. destruct (a_outer_ok (N := RNum) m n a b Ha Hb) as (d & -> & Ld & Hd). eexists. split; [reflexivity|]. auto.
Qed.
Lemma real_rank_one n a u alpha : matn n n a -> sym n (entry a) -> vecn n u ->
  exists a', a_rank_one_update (N := RNum) a alpha u = Ok a' /\ matn n n a' /\
  forall i j, (i < n)%nat -> (j < n)%nat -> entry a' i j = entry a i j + alpha * (coords u i * coords u j).
Proof.
  intros (Hr & Hc & Hl & H0) Hs Hu. destruct (a_rank_one_ok (N := RNum) n a u alpha H0) as (d & -> & Ld & Hd); auto.
  { split; auto. }
  eexists. split; [reflexivity|]. split; [repeat split; auto|]. intros i j Hi Hj.
  unfold entry in *. cbn [adata acols]. rewrite Hc in *.
  change (nth (i * n + j) d 0) with (mget (N := RNum) n d i j). rewrite Hd by auto. unfold raised.
  destruct (Nat.leb_spec j i).
  - unfold mget. cbn. unfold coords, vget. cbn. ring.
  - rewrite (Hs i j) by auto. unfold mget, coords, vget. cbn. ring.
Qed.
Lemma real_eye n : exists a, a_eye (N := RNum) n = Ok a /\ arows a = n /\ acols a = n /\
  forall i j, (i < n)%nat -> (j < n)%nat -> entry a i j = if (i =? j)%nat then 1 else 0.
Proof.
  destruct (a_eye_ok (N := RNum) n) as (d & -> & Ld & Hd). eexists. split; [reflexivity|]. repeat split; auto.
Qed.
Lemma real_from_diag n v : vecn n v -> exists a, a_from_diag (N := RNum) v = Ok a /\ arows a = n /\ acols a = n /\
  forall i j, (i < n)%nat -> (j < n)%nat -> entry a i j = if (i =? j)%nat then coords v i else 0.
Proof.
  intros Hv. destruct (a_from_diag_ok (N := RNum) n v Hv) as (d & -> & Ld & Hd). eexists. split; [reflexivity|]. repeat split; auto.
Qed.
Lemma real_sum (a : Arr RNum) : a_sum (N := RNum) a = Rsum (length (adata a)) (coords a).
Proof. unfold a_sum, isum. rewrite fold_accum. cbn [nsum0 RNum]. replace (IZR 0) with 0 by reflexivity. rewrite accum_Rsum. reflexivity. Qed.
Lemma real_divs (a : Arr RNum) s : s <> 0 -> a_divs (N := RNum) a s = mkArr (N := RNum) (map (fun v => v / s) (adata a)) (arows a) (acols a).
Proof.
  intros Hs. unfold a_divs, a_mapd. f_equal. apply map_ext. intros v. cbn. field. auto.
Qed.

(** ** linspace and arange *)
Lemma fill_ok n (f : nat -> R) : exists a, for_range 0 n (fun i a => a_setidx (N := RNum) a i (f i)) (a_new (N := RNum) n) = Ok a /\ vecn n a /\
  forall i, (i < n)%nat -> coords a i = f i.
Proof.
  destruct (for_range_inv (fun k (o : Arr RNum) => vecn n o /\ forall i, (i < k)%nat -> coords o i = f i)
    0 n (fun i a => a_setidx (N := RNum) a i (f i)) (a_new (N := RNum) n)) as (o & E & Ho & Hf).
  - lia.
  - split; [split; [apply repeat_length|reflexivity]|]. intros; lia.
  - intros i t [_ Hi] ([Lt Ct] & Ht). unfold a_setidx. rewrite wr_ok by lia. simpl. eexists. split; [reflexivity|].
    split; [split; [cbn [adata]; rewrite upd_length; auto|auto]|].
    intros k Hk. unfold coords. cbn [adata]. rewrite nth_upd by lia. destruct (Nat.eqb_spec i k) as [<-|]; auto. apply Ht. lia.
  - exists o. auto.
Qed.
Lemma linspace_ok a b n : exists l, linspace (N := RNum) a b n = Ok l /\ vecn n l /\
  (n = 1%nat -> coords l 0%nat = a) /\
  ((2 <= n)%nat -> coords l 0%nat = a /\ coords l (n - 1)%nat = b /\
    forall i, (i < n)%nat -> coords l i = a + (b - a) * INR i / INR (n - 1)).
Proof.
  unfold linspace. destruct (Nat.eqb_spec n 0) as [->|H0].
  { eexists. split; [reflexivity|]. split; [split; reflexivity|]. split; intros; lia. }
  destruct (Nat.eqb_spec n 1) as [->|H1].
  { eexists. split; [reflexivity|]. split; [split; reflexivity|]. split; [reflexivity|intros; lia]. }
  cbv zeta. 
  destruct (fill_ok n (fun i => a + (b - a) / INR (n - 1) * INR i)) as (l & E & Hl & Hf).
  exists l. split.
  - rewrite <- E. apply for_range_ext. intros i s Hi. cbn [nadd nsub nmul ndiv RNum]. rewrite !nN_INR. reflexivity.
  - split; auto. split; [intros; lia|]. intros Hn.
    assert (Hp : INR (n - 1) <> 0). { apply not_0_INR. lia. }
    assert (Hg : forall i, (i < n)%nat -> coords l i = a + (b - a) * INR i / INR (n - 1)). { intros i Hi. rewrite Hf by auto. field. auto. }
    split; [|split]; auto.
    + rewrite Hg by lia. cbn [INR]. field. auto.
    + rewrite Hg by lia. field. auto.
Qed.
Lemma arange_ok a b : exists l, arange (N := RNum) a b = Ok l /\
  (b <= a -> vecn 0 l) /\
  (a < b -> b - a < 2 ^ 64 -> exists n, vecn n l /\ INR n <= b - a < INR n + 1 /\
    forall i, (i < n)%nat -> coords l i = a + INR i /\ coords l i < b).
Proof.
  unfold arange. cbv zeta.
  set (n := if b >?! a then as_usize (N := RNum) (b -! a) else 0%nat).
  destruct (fill_ok n (fun i => a + INR i)) as (l & E & Hl & Hf).
  exists l. split.
  { rewrite <- E. apply for_range_ext. intros i s Hi. cbn [nadd RNum]. now rewrite !nN_INR. }
  split.
  - intros Hb. replace 0%nat with n in |- *; auto. unfold n. cbn [nltb RNum]. now rewrite (proj2 (Rlt_bool_no _ _)) by lra.
  - intros Hb H64. exists n. split; auto.
    assert (Hn : INR n <= b - a < INR n + 1).
    { unfold n. cbn [nltb RNum]. rewrite (proj2 (Rlt_bool_iff _ _)) by lra. unfold as_usize. cbn [ntrunc nsub RNum].
      assert (Hz : (0 <= Ztrunc (b - a) <= 2 ^ 64 - 1)%Z).
      { rewrite Ztrunc_floor by lra. split; [apply Zfloor_lub; simpl; lra|].
        apply Z.lt_succ_r. replace (Z.succ (2 ^ 64 - 1)) with (2 ^ 64)%Z by reflexivity.
        apply lt_IZR. apply Rle_lt_trans with (b - a); [apply Zfloor_lb|]. lra. }
      rewrite Z.max_r, Z.min_r by lia. rewrite INR_IZR_INZ, Z2Nat.id by lia.
      rewrite Ztrunc_floor by lra. split; [apply Zfloor_lb|apply Zfloor_ub]. }
    split; auto. intros i Hi. rewrite Hf by auto. split; auto.
    assert (INR i + 1 <= INR n) by (rewrite <- S_INR; apply le_INR; lia). lra.
Qed.
