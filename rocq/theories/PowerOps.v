(** The array operations over [ENum] on finite and on undefined arrays. *)
From Coq Require Import Reals List Arith Lia Lra ZArith Bool.
From Flocq Require Import Core.
From Verif Require Import Num Res Arr ArrLemmas Spec RealLin ExtDefined PowerIter PowerSpec.
Import ListNotations.
Open Scope R_scope.

Local Notation E := ENum.

Lemma holds_vec n a x : holds n a x -> is_vec (N := E) n a.
Proof. intros (H & C & _). split; auto. Qed.
Lemma undef_vec n a : undefined n a -> is_vec (N := E) n a.
Proof. intros (H & C & _). split; auto. Qed.
Lemma vget_nan n (a : Arr E) i : is_vec (N := E) n a -> (i < n)%nat -> vget (N := E) a i = nth i (adata a) Nan.
Proof. intros [L _] Hi. unfold vget. apply nth_indep. lia. Qed.
Lemma holds_get n a x i : holds n a x -> (i < n)%nat -> vget (N := E) a i = Fin (x i).
Proof. intros H Hi. rewrite (vget_nan n) by (auto; now apply holds_vec with x). now apply H. Qed.
Lemma undef_get n a i : undefined n a -> (i < n)%nat -> vget (N := E) a i = Nan.
Proof. intros H Hi. rewrite (vget_nan n) by (auto; now apply undef_vec). now apply H. Qed.
Lemma hmat_mat n a M : holds_mat n a M -> is_mat (N := E) n n a.
Proof. intros (H & R & C & _). repeat split; auto. Qed.
Lemma hmat_get n a M i j : holds_mat n a M -> (i < n)%nat -> (j < n)%nat -> mget (N := E) n (adata a) i j = Fin (M i j).
Proof.
  intros (L & R & C & H) Hi Hj. unfold mget. rewrite <- H by auto. apply nth_indep. rewrite L. now apply flat_lt.
Qed.
Lemma holds_ext n a x y : holds n a x -> (forall i, (i < n)%nat -> x i = y i) -> holds n a y.
Proof. intros (L & C & H) Hx. split; [|split]; auto. intros i Hi. rewrite H, Hx; auto. Qed.
Lemma holds_uniq n a x y i : holds n a x -> holds n a y -> (i < n)%nat -> x i = y i.
Proof. intros Hx Hy Hi. pose proof (holds_get n a x i Hx Hi) as A. rewrite (holds_get n a y i Hy Hi) in A. congruence. Qed.

Lemma sum_fin (f : nat -> ext) g z n : (forall i, (i < n)%nat -> f i = Fin (g i)) ->
  accum (N := E) (Fin z) f n = Fin (z + Rsum n g).
Proof.
  intros H. induction n as [|n IH]; cbn [accum Rsum].
  - now rewrite Rplus_0_r.
  - rewrite IH, H by (auto; intros; apply H; lia). cbn [nadd ENum ext_add]. now rewrite Rplus_assoc.
Qed.
Lemma add_nan_r x : nadd (n := E) x Nan = Nan. Proof. now destruct x. Qed.
Lemma add_nan_l x : nadd (n := E) Nan x = Nan. Proof. reflexivity. Qed.
Lemma mul_nan_r x : nmul (n := E) x Nan = Nan. Proof. now destruct x. Qed.
Lemma sum_nan (f : nat -> ext) z n : (0 < n)%nat -> (forall i, (i < n)%nat -> f i = Nan) -> accum (N := E) z f n = Nan.
Proof. intros Hn H. destruct n; [lia|]. cbn [accum]. rewrite H by lia. apply add_nan_r. Qed.

Lemma dot_fin n a b x y : holds n a x -> holds n b y -> a_dot (N := E) a b = Ok (Fin (dot n x y)).
Proof.
  intros Ha Hb. rewrite (a_dot_ok n) by eauto using holds_vec. f_equal. unfold dot.
  change (nsum0 (n := E)) with (Fin 0). rewrite (sum_fin _ (fun i => x i * y i)).
  - f_equal. ring.
  - intros i Hi. rewrite (holds_get n a x), (holds_get n b y) by auto. reflexivity.
Qed.
Lemma dot_nan n a b : (0 < n)%nat -> is_vec (N := E) n a -> undefined n b -> a_dot (N := E) a b = Ok Nan.
Proof.
  intros Hn Ha Hb. rewrite (a_dot_ok n) by eauto using undef_vec. f_equal. apply sum_nan; auto.
  intros i Hi. rewrite (undef_get n b) by auto. apply mul_nan_r.
Qed.
Lemma mv_fin n a b M x : (0 < n)%nat -> holds_mat n a M -> holds n b x ->
  exists c, a_dot_mv (N := E) a b = Ok c /\ holds n c (mulmv n M x).
Proof.
  intros Hn Ha Hb. rewrite (a_dot_mv_ok n n) by eauto using hmat_mat, holds_vec. eexists. split; [reflexivity|].
  split; [|split].
  - cbn [adata]. now rewrite map_length, seq_length.
  - reflexivity.
  - intros i Hi. cbn [adata]. rewrite nth_map_seq by auto. change (@n0 E) with (Fin 0).
    rewrite (sum_fin _ (fun j => M i j * x j)); [f_equal; unfold mulmv; ring|].
    intros j Hj. rewrite (hmat_get n a M), (holds_get n b x) by auto. reflexivity.
Qed.
Lemma mv_nan n a b M : (0 < n)%nat -> holds_mat n a M -> undefined n b ->
  exists c, a_dot_mv (N := E) a b = Ok c /\ undefined n c.
Proof.
  intros Hn Ha Hb. rewrite (a_dot_mv_ok n n) by eauto using hmat_mat, undef_vec. eexists. split; [reflexivity|].
  split; [|split].
  - cbn [adata]. now rewrite map_length, seq_length.
  - reflexivity.
  - intros i Hi. cbn [adata]. rewrite nth_map_seq by auto. apply sum_nan; auto.
    intros j Hj. rewrite (undef_get n b) by auto. apply mul_nan_r.
Qed.

Lemma divs_len n (a : Arr E) s : is_vec (N := E) n a -> is_vec (N := E) n (a_divs (N := E) a s).
Proof. intros [L C]. split; auto. cbn [a_divs a_mapd adata]. now rewrite map_length. Qed.
Lemma divs_nth n (a : Arr E) s i : is_vec (N := E) n a -> (i < n)%nat ->
  nth i (adata (a_divs (N := E) a s)) Nan = nmul (n := E) (nth i (adata a) Nan) (ndiv (n := E) (n1 (N := E)) s).
Proof.
  intros [L C] Hi. cbn [a_divs a_mapd adata].
  rewrite (nth_indep _ Nan (nmul (n := E) Nan (ndiv (n := E) (n1 (N := E)) s))) by (rewrite map_length; lia).
  apply (map_nth (fun v => nmul (n := E) v (ndiv (n := E) (n1 (N := E)) s))).
Qed.
Lemma divs_fin n a x s : holds n a x -> s <> 0 -> holds n (a_divs (N := E) a (Fin s)) (fun i => x i / s).
Proof.
  intros Ha Hs. destruct (divs_len n a (Fin s) (holds_vec _ _ _ Ha)) as [L C]. split; [|split]; auto.
  intros i Hi. rewrite (divs_nth n) by (eauto using holds_vec). destruct Ha as (_ & _ & H). rewrite H by auto.
  unfold n1. cbn [ndiv ENum nZ nmul]. rewrite ext_div_fin by auto. cbn [ext_mul]. f_equal. field. auto.
Qed.
Lemma divs_bad n (a : Arr E) s : is_vec (N := E) n a -> s = Fin 0 \/ s = Nan -> undefined n (a_divs (N := E) a s).
Proof.
  intros Ha Hs. destruct (divs_len n a s Ha) as [L C]. split; [|split]; auto.
  intros i Hi. rewrite (divs_nth n) by auto.
  replace (ndiv (n := E) (n1 (N := E)) s) with Nan; [apply mul_nan_r|].
  destruct Hs as [-> | ->]; unfold n1; cbn [ndiv ENum nZ ext_div]; auto. now rewrite Req_bool_true.
Qed.

Lemma norm1_nonneg n x : 0 <= norm1 n x.
Proof. apply Rsum_nonneg. intros. apply Rabs_pos. Qed.
Lemma norm1_zero n x : norm1 n x = 0 -> forall i, (i < n)%nat -> x i = 0.
Proof.
  intros H i Hi. pose proof (Rsum_pos_one n i (fun i => Rabs (x i)) Hi ltac:(intros; apply Rabs_pos)) as H1.
  unfold norm1 in H. rewrite H in H1. cbn in H1. pose proof (Rabs_pos (x i)). destruct (Req_dec (x i) 0) as [|Hx]; auto. apply Rabs_no_R0 in Hx. lra.
Qed.
Lemma norm1_ext n x y : (forall i, (i < n)%nat -> x i = y i) -> norm1 n x = norm1 n y.
Proof. intros H. apply Rsum_ext. intros. now rewrite H. Qed.
Lemma nonzero_norm1 n x : nonzero n x <-> 0 < norm1 n x.
Proof.
  split.
  - intros (i & Hi & Hx). pose proof (norm1_nonneg n x). destruct (Req_dec (norm1 n x) 0) as [E0|]; [|lra].
    exfalso. apply Hx. now apply norm1_zero with n.
  - intros H. destruct (Exists_dec (fun i => x i <> 0) (seq 0 n)) as [H1|H1].
    { intros i. destruct (Req_EM_T (x i) 0); [right; auto|left; auto]. }
    + apply Exists_exists in H1 as (i & Hi & Hx). apply in_seq in Hi. exists i. split; auto; lia.
    + exfalso. assert (norm1 n x = 0); [|lra]. apply Rsum_zero. intros i Hi.
      destruct (Req_EM_T (x i) 0) as [->|Hx]; [apply Rabs_R0|]. exfalso. apply H1. apply Exists_exists. exists i.
      split; auto. apply in_seq. lia.
Qed.
Lemma nonzero_dec n x : {nonzero n x} + {~ nonzero n x}.
Proof.
  destruct (Rlt_dec 0 (norm1 n x)) as [H|H]; [left|right]; rewrite nonzero_norm1; auto.
Qed.
Lemma not_nonzero n x : ~ nonzero n x -> forall i, (i < n)%nat -> x i = 0.
Proof.
  intros H i Hi. destruct (Req_EM_T (x i) 0); auto. exfalso. apply H. exists i; auto.
Qed.
Lemma nonzero_dot n x : nonzero n x <-> 0 < dot n x x.
Proof.
  split.
  - intros (i & Hi & Hx). pose proof (dot_self_nonneg n x). destruct (Req_dec (dot n x x) 0) as [E0|]; [|lra].
    exfalso. apply Hx. now apply dot_self_zero with n.
  - intros H. destruct (nonzero_dec n x) as [|Hn]; auto. exfalso.
    assert (dot n x x = 0); [|lra]. apply Rsum_zero. intros i Hi. rewrite (not_nonzero n x Hn i Hi). ring.
Qed.
Lemma zero_dot n x : ~ nonzero n x -> dot n x x = 0.
Proof. intros H. pose proof (dot_self_nonneg n x). rewrite nonzero_dot in H. lra. Qed.
Lemma zero_norm1 n x : ~ nonzero n x -> norm1 n x = 0.
Proof. intros H. pose proof (norm1_nonneg n x). rewrite nonzero_norm1 in H. lra. Qed.
Lemma norm2_pos n x : nonzero n x <-> 0 < norm2 n x.
Proof.
  rewrite nonzero_dot. unfold norm2. split.
  - apply sqrt_lt_R0.
  - intros H. destruct (Rlt_dec 0 (dot n x x)); auto. rewrite sqrt_neg_0 in H by lra. lra.
Qed.

(** [*x /= x.dot(x).sqrt()] and [norm_l1] *)
Lemma unit_fin n a x : holds n a x -> nonzero n x -> exists b, p_unit (N := E) a = Ok b /\ holds n b (along2 n x).
Proof.
  intros Ha Hx. unfold p_unit. rewrite (dot_fin n a a x x) by auto. cbn [bind]. eexists. split; [reflexivity|].
  rewrite ext_sqrt_fin by apply dot_self_nonneg. apply (divs_fin n a x (norm2 n x)); auto. apply norm2_pos in Hx. intros H0; rewrite H0 in Hx; exact (Rlt_irrefl _ Hx).
Qed.
Lemma unit_zero n a x : holds n a x -> ~ nonzero n x -> exists b, p_unit (N := E) a = Ok b /\ undefined n b.
Proof.
  intros Ha Hx. unfold p_unit. rewrite (dot_fin n a a x x) by auto. cbn [bind]. eexists. split; [reflexivity|].
  rewrite (zero_dot n x) by auto. rewrite ext_sqrt_fin by lra. rewrite sqrt_0. apply divs_bad; eauto using holds_vec.
Qed.
Lemma unit_nan n a : (0 < n)%nat -> undefined n a -> exists b, p_unit (N := E) a = Ok b /\ undefined n b.
Proof.
  intros Hn Ha. unfold p_unit. rewrite (dot_nan n a a) by eauto using undef_vec. cbn [bind]. eexists. split; [reflexivity|].
  apply divs_bad; eauto using undef_vec.
Qed.
Lemma l1_fin n a x : holds n a x -> norm_l1 (N := E) a = Fin (norm1 n x).
Proof.
  intros (L & C & H). unfold norm_l1, isum. rewrite fold_accum, map_length, L. change (nsum0 (n := E)) with (Fin 0).
  rewrite (sum_fin _ (fun i => Rabs (x i))); [f_equal; unfold norm1; ring|].
  intros i Hi. rewrite (nth_indep _ _ (nabs (n := E) Nan)) by (rewrite map_length; lia).
  rewrite (map_nth (nabs (n := E))). rewrite H by auto. reflexivity.
Qed.
Lemma l1_nan n a : (0 < n)%nat -> undefined n a -> norm_l1 (N := E) a = Nan.
Proof.
  intros Hn (L & C & H). unfold norm_l1, isum. rewrite fold_accum, map_length, L. apply sum_nan; auto.
  intros i Hi. rewrite (nth_indep _ _ (nabs (n := E) Nan)) by (rewrite map_length; lia).
  rewrite (map_nth (nabs (n := E))). rewrite H by auto. reflexivity.
Qed.
Lemma zip_ok n f (a b : Arr E) : is_vec (N := E) n a -> is_vec (N := E) n b ->
  exists c, a_zip (N := E) f a b = Ok c /\ is_vec (N := E) n c /\
  forall i, (i < n)%nat -> nth i (adata c) Nan = f (nth i (adata a) Nan) (nth i (adata b) Nan).
Proof.
  intros [La Ca] [Lb Cb]. unfold a_zip, assert, a_len. rewrite La, Lb, Nat.eqb_refl. eexists. split; [reflexivity|].
  split; [split; auto; cbn [adata]; rewrite zipwith_length; lia|]. intros i Hi. cbn [adata]. apply zipwith_nth; lia.
Qed.
Lemma sub_fin n a b x y : holds n a x -> holds n b y -> exists c, a_sub (N := E) a b = Ok c /\ holds n c (fun i => x i - y i).
Proof.
  intros Ha Hb. destruct (zip_ok n (nsub (n := E)) a b) as (c & E0 & [L C] & H); eauto using holds_vec.
  exists c. split; auto. split; [|split]; auto. intros i Hi. rewrite H by auto.
  destruct Ha as (_ & _ & Ha), Hb as (_ & _ & Hb). rewrite Ha, Hb by auto. reflexivity.
Qed.
Lemma add_fin n a b x y : holds n a x -> holds n b y -> exists c, a_add (N := E) a b = Ok c /\ holds n c (fun i => x i + y i).
Proof.
  intros Ha Hb. destruct (zip_ok n (nadd (n := E)) a b) as (c & E0 & [L C] & H); eauto using holds_vec.
  exists c. split; auto. split; [|split]; auto. intros i Hi. rewrite H by auto.
  destruct Ha as (_ & _ & Ha), Hb as (_ & _ & Hb). rewrite Ha, Hb by auto. reflexivity.
Qed.
Lemma close_fin n tol a b x y : holds n a x -> holds n b y ->
  exists t, p_close (N := E) (Fin tol) a b = Ok t /\ (t = true <-> agree n tol x y).
Proof.
  intros Ha Hb. unfold p_close. destruct (sub_fin n a b x y Ha Hb) as (d & -> & Hd). cbn [bind].
  rewrite (l1_fin n d _ Hd). cbn [nleb ENum ext_leb].
  destruct (Rle_bool_spec (norm1 n (fun i => x i - y i)) tol) as [H1|H1].
  - exists true. split; auto. split; auto. intros _. now left.
  - destruct (add_fin n a b x y Ha Hb) as (s & -> & Hs). cbn [bind]. rewrite (l1_fin n s _ Hs). cbn [nleb ENum ext_leb].
    eexists. split; [reflexivity|]. destruct (Rle_bool_spec (norm1 n (fun i => x i + y i)) tol) as [H2|H2].
    + split; auto. intros _. now right.
    + split; [discriminate|]. intros [H|H]; lra.
Qed.
Lemma close_nan n tol (a b : Arr E) : (0 < n)%nat -> undefined n a -> is_vec (N := E) n b -> p_close (N := E) tol a b = Ok false.
Proof.
  intros Hn Ha Hb. unfold p_close.
  destruct (zip_ok n (nsub (n := E)) a b) as (c & E0 & [L C] & H); eauto using undef_vec.
  unfold a_sub. rewrite E0. cbn [bind]. assert (Hc : undefined n c).
  { split; [|split]; auto. intros i Hi. rewrite H by auto. destruct Ha as (_ & _ & Ha). rewrite Ha by auto. reflexivity. }
  rewrite (l1_nan n c) by auto. replace (nleb (n := E) Nan tol) with false by (destruct tol; reflexivity).
  destruct (zip_ok n (nadd (n := E)) a b) as (s & E1 & [L1 C1] & H1); eauto using undef_vec.
  unfold a_add. rewrite E1. cbn [bind]. assert (Hs : undefined n s).
  { split; [|split]; auto. intros i Hi. rewrite H1 by auto. destruct Ha as (_ & _ & Ha). rewrite Ha by auto. reflexivity. }
  rewrite (l1_nan n s) by auto. now replace (nleb (n := E) Nan tol) with false by (destruct tol; reflexivity).
Qed.
Lemma quot_fin n a b M x : (0 < n)%nat -> holds_mat n a M -> holds n b x -> p_quot (N := E) a b = Ok (Fin (quad n M x)).
Proof.
  intros Hn Ha Hb. unfold p_quot. destruct (mv_fin n a b M x Hn Ha Hb) as (c & -> & Hc). cbn [bind].
  now rewrite (dot_fin n b c x (mulmv n M x)).
Qed.
Lemma quot_nan n a b M : (0 < n)%nat -> holds_mat n a M -> undefined n b -> p_quot (N := E) a b = Ok Nan.
Proof.
  intros Hn Ha Hb. unfold p_quot. destruct (mv_nan n a b M Hn Ha Hb) as (c & -> & Hc). cbn [bind].
  apply (dot_nan n); eauto using undef_vec.
Qed.

(** Loops that stop at the first iteration satisfying a condition. *)
Lemma loop_first {S R} (stop : nat -> Prop) (I : nat -> S -> Prop) (Q : nat -> R -> Prop) body :
  (forall k s, I k s -> stop k -> exists r, body k s = Ok (Done r) /\ Q k r) ->
  (forall k s, I k s -> ~ stop k -> exists s', body k s = Ok (Next s') /\ I (Datatypes.S k) s') ->
  forall m s, I 0%nat s ->
  (forall k, first_below m stop k -> exists r, loop_range 0 m body s = Ok (Done r) /\ Q k r) /\
  (none_below m stop -> exists s', loop_range 0 m body s = Ok (Next s') /\ I m s').
Proof.
  intros Hd Hn m s H0.
  assert (G : forall k lo s, I lo s ->
    (forall j, (lo <= j < lo + k)%nat -> stop j -> (forall i, (lo <= i < j)%nat -> ~ stop i) ->
       exists r, loop_up k lo body s = Ok (Done r) /\ Q j r) /\
    ((forall j, (lo <= j < lo + k)%nat -> ~ stop j) -> exists s', loop_up k lo body s = Ok (Next s') /\ I (lo + k)%nat s')).
  { clear s H0 m. induction k as [|k IH]; intros lo s HI; cbn [loop_up].
    - split; [intros; lia|]. intros _. exists s. now rewrite Nat.add_0_r.
    - split.
      + intros j Hj Hs Hb. destruct (Nat.eq_dec j lo) as [->|Hne].
        * destruct (Hd lo s HI Hs) as (r & -> & Hr). cbn [bind]. eauto.
        * destruct (Hn lo s HI) as (s' & -> & HI'); [apply Hb; lia|]. cbn [bind].
          apply (IH (Datatypes.S lo) s' HI'); auto; try lia. intros i Hi. apply Hb. lia.
      + intros Hb. destruct (Hn lo s HI) as (s' & -> & HI'); [apply Hb; lia|]. cbn [bind].
        rewrite Nat.add_succ_r. apply (IH (Datatypes.S lo) s' HI'). intros j Hj. apply Hb. lia. }
  unfold loop_range. rewrite Nat.sub_0_r. destruct (G m 0%nat s H0) as [G1 G2]. split.
  - intros k (Hk & Hs & Hb). apply G1; auto; try lia. intros i Hi. apply Hb. lia.
  - intros Hb. apply G2. intros j Hj. apply Hb. lia.
Qed.
