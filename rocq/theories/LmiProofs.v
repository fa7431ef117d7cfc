(** Proofs about the LMI oracles. *)
From Coq Require Import Reals List Bool Arith Lia Lra.
From Verif Require Import Num Res Arr CuttingPlane ArrLemmas StableLemmas Spec RealLin EllSpec StableSpec StableReal Ldlt LdltLemmas LdltSpec LdltReal LdltProofs Lmi LmiSpec.
Import ListNotations.
Open Scope nat_scope.

Section Gen.
Context {N : Num}.

Lemma Forall_nth_sq n (f : list (Arr N)) k d : Forall (square n) f -> k < length f -> square n (nth k f d).
Proof. intros H Hk. rewrite Forall_forall in H. apply H. now apply nth_In. Qed.
Lemma sq_get n (a : Arr N) i j : square n a -> i < n -> j < n -> a_get a i j = Ok (nth (i * n + j) (adata a) n0).
Proof. intros (L & R & C) Hi Hj. unfold a_get. rewrite C. apply rd_nth. rewrite L. now apply flat_lt. Qed.

Definition lmi_val (n : nat) (f : list (Arr N)) (b x : Arr N) (k : nat) (i j : nat) : N :=
  subacc (nth (i * n + j) (adata b) n0) (fun q => nth (i * n + j) (adata (nth q f b)) n0 *! nth q (adata x) n0) k.

Lemma lmi_elem_ok n f (b x : Arr N) i j : square n b -> Forall (square n) f -> a_len x <= length f -> i < n -> j < n ->
  lmi_elem f b x i j = Ok (lmi_val n f b x (a_len x) i j).
Proof.
  intros Hb Hf Hx Hi Hj. unfold lmi_elem. rewrite (sq_get n) by auto. cbn [bind].
  match goal with |- for_range 0 ?k ?body ?z = _ =>
    destruct (for_range_inv (fun q v => v = lmi_val n f b x q i j) 0 k body z) as (v & E & H) end.
  - lia.
  - reflexivity.
  - intros q v [_ Hq] Hv. rewrite (rd_nth f q b) by lia. cbn [bind]. rewrite (sq_get n) by (auto; apply Forall_nth_sq; auto; lia). cbn [bind].
    unfold a_idx. rewrite (rd_nth _ _ n0) by (unfold a_len in *; lia). cbn [bind]. eexists. split; [reflexivity|]. rewrite Hv. reflexivity.
  - now rewrite E, H.
Qed.

Lemma lmi0_elem_ok n f (x : Arr N) d i j : Forall (square n) f -> a_len x <= length f -> i < n -> j < n ->
  lmi0_elem f x i j = Ok (accum n0 (fun q => nth (i * n + j) (adata (nth q f d)) n0 *! nth q (adata x) n0) (a_len x)).
Proof.
  intros Hf Hx Hi Hj. unfold lmi0_elem.
  match goal with |- for_range 0 ?k ?body ?z = _ =>
    destruct (for_range_inv (fun q v => v = accum n0 (fun q => nth (i * n + j) (adata (nth q f d)) n0 *! nth q (adata x) n0) q) 0 k body z) as (v & E & H) end.
  - lia.
  - reflexivity.
  - intros q v [_ Hq] Hv. rewrite (rd_nth f q d) by lia. cbn [bind]. rewrite (sq_get n) by (auto; apply Forall_nth_sq; auto; lia). cbn [bind].
    unfold a_idx. rewrite (rd_nth _ _ n0) by (unfold a_len in *; lia). cbn [bind]. eexists. split; [reflexivity|]. rewrite Hv. reflexivity.
  - now rewrite E, H.
Qed.

(** the gradient loop *)
Lemma grad_ok (f : list (Arr N)) k (h : Arr N -> res N) d (q : nat -> N) : k <= length f ->
  (forall i, i < k -> h (nth i f d) = Ok (q i)) ->
  exists g, for_range 0 k (fun k g => fk <- rd f k ;; v <- h fk ;; a_setidx g k v) (a_new k) = Ok g /\
    length (adata g) = k /\ acols g = 0 /\ forall i, i < k -> nth i (adata g) n0 = q i.
Proof.
  intros Hk Hq.
  match goal with |- context [for_range 0 k ?body ?z] =>
    destruct (for_range_inv (fun i (g : Arr N) => length (adata g) = k /\ acols g = 0 /\ forall j, j < i -> nth j (adata g) n0 = q j) 0 k body z) as (g & E & H) end.
  - lia.
  - split; [apply repeat_length|]. split; [reflexivity|]. intros; lia.
  - intros i g [_ Hi] (L & C & H). rewrite (rd_nth f i d) by lia. cbn [bind]. rewrite Hq by auto. cbn [bind].
    unfold a_setidx. rewrite wr_ok by lia. cbn [bind]. eexists. split; [reflexivity|]. cbn [adata acols]. split; [now rewrite upd_length|].
    split; auto. intros j Hj. rewrite nth_upd by lia. destruct (Nat.eqb_spec i j) as [->|]; auto. apply H. lia.
  - exists g. tauto.
Qed.

(** the assembled matrix of the old oracle *)
Lemma lmi_old_matrix_ok n f (b x : Arr N) : square n b -> Forall (square n) f -> a_len x <= length f ->
  exists a, lmi_old_matrix f b x = Ok a /\ square n a /\
    forall i j, i < n -> j < n -> nth (i * n + j) (adata a) n0 = lmi_val n f b x (a_len x) i j.
Proof.
  intros Hb Hf Hx. unfold lmi_old_matrix. destruct Hb as (Lb & Rb & Cb). rewrite Rb.
  match goal with |- context [for_range 0 (a_len x) ?body ?z] =>
    destruct (for_range_inv (fun q (a : Arr N) => square n a /\ forall i j, i < n -> j < n -> nth (i * n + j) (adata a) n0 = lmi_val n f b x q i j) 0 (a_len x) body z) as (a & E & H) end.
  - lia.
  - split; [split; auto|]. reflexivity.
  - intros q a [_ Hq] (Ha & Va). unfold a_idx. rewrite (rd_nth _ _ n0) by (unfold a_len in *; lia). cbn [bind].
    match goal with |- context [for_range 0 n ?body ?z] =>
      destruct (for_range_inv (fun i (t : Arr N) => square n t /\ forall i' j, i' < n -> j < n ->
        nth (i' * n + j) (adata t) n0 = if i' <? i then lmi_val n f b x (S q) i' j else lmi_val n f b x q i' j) 0 n body z) as (t & Et & Ht & Vt) end.
    + lia.
    + split; auto.
    + intros i t [_ Hi] (Ht & Vt).
      match goal with |- context [for_range 0 n ?body ?z] =>
        destruct (for_range_inv (fun j (u : Arr N) => square n u /\ forall i' j', i' < n -> j' < n ->
          nth (i' * n + j') (adata u) n0 = if (i' <? i) || ((i' =? i) && (j' <? j)) then lmi_val n f b x (S q) i' j' else lmi_val n f b x q i' j') 0 n body z) as (u & Eu & Hu & Vu) end.
      * lia.
      * split; auto. intros i' j' Hi' Hj'. rewrite Vt by auto. rewrite andb_false_r, orb_false_r. auto.
      * intros j u [_ Hj] (Hu & Vu). rewrite (sq_get n) by auto. cbn [bind]. rewrite (rd_nth f q b) by lia. cbn [bind].
        rewrite (sq_get n) by (auto; apply Forall_nth_sq; auto; lia). cbn [bind].
        destruct Hu as (Lu & Ru & Cu). unfold a_set. rewrite Cu, Ru. rewrite wr_ok by (rewrite Lu; now apply flat_lt). cbn [bind].
        eexists. split; [reflexivity|]. split; [repeat split; cbn [adata arows acols]; auto; now rewrite upd_length|].
        intros i' j' Hi' Hj'. cbn [adata]. fold (mget n (upd (adata u) (i * n + j) (nth (i * n + j) (adata u) n0 -! nth (i * n + j) (adata (nth q f b)) n0 *! nth q (adata x) n0)) i' j').
        rewrite mget_upd by (auto; rewrite Lu; now apply flat_lt).
        destruct (Nat.eqb_spec i i') as [<-|]; [destruct (Nat.eqb_spec j j') as [<-|]|]; simpl.
        -- rewrite Vu by auto. rewrite Nat.ltb_irrefl, Nat.eqb_refl, Nat.ltb_irrefl. rewrite (proj2 (Nat.ltb_lt j (S j))) by lia. reflexivity.
        -- unfold mget. rewrite Vu by auto. rewrite Nat.eqb_refl.
           destruct (Nat.ltb_spec j' j), (Nat.ltb_spec j' (S j)); auto; lia.
        -- unfold mget. rewrite Vu by auto. rewrite (proj2 (Nat.eqb_neq i' i)) by auto. reflexivity.
      * rewrite Eu. eexists. split; [reflexivity|]. split; auto. intros i' j' Hi' Hj'. rewrite Vu by auto.
        rewrite (proj2 (Nat.ltb_lt j' n)) by auto. rewrite andb_true_r.
        destruct (Nat.ltb_spec i' i), (Nat.eqb_spec i' i), (Nat.ltb_spec i' (S i)); simpl; auto; lia.
    + rewrite Et. eexists. split; [reflexivity|]. split; auto. intros i j Hi Hj. rewrite Vt by auto. now rewrite (proj2 (Nat.ltb_lt i n)).
  - exists a. tauto.
Qed.

(** Only the values on the lower triangle matter. *)
Lemma for_range_ext2 {S} lo hi (f g : nat -> S -> res S) s : (forall i t, lo <= i < hi -> f i t = g i t) -> for_range lo hi f s = for_range lo hi g s.
Proof. apply for_range_ext. Qed.
Lemma loop_up_ext {S R} k : forall lo (f g : nat -> S -> res (ctl S R)) s, (forall i t, lo <= i < lo + k -> f i t = g i t) -> loop_up k lo f s = loop_up k lo g s.
Proof.
  induction k; intros lo f g s H; cbn [loop_up]; auto. rewrite H by lia. destruct (g lo s) as [[s'|r]|]; cbn [bind]; auto.
  apply IHk. intros; apply H; lia.
Qed.
Lemma ldlt_row_ext n s i (get1 get2 : nat -> nat -> res N) st : s <= i -> (forall j, j <= i -> get1 i j = get2 i j) ->
  ldlt_row n s i get1 st = ldlt_row n s i get2 st.
Proof.
  intros Hs H. unfold ldlt_row. rewrite H by lia. destruct (get2 i s); cbn [bind]; auto. f_equal.
  apply for_range_ext. intros j [t d] Hj. destruct (wr t _ d) as [t1|]; cbn [bind]; auto. destruct (rd t1 _) as [v1|]; cbn [bind]; auto.
  destruct (wr t1 _ _) as [t2|]; cbn [bind]; auto. destruct (ldlt_inner _ _ _ _ _); cbn [bind]; auto. now rewrite H by lia.
Qed.
Lemma ldlt_factor_ext n (get1 get2 : nat -> nat -> res N) (m : LDLT N) : l_ndim m = n ->
  (forall i j, j <= i -> i < n -> get1 i j = get2 i j) -> ldlt_factor get1 m = ldlt_factor get2 m.
Proof.
  intros Hn H. unfold ldlt_factor. rewrite Hn. f_equal. apply loop_up_ext. intros i t Hi. f_equal. apply ldlt_row_ext; [lia|].
  intros j Hj. apply H; lia.
Qed.

Lemma lmi_old_same n (o : LMI N) x : lmi_ok n o -> a_len x <= length (lmi_f o) -> lmi_old_assess o x = lmi_assess o x.
Proof.
  intros (Hb & Hf & Hm) Hx. unfold lmi_old_assess, lmi_assess, ldlt_factorize.
  destruct (lmi_old_matrix_ok n (lmi_f o) (lmi_b o) x Hb Hf Hx) as (a & E & Ha & V). rewrite E. cbn [bind].
  rewrite (ldlt_factor_ext n (a_get a) (lmi_elem (lmi_f o) (lmi_b o) x)); auto.
  - apply (mgr_wf n _ Hm).
  - intros i j Hj Hi. rewrite (sq_get n) by (auto; lia). rewrite V by lia. symmetry. apply lmi_elem_ok; auto; lia.
Qed.
End Gen.

Open Scope R_scope.
Lemma lmi_val_pencil n f (b x : Arr RNum) k i j : @eq R (lmi_val (N := RNum) n f b x k i j) (pencil n k f b (xvec x) i j).
Proof. unfold lmi_val. rewrite subacc_Rsum. reflexivity. Qed.

Lemma pencil_sym n k f b y : sym n (entries n b) -> all_sym n f -> sym n (pencil n k f b y).
Proof.
  intros Hb Hf i j Hi Hj. unfold pencil. rewrite (Hb i j) by auto. f_equal. apply Rsum_ext. intros q Hq. f_equal.
  destruct (Nat.lt_ge_cases q (length f)).
  - unfold all_sym in Hf. rewrite Forall_forall in Hf. apply Hf; auto. now apply nth_In.
  - rewrite nth_overflow by auto. now apply Hb.
Qed.
Lemma quad_pencil n k f b y v : quad n (pencil n k f b y) v =
  quad n (entries n b) v - Rsum k (fun q => quad n (entries n (nth q f b)) v * y q).
Proof.
  induction k; unfold pencil; cbn [Rsum].
  - rewrite Rminus_0_r. apply quad_ext; intros; auto. ring.
  - fold (pencil n k f b y) in IHk.
    replace (quad n (entries n b) v - (Rsum k (fun q => quad n (entries n (nth q f b)) v * y q) + quad n (entries n (nth k f b)) v * y k))
      with (quad n (pencil n k f b y) v - quad n (entries n (nth k f b)) v * y k) by (rewrite IHk; ring).
    unfold quad, dot, mulmv. rewrite <- (Rsum_scal_r n (y k)), <- Rsum_minus. apply Rsum_ext. intros i Hi.
    replace (v i * Rsum n (fun j => entries n (nth k f b) i j * v j) * y k) with (v i * (Rsum n (fun j => entries n (nth k f b) i j * v j) * y k)) by ring.
    rewrite <- (Rsum_scal_r n (y k)), <- Rmult_minus_distr_l, <- Rsum_minus. f_equal. apply Rsum_ext. intros j Hj. unfold pencil. ring.
Qed.

Lemma lmi_new_ok {N : Num} n (f : list (Arr N)) b : square n b -> Forall (square n) f -> lmi_ok n (lmi_new f b).
Proof.
  intros Hb Hf. unfold lmi_new, lmi_ok. cbn [lmi_b lmi_f lmi_mgr]. split; auto. split; auto. destruct Hb as (_ & -> & _).
  exists []. reflexivity.
Qed.

Lemma lmi_assess_ok n (o : LMI RNum) (x : Arr RNum) : lmi_ok n o -> (length (adata x) <= length (lmi_f o))%nat ->
  sym n (entries n (lmi_b o)) -> all_sym n (lmi_f o) ->
  let K := length (adata x) in let P := pencil n K (lmi_f o) (lmi_b o) in
  exists o' r, lmi_assess (N := RNum) o x = Ok (o', r) /\ lmi_ok n o' /\ lmi_f o' = lmi_f o /\ lmi_b o' = lmi_b o /\
    (r = None <-> pd n (P (xvec x))) /\
    forall g beta, r = Some (g, mkSingle (N := RNum) beta) ->
      length (adata g) = K /\ acols g = 0%nat /\ 0 <= beta /\
      (forall y, psd n (P y) -> dot K (xvec g) (fun i => y i - xvec x i) + beta <= 0) /\
      exists v p, (p < n)%nat /\ v p = 1 /\ forall y, dot K (xvec g) (fun i => y i - xvec x i) + beta = - quad n (P y) v.
Proof.
  intros (Hb & Hf & Hm) Hx Sb Sf K P.
  assert (Hr : reads (N := RNum) n (lmi_elem (N := RNum) (lmi_f o) (lmi_b o) x) (P (xvec x))).
  { intros i j Hj Hi. rewrite (lmi_elem_ok n) by (auto; lia). f_equal. apply lmi_val_pencil. }
  assert (Hs : sym n (P (xvec x))) by (apply pencil_sym; auto).
  destruct (factor_decides n _ _ _ Hm Hr Hs) as (m' & b & E & Hiff). unfold lmi_assess. rewrite E. cbn [bind].
  destruct b.
  - do 2 eexists. split; [reflexivity|]. split. { split; auto. split; auto. eapply mgr_factor; eauto. } split; auto. split; auto.
    split. { split; auto. intros _. now apply Hiff. } discriminate.
  - destruct (factor_witness n _ _ _ _ Hm Hr Hs E) as (p & m'' & ep & Hp & Epos & Ew & Hep & Epos' & Eq & Ev & Hq).
    rewrite Ew. cbn [bind].
    destruct (grad_ok (N := RNum) (lmi_f o) K (ldlt_sym_quad (N := RNum) m'') (lmi_b o) (fun k => quad n (entries n (nth k (lmi_f o) (lmi_b o))) (wit_vec m''))) as (g & Eg & Lg & Cg & Vg).
    { exact Hx. } { intros i Hi. apply Hq. apply Forall_nth_sq; auto. unfold K in *. lia. }
    unfold lmi_grad. change (a_len x) with K. rewrite Eg. cbn [bind]. do 2 eexists. split; [reflexivity|].
    split. { split; auto. split; auto. eapply mgr_witness; [|eauto]. eapply mgr_factor; eauto. } split; auto. split; auto.
    split. { split; [discriminate|]. intros HP. apply Hiff in HP. discriminate. }
    intros g' beta [= <- <-]. split; auto. split; auto. split; auto.
    assert (Hy : forall y, dot K (xvec g) (fun i => y i - xvec x i) + ep = - quad n (P y) (wit_vec m'')).
    2: { split; [|exists (wit_vec m''), p; auto]. intros y Hpsd. rewrite Hy. specialize (Hpsd (wit_vec m'')). lra. }
    intros y. unfold P in *. rewrite quad_pencil in Eq |- *.
    assert (D : dot K (xvec g) (fun i => y i - xvec x i) =
      Rsum K (fun q => quad n (entries n (nth q (lmi_f o) (lmi_b o))) (wit_vec m'') * y q) -
      Rsum K (fun q => quad n (entries n (nth q (lmi_f o) (lmi_b o))) (wit_vec m'') * xvec x q)).
    { unfold dot. rewrite <- Rsum_minus. apply Rsum_ext. intros q Hqk. unfold xvec at 1. rewrite <- Rmult_minus_distr_l. f_equal. apply Vg. exact Hqk. }
    rewrite D. clear D. change (num RNum) with R in *. lra.
Qed.

(** LMI0 *)
Lemma quad_pencil0 n k f y v : quad n (pencil0 n k f y) v =
  Rsum k (fun q => quad n (entries n (nth q f (a_zeros (N := RNum) n n))) v * y q).
Proof.
  induction k; unfold pencil0; cbn [Rsum].
  - unfold quad, dot, mulmv. apply Rsum_zero. intros. rewrite Rsum_zero; [ring|]. intros; ring.
  - rewrite <- IHk. unfold quad, dot, mulmv. rewrite <- (Rsum_scal_r n (y k)), <- Rsum_plus. apply Rsum_ext. intros i Hi.
    set (Fk := entries n (nth k f (a_zeros (N := RNum) n n))).
    replace (v i * Rsum n (fun j => Fk i j * v j) * y k) with (v i * (Rsum n (fun j => Fk i j * v j) * y k)) by ring.
    rewrite <- (Rsum_scal_r n (y k)), <- Rmult_plus_distr_l, <- Rsum_plus. f_equal. apply Rsum_ext. intros j Hj. unfold pencil0. ring.
Qed.
Lemma pencil0_sym n k f y : all_sym n f -> sym n (pencil0 n k f y).
Proof.
  intros Hf i j Hi Hj. unfold pencil0. apply Rsum_ext. intros q Hq. f_equal.
  destruct (Nat.lt_ge_cases q (length f)).
  - unfold all_sym in Hf. rewrite Forall_forall in Hf. apply Hf; auto. now apply nth_In.
  - rewrite nth_overflow by auto. unfold entries, a_zeros. cbn [adata]. rewrite !(nth_repeat (n0 (N := RNum)) (n * n)). reflexivity.
Qed.
Lemma lmi0_new_ok {N : Num} n (f : list (Arr N)) : f <> [] -> Forall (square n) f ->
  exists o, lmi0_new f = Ok o /\ lmi0_ok n o /\ lmi0_f o = f.
Proof.
  intros Hn Hf. destruct f as [|f0 f]; [contradiction|]. unfold lmi0_new. cbn [rd nth_error bind]. eexists. split; [reflexivity|].
  split; auto. split; auto. cbn [lmi0_mgr]. inversion Hf; subst. destruct H1 as (_ & -> & _). exists []. reflexivity.
Qed.

Lemma lmi0_assess_ok n (o : LMI0 RNum) (x : Arr RNum) : lmi0_ok n o -> (length (adata x) <= length (lmi0_f o))%nat -> all_sym n (lmi0_f o) ->
  let K := length (adata x) in let P := pencil0 n K (lmi0_f o) in
  exists o' r, lmi0_assess (N := RNum) o x = Ok (o', r) /\ lmi0_ok n o' /\ lmi0_f o' = lmi0_f o /\
    (r = None <-> pd n (P (xvec x))) /\
    forall g ep, r = Some (g, ep) ->
      length (adata g) = K /\ acols g = 0%nat /\ 0 <= ep /\
      (forall y, psd n (P y) -> dot K (xvec g) (fun i => y i - xvec x i) + ep <= 0) /\
      exists v p, (p < n)%nat /\ v p = 1 /\ forall y, dot K (xvec g) (fun i => y i - xvec x i) + ep = - quad n (P y) v.
Proof.
  intros (Hf & Hm) Hx Sf K P.
  assert (Hr : reads (N := RNum) n (lmi0_elem (N := RNum) (lmi0_f o) x) (P (xvec x))).
  { intros i j Hj Hi. rewrite (lmi0_elem_ok n _ _ (a_zeros (N := RNum) n n)) by (auto; lia). f_equal. rewrite accum_from. apply Rplus_0_l. }
  assert (Hs : sym n (P (xvec x))) by (apply pencil0_sym; auto).
  destruct (factor_decides n _ _ _ Hm Hr Hs) as (m' & b & E & Hiff). unfold lmi0_assess. rewrite E. cbn [bind].
  destruct b.
  - do 2 eexists. split; [reflexivity|]. split. { split; auto. eapply mgr_factor; eauto. } split; auto.
    split. { split; auto. intros _. now apply Hiff. } discriminate.
  - destruct (factor_witness n _ _ _ _ Hm Hr Hs E) as (p & m'' & ep & Hp & Epos & Ew & Hep & Epos' & Eq & Ev & Hq).
    rewrite Ew. cbn [bind].
    destruct (grad_ok (N := RNum) (lmi0_f o) K (fun fk => q <- ldlt_sym_quad (N := RNum) m'' fk ;; Ok (nopp (n := RNum) q)) (a_zeros (N := RNum) n n)
      (fun k => - quad n (entries n (nth k (lmi0_f o) (a_zeros (N := RNum) n n))) (wit_vec m''))) as (g & Eg & Lg & Cg & Vg).
    { exact Hx. } { intros i Hi. rewrite Hq; [reflexivity|]. apply Forall_nth_sq; auto. unfold K in *. lia. }
    assert (E2 : for_range 0 (a_len x) (fun k g => fk <- rd (lmi0_f o) k ;; q <- ldlt_sym_quad (N := RNum) m'' fk ;; a_setidx g k (nopp (n := RNum) q)) (a_new (a_len x)) = Ok g).
    { change (a_len x) with K. rewrite <- Eg. apply for_range_ext. intros i t Hi. destruct (rd (lmi0_f o) i) as [fk|]; cbn [bind]; auto.
      destruct (ldlt_sym_quad m'' fk); reflexivity. }
    rewrite E2. cbn [bind]. do 2 eexists. split; [reflexivity|].
    split. { split; auto. eapply mgr_witness; [|eauto]. eapply mgr_factor; eauto. } split; auto.
    split. { split; [discriminate|]. intros HP. apply Hiff in HP. discriminate. }
    intros g' beta [= <- <-]. split; auto. split; auto. split; auto.
    assert (Hy : forall y, dot K (xvec g) (fun i => y i - xvec x i) + ep = - quad n (P y) (wit_vec m'')).
    2: { split; [|exists (wit_vec m''), p; auto]. intros y Hpsd. rewrite Hy. specialize (Hpsd (wit_vec m'')). lra. }
    intros y. unfold P in *. rewrite quad_pencil0 in Eq |- *.
    assert (D : dot K (xvec g) (fun i => y i - xvec x i) =
      Rsum K (fun q => quad n (entries n (nth q (lmi0_f o) (a_zeros (N := RNum) n n))) (wit_vec m'') * xvec x q) -
      Rsum K (fun q => quad n (entries n (nth q (lmi0_f o) (a_zeros (N := RNum) n n))) (wit_vec m'') * y q)).
    { unfold dot. rewrite <- Rsum_minus. apply Rsum_ext. intros q Hqk. unfold xvec at 1.
      change (nth q (adata g) 0) with (nth q (adata g) (n0 (N := RNum))). rewrite Vg by exact Hqk. ring. }
    rewrite D. clear D. change (num RNum) with R in *. lra.
Qed.
