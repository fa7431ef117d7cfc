(** When the power iterations panic, for every number type. *)
From Coq Require Import List Arith Lia Bool.
From Verif Require Import Num Res Arr ArrLemmas PowerIter.
Import ListNotations.
Open Scope nat_scope.

Section Any.
Context {N : Num}.
Notation arr := (Arr N).

Lemma dot_total n (a b : arr) : is_vec n a -> is_vec n b -> exists q, a_dot a b = Ok q.
Proof. intros Ha Hb. rewrite (a_dot_ok n) by auto. eauto. Qed.
Lemma dot_2d (a b : arr) : acols a <> 0 -> a_dot a b = Panic.
Proof. intros H. unfold a_dot, a_is_2d, assert. destruct (Nat.ltb_spec 0 (acols a)); [reflexivity|lia]. Qed.
Lemma dot_len n m (a b : arr) : is_vec n a -> is_vec m b -> n <> m -> a_dot a b = Panic.
Proof.
  intros [La Ca] [Lb Cb] H. unfold a_dot, a_is_2d, assert, a_len. rewrite Ca, Cb, La, Lb. simpl.
  destruct (Nat.eqb_spec n m); [lia|reflexivity].
Qed.
Lemma mv_total r n (a x : arr) : 0 < n -> is_mat r n a -> is_vec n x -> exists y, a_dot_mv a x = Ok y /\ is_vec r y.
Proof.
  intros Hn Ha Hx. rewrite (a_dot_mv_ok r n) by auto. eexists. split; [reflexivity|]. split; [|reflexivity].
  cbn [adata]. now rewrite map_length, seq_length.
Qed.
Lemma mv_bad (a x : arr) : acols a = 0 \/ acols x <> 0 \/ acols a <> length (adata x) -> a_dot_mv a x = Panic.
Proof.
  intros H. unfold a_dot_mv, assert, a_is_2d, a_len.
  destruct (Nat.ltb_spec 0 (acols a)); [|reflexivity]. destruct (Nat.ltb_spec 0 (acols x)); [reflexivity|]. simpl.
  destruct (Nat.eqb_spec (acols a) (length (adata x))); [lia|reflexivity].
Qed.
Lemma divs_vec n (a : arr) s : is_vec n a -> is_vec n (a_divs a s).
Proof. intros [L C]. split; auto. cbn [a_divs a_mapd adata]. now rewrite map_length. Qed.
Lemma unit_total n (a : arr) : is_vec n a -> exists b, p_unit a = Ok b /\ is_vec n b.
Proof.
  intros Ha. unfold p_unit. destruct (dot_total n a a Ha Ha) as (q & ->). cbn [bind]. eexists. split; [reflexivity|]. now apply divs_vec.
Qed.
Lemma zip_total n f (a b : arr) : is_vec n a -> is_vec n b -> exists c, a_zip f a b = Ok c.
Proof. intros [La Ca] [Lb Cb]. unfold a_zip, assert, a_len. rewrite La, Lb, Nat.eqb_refl. eauto. Qed.
Lemma zip_bad f (a b : arr) : length (adata a) <> length (adata b) -> a_zip f a b = Panic.
Proof. intros H. unfold a_zip, assert, a_len. destruct (Nat.eqb_spec (length (adata a)) (length (adata b))); [lia|reflexivity]. Qed.
Lemma close_total n tol (a b : arr) : is_vec n a -> is_vec n b -> exists t, p_close tol a b = Ok t.
Proof.
  intros Ha Hb. unfold p_close, a_sub, a_add. destruct (zip_total n nsub a b Ha Hb) as (c & ->). cbn [bind].
  destruct (norm_l1 c <=?! tol); eauto. destruct (zip_total n nadd a b Ha Hb) as (s & ->). cbn [bind]. eauto.
Qed.
Lemma close_bad tol (a b : arr) : length (adata a) <> length (adata b) -> p_close tol a b = Panic.
Proof. intros H. unfold p_close, a_sub. now rewrite zip_bad. Qed.
Lemma quot_total n (a x : arr) : 0 < n -> is_mat n n a -> is_vec n x -> exists q, p_quot a x = Ok q.
Proof.
  intros Hn Ha Hx. unfold p_quot. destruct (mv_total n n a x Hn Ha Hx) as (y & -> & Hy). cbn [bind]. now apply dot_total with n.
Qed.
Lemma quot_bad r n (a x : arr) : 0 < n -> is_mat r n a -> is_vec n x -> r <> n -> p_quot a x = Panic.
Proof.
  intros Hn Ha Hx Hr. unfold p_quot. destruct (mv_total r n a x Hn Ha Hx) as (y & -> & Hy). cbn [bind]. now apply dot_len with n r; auto.
Qed.
Lemma loop_total {S R} (P : S -> Prop) m body (s : S) : P s ->
  (forall i t, P t -> (exists t', body i t = Ok (Next t') /\ P t') \/ (exists r : R, body i t = Ok (Done r))) ->
  (exists t, loop_range 0 m body s = Ok (Next t) /\ P t) \/ (exists r, loop_range 0 m body s = Ok (Done r)).
Proof.
  intros H0 H. destruct (loop_range_inv (fun _ => P) (fun _ => True) 0 m body s) as [(t & E & Ht)|(r & E & _)]; eauto; [lia|].
  intros i t _ Ht. destruct (H i t Ht) as [|(r & E)]; eauto.
Qed.
Lemma loop_panic {S R} m body (s : S) : 0 < m -> body 0 s = Panic -> loop_range 0 m body s = @Panic (ctl S R).
Proof. intros Hm H. unfold loop_range. destruct m; [lia|]. simpl. now rewrite H. Qed.

(** a square matrix and a vector of its size *)
Definition shapes (a x : arr) : Prop :=
  0 < acols a /\ arows a = acols a /\ acols x = 0 /\ length (adata x) = acols a.
Lemma shapes_dec a x : shapes a x \/ ~ shapes a x.
Proof. unfold shapes. lia. Qed.

Section Good.
Variables (a x : arr) (o : POptions N).
Hypothesis Hw : length (adata a) = arows a * acols a.
Hypothesis Hg : shapes a x.
Notation n := (acols a).
Lemma g_mat : is_mat n n a. Proof. destruct Hg as (H1 & H2 & H3 & H4). repeat split; auto. now rewrite Hw, H2. Qed.
Lemma g_vec : is_vec n x. Proof. destruct Hg as (H1 & H2 & H3 & H4). split; auto. Qed.
Lemma g_pos : 0 < n. Proof. apply Hg. Qed.

Lemma good1 : power_iteration a x o <> Panic.
Proof.
  pose proof g_mat as Hm. pose proof g_vec as Hv. pose proof g_pos as Hn. unfold power_iteration.
  destruct (unit_total n x Hv) as (x1 & -> & H1). cbn [bind].
  match goal with |- bind (loop_range 0 _ ?b _) _ <> _ => destruct (loop_total (is_vec n) (p_max_iters o) b x1 H1) as [(t & -> & Ht)|(r & ->)] end.
  - intros i t Ht. destruct (mv_total n n a t Hn Hm Ht) as (y & -> & Hy). cbn [bind].
    destruct (unit_total n y Hy) as (z & -> & Hz). cbn [bind]. destruct (close_total n (p_tolerance o) z t Hz Ht) as (b & ->). cbn [bind].
    destruct b; eauto. destruct (quot_total n a z Hn Hm Hz) as (q & ->). cbn [bind]. eauto.
  - cbn [bind]. destruct (quot_total n a t Hn Hm Ht) as (q & ->). discriminate.
  - discriminate.
Qed.
Lemma good4 : power_iteration4 a x o <> Panic.
Proof.
  pose proof g_mat as Hm. pose proof g_vec as Hv. pose proof g_pos as Hn. unfold power_iteration4. cbv zeta.
  pose proof (divs_vec n x (norm_l1 x) Hv) as H1.
  match goal with |- bind (loop_range 0 _ ?b ?s) _ <> _ => destruct (loop_total (is_vec n) (p_max_iters o) b s H1) as [(t & -> & Ht)|(r & ->)] end.
  - intros i t Ht. destruct (mv_total n n a t Hn Hm Ht) as (y & -> & Hy). cbn [bind].
    pose proof (divs_vec n y (norm_l1 y) Hy) as Hz. destruct (close_total n (p_tolerance o) _ t Hz Ht) as (b & ->). cbn [bind].
    destruct b; eauto. destruct (unit_total n _ Hz) as (u & -> & Hu). cbn [bind]. destruct (quot_total n a u Hn Hm Hu) as (q & ->). cbn [bind]. eauto.
  - cbn [bind]. destruct (unit_total n _ Ht) as (u & -> & Hu). cbn [bind]. destruct (quot_total n a u Hn Hm Hu) as (q & ->). discriminate.
  - discriminate.
Qed.
Lemma good2 : power_iteration2 a x o <> Panic.
Proof.
  pose proof g_mat as Hm. pose proof g_vec as Hv. pose proof g_pos as Hn. unfold power_iteration2.
  destruct (unit_total n x Hv) as (x1 & -> & H1). cbn [bind]. destruct (mv_total n n a x1 Hn Hm H1) as (y & -> & Hy). cbn [bind].
  destruct (dot_total n x1 y H1 Hy) as (q & ->). cbn [bind].
  match goal with |- bind (loop_range 0 _ ?b ?s) _ <> _ =>
    destruct (loop_total (fun q0 => is_vec n (snd (fst q0))) (p_max_iters o) b s Hy) as [(t & -> & Ht)|(r & ->)] end.
  - intros i [[t u] e] Ht. cbn [fst snd] in Ht. destruct (unit_total n u Ht) as (z & -> & Hz). cbn [bind].
    destruct (mv_total n n a z Hn Hm Hz) as (w & -> & Hw'). cbn [bind]. destruct (dot_total n z w Hz Hw') as (q' & ->). cbn [bind].
    destruct (nabs (e -! q') <=?! p_tolerance o); eauto.
  - destruct t as [[t u] e]. discriminate.
  - discriminate.
Qed.
Lemma good3 : power_iteration3 a x o <> Panic.
Proof.
  pose proof g_mat as Hm. pose proof g_vec as Hv. pose proof g_pos as Hn. unfold power_iteration3.
  destruct (mv_total n n a x Hn Hm Hv) as (y & -> & Hy). cbn [bind].
  destruct (dot_total n x x Hv Hv) as (d & ->). cbn [bind]. destruct (dot_total n x y Hv Hy) as (q & ->). cbn [bind]. cbv zeta.
  match goal with |- bind (loop_range 0 _ ?b ?s) _ <> _ =>
    destruct (loop_total (fun q0 => is_vec n (snd (fst q0))) (p_max_iters o) b s Hy) as [(t & -> & Ht)|(r & ->)] end.
  - intros i [[t u] e] Ht. cbn [fst snd] in Ht. destruct (dot_total n u u Ht Ht) as (d' & ->). cbn [bind].
    destruct (unit_total n u Ht) as (z & Ez & Hz). rewrite Ez. cbn [bind].
    destruct (mv_total n n a z Hn Hm Hz) as (w & Ew & Hw'). rewrite Ew. cbn [bind]. destruct (dot_total n z w Hz Hw') as (q' & Eq). rewrite Eq. cbn [bind].
    destruct (mv_total n n a u Hn Hm Ht) as (w2 & Ew2 & Hw2). rewrite Ew2. cbn [bind]. destruct (dot_total n u w2 Ht Hw2) as (q2 & Eq2). rewrite Eq2. cbn [bind].
    match goal with |- context [if ?b then _ else _] => destruct b end.
    + destruct (nabs (e -! q') <=?! p_tolerance o); eauto.
    + destruct (nabs (e -! q2 /! d') <=?! p_tolerance o); eauto.
  - destruct t as [[t u] e]. discriminate.
  - discriminate.
Qed.
End Good.

Section Bad.
Variables (a x : arr) (o : POptions N).
Hypothesis Hw : length (adata a) = arows a * acols a.
Hypothesis Hg : ~ shapes a x.
Notation n := (acols a).
Lemma bad_cases : acols x <> 0 \/
  (is_vec (length (adata x)) x /\ (n = 0 \/ n <> length (adata x))) \/
  (is_vec n x /\ 0 < n /\ is_mat (arows a) n a /\ arows a <> n).
Proof.
  unfold shapes in Hg. destruct (Nat.eq_dec (acols x) 0) as [E|]; auto. right.
  destruct (Nat.eq_dec n 0) as [|Hn0]; [left; split; auto; split; auto|].
  destruct (Nat.eq_dec n (length (adata x))) as [|Hne]; [|left; split; auto; split; auto].
  right. split; [split; auto|]. split; [lia|]. split; [repeat split; auto|]. lia.
Qed.
Lemma unit_2d (y : arr) : acols y <> 0 -> p_unit y = Panic.
Proof. intros H. unfold p_unit. now rewrite dot_2d. Qed.

Lemma bad1 : power_iteration a x o = Panic.
Proof.
  unfold power_iteration. destruct bad_cases as [H|[(Hx & H)|(Hx & H0 & Hm & H)]].
  - now rewrite unit_2d.
  - destruct (unit_total _ x Hx) as (z & -> & Hz). cbn [bind].
    assert (E : a_dot_mv a z = Panic) by (apply mv_bad; destruct Hz; lia).
    destruct (Nat.eq_dec (p_max_iters o) 0) as [->|Hm].
    + cbn. unfold p_quot. now rewrite E.
    + rewrite loop_panic; auto; [lia|]. now rewrite E.
  - destruct (unit_total _ x Hx) as (z & -> & Hz). cbn [bind].
    destruct (Nat.eq_dec (p_max_iters o) 0) as [->|Hm'].
    + cbn. now rewrite (quot_bad (arows a) n a z).
    + rewrite loop_panic; auto; [lia|]. destruct (mv_total (arows a) n a z H0 Hm Hz) as (y & -> & Hy). cbn [bind].
      destruct (unit_total _ y Hy) as (u & -> & Hu). cbn [bind]. rewrite close_bad; auto. destruct Hu, Hz; lia.
Qed.
Lemma bad4 : power_iteration4 a x o = Panic.
Proof.
  unfold power_iteration4. cbv zeta. destruct bad_cases as [H|[(Hx & H)|(Hx & H0 & Hm & H)]].
  - destruct (Nat.eq_dec (p_max_iters o) 0) as [->|Hm].
    + cbn. now rewrite unit_2d.
    + rewrite loop_panic; auto; [lia|]. now rewrite mv_bad by auto.
  - pose proof (divs_vec _ x (norm_l1 x) Hx) as Hz.
    assert (E : forall z : arr, is_vec (length (adata x)) z -> a_dot_mv a z = Panic) by (intros z [Lz Cz]; apply mv_bad; lia).
    destruct (Nat.eq_dec (p_max_iters o) 0) as [->|Hm].
    + cbn [loop_range Nat.sub loop_up bind]. destruct (unit_total _ _ Hz) as (u & -> & Hu). cbn [bind]. unfold p_quot. now rewrite E.
    + rewrite loop_panic; auto; [lia|]. now rewrite E.
  - pose proof (divs_vec _ x (norm_l1 x) Hx) as Hz.
    destruct (Nat.eq_dec (p_max_iters o) 0) as [->|Hm'].
    + cbn [loop_range Nat.sub loop_up bind]. destruct (unit_total _ _ Hz) as (u & -> & Hu). cbn [bind]. now rewrite (quot_bad (arows a) n a u).
    + rewrite loop_panic; auto; [lia|]. destruct (mv_total (arows a) n a _ H0 Hm Hz) as (y & -> & Hy). cbn [bind].
      rewrite close_bad; auto. destruct (divs_vec _ y (norm_l1 y) Hy), Hz; lia.
Qed.
Lemma bad2 : power_iteration2 a x o = Panic.
Proof.
  unfold power_iteration2. destruct bad_cases as [H|[(Hx & H)|(Hx & H0 & Hm & H)]].
  - now rewrite unit_2d.
  - destruct (unit_total _ x Hx) as (z & -> & Hz). cbn [bind]. rewrite mv_bad; auto. destruct Hz; lia.
  - destruct (unit_total _ x Hx) as (z & -> & Hz). cbn [bind].
    destruct (mv_total (arows a) n a z H0 Hm Hz) as (y & -> & Hy). cbn [bind]. now rewrite (dot_len n (arows a)) by auto.
Qed.
Lemma bad3 : power_iteration3 a x o = Panic.
Proof.
  unfold power_iteration3. destruct bad_cases as [H|[(Hx & H)|(Hx & H0 & Hm & H)]].
  - rewrite mv_bad; auto.
  - rewrite mv_bad; auto. destruct H; auto.
  - destruct (mv_total (arows a) n a x H0 Hm Hx) as (y & -> & Hy). cbn [bind].
    destruct (dot_total n x x Hx Hx) as (d & ->). cbn [bind]. now rewrite (dot_len n (arows a)) by auto.
Qed.
End Bad.

Theorem power_panics (a x : arr) o : length (adata a) = arows a * acols a ->
  (power_iteration a x o = Panic <-> ~ shapes a x) /\ (power_iteration2 a x o = Panic <-> ~ shapes a x) /\
  (power_iteration3 a x o = Panic <-> ~ shapes a x) /\ (power_iteration4 a x o = Panic <-> ~ shapes a x).
Proof.
  intros Hw. destruct (shapes_dec a x) as [Hg|Hg].
  - pose proof (good1 a x o Hw Hg). pose proof (good2 a x o Hw Hg). pose proof (good3 a x o Hw Hg). pose proof (good4 a x o Hw Hg). tauto.
  - pose proof (bad1 a x o Hw Hg). pose proof (bad2 a x o Hw Hg). pose proof (bad3 a x o Hw Hg). pose proof (bad4 a x o Hw Hg). tauto.
Qed.
End Any.
