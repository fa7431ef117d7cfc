(** When conjugate_gradient panics, for every number type. *)
From Coq Require Import List Arith Lia Bool.
From Verif Require Import Num Res Arr ArrLemmas Cg CgProofs PowerPanic.
Import ListNotations.
Open Scope nat_scope.

Section Any.
Context {N : Num}.
Notation arr := (Arr N).
Lemma zip_vec n f (a b : arr) : is_vec n a -> is_vec n b -> exists c, a_zip f a b = Ok c /\ is_vec n c.
Proof.
  intros [La Ca] [Lb Cb]. unfold a_zip, assert, a_len. rewrite La, Lb, Nat.eqb_refl. eexists. split; [reflexivity|].
  split; auto. cbn [adata]. rewrite zipwith_length. lia.
Qed.
Lemma axpy_total n x s (p : arr) : is_vec n x -> is_vec n p -> exists w, cg_axpy n x s p = Ok w /\ is_vec n w.
Proof. intros Hx Hp. destruct (update_ok n (fun a b => a +! s *! b) x p Hx Hp) as (w & E & H & _). eauto. Qed.
Lemma axmy_total n x s (p : arr) : is_vec n x -> is_vec n p -> exists w, cg_axmy n x s p = Ok w /\ is_vec n w.
Proof. intros Hx Hp. destruct (update_ok n (fun a b => a -! s *! b) x p Hx Hp) as (w & E & H & _). eauto. Qed.
Lemma dir_total n p s (r : arr) : is_vec n p -> is_vec n r -> exists w, cg_dir n p s r = Ok w /\ is_vec n w.
Proof. intros Hx Hp. destruct (update_ok n (fun a b => b +! s *! a) p r Hx Hp) as (w & E & H & _). eauto. Qed.
Definition all_vec (n : nat) (s : cg_state (N := N)) : Prop := let '(x, r, p, _) := s in is_vec n x /\ is_vec n r /\ is_vec n p.
Lemma step_total n a tol s : 0 < n -> is_mat n n a -> all_vec n s ->
  (exists t, cg_step a n tol s = Ok (Next t) /\ all_vec n t) \/ (exists r, cg_step a n tol s = Ok (Done r)).
Proof.
  intros Hn Ha. destruct s as [[[x r] p] q]. intros (Hx & Hr & Hp). unfold cg_step.
  destruct (mv_total n n a p Hn Ha Hp) as (y & -> & Hy). cbn [bind]. destruct (dot_total n p y Hp Hy) as (d & ->). cbn [bind].
  destruct (d =?! n0); eauto. cbv zeta.
  destruct (axpy_total n x (q /! d) p Hx Hp) as (x1 & -> & Hx1). cbn [bind].
  destruct (axmy_total n r (q /! d) y Hr Hy) as (r1 & -> & Hr1). cbn [bind].
  destruct (dot_total n r1 r1 Hr1 Hr1) as (q1 & ->). cbn [bind]. destruct (nsqrt q1 <?! tol); eauto. cbv zeta.
  destruct (dir_total n p (q1 /! q) r1 Hp Hr1) as (p1 & -> & Hp1). cbn [bind]. left. eexists. split; [reflexivity|]. split; auto.
Qed.

Lemma cg_panics (a b : arr) o tol m : length (adata a) = arows a * acols a ->
  let x := match o with Some x => x | None => a_new (length (adata b)) end in
  conjugate_gradient a b o tol m = Panic <->
  ~ (0 < acols a /\ acols x = 0 /\ length (adata x) = acols a /\ acols b = 0 /\ length (adata b) = arows a /\ (0 < m -> arows a = acols a)).
Proof.
  intros Hw x. unfold conjugate_gradient. change (a_len b) with (length (adata b)). fold x. cbv zeta.
  assert (Good : (0 < acols a /\ acols x = 0 /\ length (adata x) = acols a /\ acols b = 0 /\ length (adata b) = arows a /\ (0 < m -> arows a = acols a)) \/
    (acols a = 0 \/ acols x <> 0 \/ acols a <> length (adata x)) \/
    (0 < acols a /\ acols x = 0 /\ length (adata x) = acols a /\ length (adata b) <> arows a) \/
    (0 < acols a /\ acols x = 0 /\ length (adata x) = acols a /\ length (adata b) = arows a /\ acols b <> 0) \/
    (0 < acols a /\ acols x = 0 /\ length (adata x) = acols a /\ acols b = 0 /\ length (adata b) = arows a /\ 0 < m /\ arows a <> acols a)) by lia.
  assert (Ma : is_mat (arows a) (acols a) a) by (repeat split; auto).
  destruct Good as [G|[G|[G|[G|G]]]].
  - split; [|tauto]. intros H. exfalso. destruct G as (G1 & G2 & G3 & G4 & G5 & G6).
    destruct (mv_total (arows a) (acols a) a x G1 Ma) as (ax & E & Hax); [split; auto|]. rewrite E in H. cbn [bind] in H.
    destruct (zip_vec (arows a) nsub b ax) as (r & Er & Hr); [split; auto|auto|]. unfold a_sub in H. rewrite Er in H. cbn [bind] in H.
    destruct (dot_total _ r r Hr Hr) as (q & Eq). rewrite Eq in H. cbn [bind] in H.
    destruct m as [|m']; [discriminate|]. specialize (G6 (Nat.lt_0_succ _)). rewrite G6 in *. rewrite G5 in H.
    destruct (loop_total (all_vec (acols a)) (S m') (fun _ s => cg_step a (acols a) tol s) (x, r, r, q)) as [(t & Et & _)|(t & Et)].
    + split; [split; auto|split; auto].
    + intros i t Ht. now apply step_total.
    + rewrite Et in H. discriminate.
    + rewrite Et in H. discriminate.
  - split; [lia|]. intros _. now rewrite mv_bad.
  - split; [lia|]. intros _. destruct G as (G1 & G2 & G3 & G4).
    destruct (mv_total (arows a) (acols a) a x G1 Ma) as (ax & E & Hax); [split; auto|]. rewrite E. cbn [bind].
    unfold a_sub. rewrite zip_bad; auto. destruct Hax as [L _]. lia.
  - split; [lia|]. intros _. destruct G as (G1 & G2 & G3 & G4 & G5).
    destruct (mv_total (arows a) (acols a) a x G1 Ma) as (ax & E & Hax); [split; auto|]. rewrite E. cbn [bind].
    unfold a_sub, a_zip, assert, a_len. destruct Hax as [L _]. rewrite L, G4, Nat.eqb_refl. cbn [bind]. now rewrite dot_2d.
  - split; [lia|]. intros _. destruct G as (G1 & G2 & G3 & G4 & G5 & G6 & G7).
    destruct (mv_total (arows a) (acols a) a x G1 Ma) as (ax & E & Hax); [split; auto|]. rewrite E. cbn [bind].
    destruct (zip_vec (arows a) nsub b ax) as (r & Er & Hr); [split; auto|auto|]. unfold a_sub. rewrite Er. cbn [bind].
    destruct (dot_total _ r r Hr Hr) as (q & Eq). rewrite Eq. cbn [bind].
    rewrite loop_panic; auto. unfold cg_step. rewrite mv_bad; auto. right; right. destruct Hr as [Lr _]. lia.
Qed.
End Any.
