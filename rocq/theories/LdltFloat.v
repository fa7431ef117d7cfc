(** The LDL' manager on NaN. *)
From Coq Require Import ZArith List Bool Arith Lia.
From Flocq Require Import Core IEEE754.BinarySingleNaN.
From Verif Require Import Num Res Arr ArrLemmas Ldlt LdltLemmas LdltSpec LdltProofs.
Import ListNotations.
Open Scope nat_scope.

Notation isnan := (@is_nan fprec femax).
Lemma nan_add_l (x y : f64) : isnan x = true -> isnan (fadd x y) = true.
Proof. destruct x; try discriminate. destruct y; reflexivity. Qed.
Lemma nan_add_r (x y : f64) : isnan y = true -> isnan (fadd x y) = true.
Proof. destruct y; try discriminate. destruct x; reflexivity. Qed.
Lemma nan_sub_l (x y : f64) : isnan x = true -> isnan (fsub x y) = true.
Proof. destruct x; try discriminate. destruct y; reflexivity. Qed.
Lemma nan_sub_r (x y : f64) : isnan y = true -> isnan (fsub x y) = true.
Proof. destruct y; try discriminate. destruct x; reflexivity. Qed.
Lemma nan_mul_l (x y : f64) : isnan x = true -> isnan (fmul x y) = true.
Proof. destruct x; try discriminate. destruct y; reflexivity. Qed.
Lemma nan_mul_r (x y : f64) : isnan y = true -> isnan (fmul x y) = true.
Proof. destruct y; try discriminate. destruct x; reflexivity. Qed.
Lemma nan_div_l (x y : f64) : isnan x = true -> isnan (fdiv x y) = true.
Proof. destruct x; try discriminate. destruct y; reflexivity. Qed.
Lemma nan_div_r (x y : f64) : isnan y = true -> isnan (fdiv x y) = true.
Proof. destruct y; try discriminate. destruct x; reflexivity. Qed.
Lemma nan_leb_l (x y : f64) : isnan x = true -> @Bleb fprec femax x y = false.
Proof. destruct x; try discriminate. destruct y; reflexivity. Qed.

Section Nan.
Variable lm : Libm.
Notation F := (FNum lm).

Lemma accum_nan (z : num F) f k q : q < k -> isnan (f q) = true -> isnan (accum (N := F) z f k) = true.
Proof.
  induction k; intros Hq Hn; [lia|]. cbn [accum]. destruct (Nat.eq_dec q k) as [->|].
  - apply nan_add_r. auto.
  - apply nan_add_l. apply IHk; auto. lia.
Qed.

Variables (n : nat) (G : nat -> nat -> num F).
Lemma nan_accepted (m : LDLT F) get i j : mgr n m -> reads n get G -> j <= i -> i < n -> isnan (G i j) = true ->
  exists m' b, ldlt_factor get m = Ok (m', b) /\ (b = false -> snd (l_pos m') <= i).
Proof.
  intros Hm Hr Hj Hi Hn. destruct (ldlt_factor_ok n get G m (mgr_wf n m Hm) Hr) as (t & Lt & [(E & H)|(p & Hp & E & H1 & H2 & H3)]).
  - do 2 eexists. split; [exact E|discriminate].
  - do 2 eexists. split; [exact E|]. intros _. cbn [l_pos snd]. destruct (Nat.lt_ge_cases p i) as [|Hge]; [lia|]. exfalso.
    assert (K : isnan (mget n t i i) = true).
    { destruct (H1 i Hge) as [R1 R2].
      assert (P : isnan (piv n 0 G t i j) = true). { unfold piv. destruct (j =? 0); auto. apply nan_sub_l. auto. }
      destruct (Nat.eq_dec j i) as [->|Hne]; [now rewrite R2|].
      destruct (R1 j ltac:(lia)) as [A B]. rewrite R2. unfold piv. destruct (Nat.eqb_spec i 0); [lia|].
      apply nan_sub_r. apply (accum_nan _ _ _ j); [lia|]. apply nan_mul_l. cbn [plus]. rewrite B. apply nan_div_l. rewrite A. exact P. }
    assert (K2 : isnan (mget n t p p) = true).
    { destruct (Nat.eq_dec i p) as [<-|]; auto. destruct (H1 p (le_n p)) as [R1 R2].
      destruct (R1 i ltac:(lia)) as [A B]. rewrite R2. unfold piv. destruct (Nat.eqb_spec p 0); [lia|].
      apply nan_sub_r. apply (accum_nan _ _ _ i); [lia|]. apply nan_mul_l. cbn [plus]. rewrite B. apply nan_div_r. exact K. }
    change (@Bleb fprec femax (mget n t p p) (n0 (N := F)) = true) in H3. rewrite nan_leb_l in H3; [discriminate|exact K2].
Qed.
Lemma nan_first (m : LDLT F) get : 0 < n -> mgr n m -> reads n get G -> isnan (G 0 0) = true ->
  exists m', ldlt_factor get m = Ok (m', true).
Proof.
  intros H0 Hm Hr Hn. destruct (nan_accepted m get 0 0 Hm Hr) as (m' & b & E & H); auto.
  destruct b; [eauto|]. exfalso. specialize (H eq_refl).
  destruct (ldlt_factor_ok n get G m (mgr_wf n m Hm) Hr) as (t & Lt & [(E' & _)|(p & Hp & E' & _)]); rewrite E in E'; [discriminate|].
  injection E' as ->. simpl in H. lia.
Qed.
End Nan.

(** * Concrete matrices *)
Definition fmat (n : nat) (l : list Z) : Arr (FNum lm0) := mkArr (N := FNum lm0) (map (fun z => fofZ z) l) n n.
(** the repository's test matrices *)
Definition chol1 := fmat 3 [25; 15; -5; 15; 18; 0; -5; 0; 11]%Z.
Definition chol3 := fmat 3 [0; 15; -5; 15; 18; 0; -5; 0; 11]%Z.
Definition chol7 := fmat 3 [0; 15; -5; 15; 18; 0; -5; 0; -20]%Z.
Lemma chol1_pd : match ldlt_factorize (N := FNum lm0) chol1 (ldlt_new 3) with Ok (m, b) => b = true /\ l_pos m = (0, 0) | Panic => False end.
Proof. vm_compute. auto. Qed.
Lemma chol3_not_pd : match ldlt_factorize (N := FNum lm0) chol3 (ldlt_new 3) with
  | Ok (m, b) => b = false /\ l_pos m = (0, 1) /\
     match ldlt_witness m with Ok (m', ep) => map (@ftrunc) (adata (l_wit m')) = [1; 0; 0]%Z /\ ftrunc ep = 0%Z | Panic => False end
  | Panic => False end.
Proof. vm_compute. auto. Qed.
Lemma chol3_semi : match ldlt_factor_semi (N := FNum lm0) (a_get chol3) (ldlt_new 3) with Ok (m, b) => b = true | Panic => False end.
Proof. vm_compute. auto. Qed.
Lemma chol7_semi : match ldlt_factor_semi (N := FNum lm0) (a_get chol7) (ldlt_new 3) with
  | Ok (m, b) => b = false /\ match ldlt_witness m with Ok (m', ep) => ftrunc ep = 20%Z | Panic => False end
  | Panic => False end.
Proof. vm_compute. auto. Qed.

(** a reused manager: the second witness keeps an entry of the first *)
Definition fm_a := fmat 2 [1; 0; 0; -1]%Z.
Definition fm_b := fmat 2 [-1; 0; 0; 1]%Z.
Definition wit_after (ms : list (Arr (FNum lm0))) : res (list Z * (nat * nat)) :=
  m <- fold_left (fun acc a => m <- acc ;; ' (m, _) <- ldlt_factorize (N := FNum lm0) a m ;; ' (m, _) <- ldlt_witness m ;; Ok m) ms (Ok (ldlt_new 2)) ;;
  Ok (map (@ftrunc) (adata (l_wit m)), l_pos m).
Lemma stale_entry : wit_after [fm_b] = Ok ([1; 0]%Z, (0, 1)) /\ wit_after [fm_a; fm_b] = Ok ([1; 1]%Z, (0, 1)).
Proof. vm_compute. auto. Qed.
Lemma stale_witness : exists l1 l2, last l1 fm_a = last l2 fm_a /\ l1 <> [] /\ l2 <> [] /\
  exists w1 w2, wit_after l1 = Ok w1 /\ wit_after l2 = Ok w2 /\ w1 <> w2.
Proof.
  exists [fm_b], [fm_a; fm_b]. split; [reflexivity|]. split; [discriminate|]. split; [discriminate|].
  do 2 eexists. split; [apply stale_entry|]. split; [apply stale_entry|]. discriminate.
Qed.
