(** Array equality, constructors and scalar arithmetic: proofs. *)
From Coq Require Import ZArith Reals List Bool Arith Lia.
From Flocq Require Import Core IEEE754.BinarySingleNaN.
From Verif Require Import Num Res Arr ArrLemmas.
Import ListNotations.

Section F.
Variable lm : Libm.
Notation F := (FNum lm).

Lemma beqb_refl (x : f64) : Beqb x x = negb (is_nan x).
Proof.
  destruct x as [s|s| |s m e Hb]; try (destruct s); try reflexivity; unfold Beqb, SpecFloat.SFeqb; cbn;
    rewrite Z.compare_refl; change (Pos.compare_cont Eq m m) with (Pos.compare m m); rewrite Pos.compare_refl; reflexivity.
Qed.
Lemma beqb_real (x y : f64) : Beqb x y = true -> is_nan x = false /\ is_nan y = false /\ B2R x = B2R y /\ is_finite x = is_finite y /\ (is_finite x = false -> x = y).
Proof.
  intros H. destruct (is_finite x) eqn:Fx, (is_finite y) eqn:Fy.
  - rewrite Beqb_correct in H by assumption. destruct (Req_bool_spec (B2R x) (B2R y)); [|discriminate].
    repeat split; auto; [destruct x|destruct y|]; try discriminate; reflexivity.
  - destruct x as [s|s| |s m e Hb], y as [s'|s'| |s' m' e' Hb']; try (destruct s); try (destruct s'); discriminate.
  - destruct x as [s|s| |s m e Hb], y as [s'|s'| |s' m' e' Hb']; try (destruct s); try (destruct s'); discriminate.
  - destruct x as [s|s| |s m e Hb], y as [s'|s'| |s' m' e' Hb']; try (destruct s); try (destruct s'); try discriminate; repeat split; auto.
Qed.
Lemma beqb_intro (x y : f64) : is_nan x = false -> is_nan y = false -> B2R x = B2R y -> is_finite x = is_finite y -> (is_finite x = false -> x = y) -> Beqb x y = true.
Proof.
  intros Nx Ny Hv Hf Hi. destruct (is_finite x) eqn:Fx.
  - rewrite Beqb_correct by congruence. now apply Req_bool_true.
  - rewrite <- (Hi eq_refl), beqb_refl, Nx. reflexivity.
Qed.
Lemma beqb_sym (x y : f64) : Beqb x y = Beqb y x.
Proof.
  destruct (Beqb x y) eqn:E, (Beqb y x) eqn:E2; auto.
  - apply beqb_real in E as (A & B & C & D & H). rewrite <- E2. symmetry. apply beqb_intro; auto. intros. symmetry. apply H. congruence.
  - apply beqb_real in E2 as (A & B & C & D & H). rewrite <- E. apply beqb_intro; auto. intros. symmetry. apply H. congruence.
Qed.
Lemma beqb_trans (x y z : f64) : Beqb x y = true -> Beqb y z = true -> Beqb x z = true.
Proof.
  intros E1 E2. apply beqb_real in E1 as (A & B & C & D & H). apply beqb_real in E2 as (A' & B' & C' & D' & H').
  apply beqb_intro; try congruence. intros Hx. rewrite (H Hx). apply H'. congruence.
Qed.
Lemma list_refl (l : list F) : list_eqb l l = true <-> Forall (fun x : f64 => is_nan x = false) l.
Proof.
  induction l as [|x l IH]; cbn [list_eqb]; [split; auto|]. rewrite andb_true_iff, IH. change (neqb (n := F) x x) with (Beqb (x : f64) x). rewrite beqb_refl, negb_true_iff.
  split; [intros [? ?]; constructor; auto|intros H; inversion H; auto].
Qed.
Lemma list_sym (l m : list F) : list_eqb l m = list_eqb m l.
Proof.
  revert m; induction l as [|x l IH]; intros [|y m]; cbn [list_eqb]; auto. rewrite IH. f_equal. apply beqb_sym.
Qed.
Lemma list_trans (l m k : list F) : list_eqb l m = true -> list_eqb m k = true -> list_eqb l k = true.
Proof.
  revert m k; induction l as [|x l IH]; intros [|y m] [|z k]; cbn [list_eqb]; auto; try discriminate.
  rewrite !andb_true_iff. intros [A B] [C D]. split; [exact (beqb_trans _ _ _ A C)|eauto].
Qed.
Lemma eq_refl_f (a : Arr F) : a_eqb a a = true <-> Forall (fun x : f64 => is_nan x = false) (adata a).
Proof. unfold a_eqb. rewrite !Nat.eqb_refl. cbn [andb]. apply list_refl. Qed.
Lemma eq_sym_f (a b : Arr F) : a_eqb a b = a_eqb b a.
Proof. unfold a_eqb. rewrite (Nat.eqb_sym (arows a)), (Nat.eqb_sym (acols a)), list_sym. reflexivity. Qed.
Lemma eq_trans_f (a b c : Arr F) : a_eqb a b = true -> a_eqb b c = true -> a_eqb a c = true.
Proof.
  unfold a_eqb. rewrite !andb_true_iff, !Nat.eqb_eq. intros [[A B] C] [[A' B'] C']. split; [split; congruence|exact (list_trans _ _ _ C C')].
Qed.
Lemma zero_eq : let a := a_from (N := F) [B754_zero false] in let b := a_from (N := F) [B754_zero true] in a_eqb a b = true /\ a <> b.
Proof. split; [reflexivity|discriminate]. Qed.

Lemma minus_opp (x y : f64) : fsub x y = fadd x (Bopp y).
Proof.
  destruct x as [s|s| |s m e Hb], y as [s'|s'| |s' m' e' Hb']; try (destruct s); try (destruct s'); reflexivity.
Qed.
Lemma plus_comm (x y : f64) : fadd x y = fadd y x.
Proof.
  destruct x as [s|s| |s m e Hb], y as [s'|s'| |s' m' e' Hb']; try (destruct s); try (destruct s'); try reflexivity;
    unfold fadd, Bplus; cbv zeta; rewrite (Z.min_comm e e'); unfold Fplus_naive; rewrite Z.add_comm; reflexivity.
Qed.
Lemma subs_neg (a : Arr F) (s : F) : a_subs a s = a_adds a (nopp s).
Proof. unfold a_subs, a_adds, a_mapd. f_equal. apply map_ext. intros v. apply minus_opp. Qed.
Lemma zip_comm (f : F -> F -> F) (l m : list F) : (forall x y, f x y = f y x) -> zipwith f l m = zipwith f m l.
Proof. intros H. revert m; induction l as [|x l IH]; intros [|y m]; cbn; auto. rewrite H, IH. reflexivity. Qed.
Lemma add_comm_f (a b : Arr F) : arows a = arows b -> acols a = acols b -> a_add a b = a_add b a.
Proof.
  intros Hr Hc. unfold a_add, a_zip. rewrite (Nat.eqb_sym (a_len a)), Hr, Hc, (zip_comm nadd) by apply plus_comm. reflexivity.
Qed.
Lemma neg_neg (a : Arr F) : a_neg (a_neg a) = a.
Proof.
  unfold a_neg, a_mapd. destruct a as [d r c]. cbn [adata arows acols]. f_equal. rewrite map_map. rewrite <- (map_id d) at 2. apply map_ext.
  intros v. exact (Bopp_involutive fprec femax v).
Qed.
End F.

Lemma list_real (l m : list RNum) : list_eqb l m = true <-> l = m.
Proof.
  revert m; induction l as [|x l IH]; intros [|y m]; cbn [list_eqb]; try (split; [discriminate|discriminate]); [tauto|].
  rewrite andb_true_iff, IH. cbn [neqb RNum]. destruct (Req_bool_spec x y); split; intros H0; try (destruct H0; congruence); inversion H0; subst; auto; congruence.
Qed.
Lemma eq_real (a b : Arr RNum) : a_eqb a b = true <-> a = b.
Proof.
  unfold a_eqb. rewrite !andb_true_iff, !Nat.eqb_eq, list_real. destruct a, b; cbn. split; [intros [[-> ->] ->]; reflexivity|intros H; inversion H; auto].
Qed.
Lemma eq_shape (N : Num) (x : N) : a_eqb (a_from [x]) (a_full 1 1 x) = false.
Proof. reflexivity. Qed.
Lemma full_get (N : Num) r c (v : N) i j : (i < r)%nat -> (j < c)%nat -> a_idx2 (a_full r c v) i j = Ok v /\ a_get (a_full r c v) i j = Ok v.
Proof.
  intros Hi Hj. assert (H : (i * c + j < r * c)%nat) by nia.
  unfold a_idx2, a_get, a_full, rd. cbn [adata acols]. rewrite (nth_error_repeat v H). auto.
Qed.
Lemma from_fn_idx (N : Num) n (f : nat -> N) i : a_idx (a_from_fn n f) i = if i <? n then Ok (f i) else Panic.
Proof.
  unfold a_idx, a_from_fn, rd. cbn [adata]. destruct (Nat.ltb_spec i n).
  - rewrite nth_error_map, nth_error_nth' with (d := O) by (rewrite seq_length; auto). rewrite seq_nth by auto. reflexivity.
  - rewrite (proj2 (nth_error_None _ _)); auto. rewrite map_length, seq_length. auto.
Qed.
Lemma scalar_idx (N : Num) (a : Arr N) (s : N) i :
  a_idx (a_adds a s) i = (x <- a_idx a i ;; Ok (nadd x s)) /\ a_idx (a_subs a s) i = (x <- a_idx a i ;; Ok (nsub x s)) /\
  a_idx (a_muls a s) i = (x <- a_idx a i ;; Ok (nmul x s)) /\
  arows (a_adds a s) = arows a /\ acols (a_adds a s) = acols a /\ arows (a_subs a s) = arows a /\ acols (a_subs a s) = acols a /\
  arows (a_muls a s) = arows a /\ acols (a_muls a s) = acols a.
Proof.
  unfold a_idx, a_adds, a_subs, a_muls, a_mapd, rd. cbn [adata arows acols]. rewrite !nth_error_map. destruct (nth_error (adata a) i); cbn; repeat split; reflexivity.
Qed.
