(** Panics and loops. *)
From Coq Require Import List Arith Lia.
Import ListNotations.

(** A Rust computation either returns or panics. *)
Inductive res (A : Type) := Ok (a : A) | Panic.
Arguments Ok {A}. Arguments Panic {A}.

Definition bind {A B} (m : res A) (k : A -> res B) : res B :=
  match m with Ok a => k a | Panic => Panic end.
Notation "x <- e ;; k" := (bind e (fun x => k)) (at level 61, e at next level, right associativity).
Notation "' p <- e ;; k" := (bind e (fun x => match x with p => k end))
  (at level 61, p pattern, e at next level, right associativity).
Definition assert {A} (b : bool) (k : res A) : res A := if b then k else Panic.

(** [for i in lo..hi { body }] *)
Fixpoint for_up {S} (k i : nat) (body : nat -> S -> res S) (s : S) : res S :=
  match k with
  | O => Ok s
  | S k' => s' <- body i s ;; for_up k' (Datatypes.S i) body s'
  end.
Definition for_range {S} (lo hi : nat) (body : nat -> S -> res S) (s : S) : res S :=
  for_up (hi - lo) lo body s.

(** [for i in (lo..hi).rev() { body }]: i = hi-1, ..., lo *)
Fixpoint for_down {S} (k lo : nat) (body : nat -> S -> res S) (s : S) : res S :=
  match k with
  | O => Ok s
  | S k' => s' <- body (lo + k') s ;; for_down k' lo body s'
  end.
Definition for_rev {S} (lo hi : nat) (body : nat -> S -> res S) (s : S) : res S :=
  for_down (hi - lo) lo body s.

(** Loops whose body may [return] from the function or [break]. *)
Inductive ctl (S R : Type) := Next (s : S) | Done (r : R).
Arguments Next {S R}. Arguments Done {S R}.

Fixpoint loop_up {S R} (k i : nat) (body : nat -> S -> res (ctl S R)) (s : S) : res (ctl S R) :=
  match k with
  | O => Ok (Next s)
  | S k' => c <- body i s ;;
            match c with
            | Next s' => loop_up k' (Datatypes.S i) body s'
            | Done r => Ok (Done r)
            end
  end.
Definition loop_range {S R} (lo hi : nat) (body : nat -> S -> res (ctl S R)) (s : S)
  : res (ctl S R) := loop_up (hi - lo) lo body s.

(** Checked vector access. *)
Definition rd {A} (l : list A) (i : nat) : res A :=
  match nth_error l i with Some a => Ok a | None => Panic end.
Fixpoint upd {A} (l : list A) (i : nat) (v : A) : list A :=
  match l, i with
  | [], _ => []
  | _ :: t, O => v :: t
  | a :: t, S i' => a :: upd t i' v
  end.
Definition wr {A} (l : list A) (i : nat) (v : A) : res (list A) :=
  if i <? length l then Ok (upd l i v) else Panic.

(** * Lemmas *)
Lemma bind_ok {A B} (m : res A) (k : A -> res B) a : m = Ok a -> bind m k = k a.
Proof. now intros ->. Qed.
Lemma bind_inv {A B} (m : res A) (k : A -> res B) b :
  bind m k = Ok b -> exists a, m = Ok a /\ k a = Ok b.
Proof. destruct m; simpl; [eauto|discriminate]. Qed.

Lemma rd_nth {A} (l : list A) i d : i < length l -> rd l i = Ok (nth i l d).
Proof. intros H. unfold rd. rewrite (nth_error_nth' l d H). reflexivity. Qed.
Lemma rd_panic {A} (l : list A) i : length l <= i -> rd l i = Panic.
Proof. intros H. unfold rd. apply nth_error_None in H. now rewrite H. Qed.
Lemma rd_ok_iff {A} (l : list A) i : (exists v, rd l i = Ok v) <-> i < length l.
Proof.
  split.
  - intros [v H]. destruct (Nat.lt_ge_cases i (length l)); auto. rewrite rd_panic in H; [discriminate|auto].
  - intros H. destruct l as [|a l]; [simpl in H; lia|]. exists (nth i (a :: l) a). now apply rd_nth.
Qed.
Lemma wr_ok {A} (l : list A) i v : i < length l -> wr l i v = Ok (upd l i v).
Proof. intros H. unfold wr. apply Nat.ltb_lt in H. now rewrite H. Qed.
Lemma wr_panic {A} (l : list A) i v : length l <= i -> wr l i v = Panic.
Proof. intros H. unfold wr. destruct (Nat.ltb_spec i (length l)); [lia|reflexivity]. Qed.
Lemma upd_length {A} (l : list A) i v : length (upd l i v) = length l.
Proof. revert i; induction l; destruct i; simpl; auto. Qed.
Lemma nth_upd_same {A} (l : list A) i v d : i < length l -> nth i (upd l i v) d = v.
Proof. revert i; induction l; destruct i; simpl; intros; try lia; auto. apply IHl. lia. Qed.
Lemma nth_upd_other {A} (l : list A) i j v d : i <> j -> nth j (upd l i v) d = nth j l d.
Proof. revert i j; induction l; destruct i, j; simpl; intros; auto; try lia. Qed.
Lemma nth_upd {A} (l : list A) i j v d : i < length l ->
  nth j (upd l i v) d = if Nat.eqb i j then v else nth j l d.
Proof.
  intros H. destruct (Nat.eqb_spec i j) as [->|E].
  - now apply nth_upd_same.
  - now apply nth_upd_other.
Qed.

(** Total-correctness rule for counting loops. *)
Lemma for_up_inv {S} (P : nat -> S -> Prop) k : forall lo body s,
  P lo s ->
  (forall i t, lo <= i < lo + k -> P i t -> exists t', body i t = Ok t' /\ P (Datatypes.S i) t') ->
  exists s', for_up k lo body s = Ok s' /\ P (lo + k) s'.
Proof.
  induction k; simpl; intros lo body s H0 Hs.
  - exists s. rewrite Nat.add_0_r. auto.
  - destruct (Hs lo s) as (t & E & Ht); [lia|auto|]. rewrite E. simpl.
    destruct (IHk (Datatypes.S lo) body t Ht) as (s' & E' & P').
    + intros i u Hi Pu. apply Hs; [lia|auto].
    + exists s'. split; auto. now rewrite Nat.add_succ_r.
Qed.
Lemma for_range_inv {S} (P : nat -> S -> Prop) lo hi body s :
  lo <= hi -> P lo s ->
  (forall i t, lo <= i < hi -> P i t -> exists t', body i t = Ok t' /\ P (Datatypes.S i) t') ->
  exists s', for_range lo hi body s = Ok s' /\ P hi s'.
Proof.
  intros Hle H0 Hs. unfold for_range.
  destruct (for_up_inv P (hi - lo) lo body s H0) as (s' & E & H).
  - intros i t Hi. apply Hs. lia.
  - exists s'. split; auto. now replace (lo + (hi - lo)) with hi in H by lia.
Qed.
(** Downward loops: [P i] holds when the indices >= i are done. *)
Lemma for_down_inv {S} (P : nat -> S -> Prop) lo k : forall body s,
  P (lo + k) s ->
  (forall i t, lo <= i < lo + k -> P (Datatypes.S i) t -> exists t', body i t = Ok t' /\ P i t') ->
  exists s', for_down k lo body s = Ok s' /\ P lo s'.
Proof.
  induction k; simpl; intros body s H0 Hs.
  - exists s. rewrite Nat.add_0_r in H0. auto.
  - destruct (Hs (lo + k) s) as (t & E & Ht); [lia| |].
    + now rewrite Nat.add_succ_r in H0.
    + rewrite E. simpl. apply IHk; auto. intros; apply Hs; auto; lia.
Qed.
Lemma for_rev_inv {S} (P : nat -> S -> Prop) lo hi body s :
  lo <= hi -> P hi s ->
  (forall i t, lo <= i < hi -> P (Datatypes.S i) t -> exists t', body i t = Ok t' /\ P i t') ->
  exists s', for_rev lo hi body s = Ok s' /\ P lo s'.
Proof.
  intros Hle H0 Hs. unfold for_rev. apply for_down_inv.
  - now replace (lo + (hi - lo)) with hi by lia.
  - intros i t Hi. apply Hs. lia.
Qed.
(** Partial-correctness rule. *)
Lemma for_up_inv_ok {S} (P : nat -> S -> Prop) k : forall lo body s s',
  for_up k lo body s = Ok s' ->
  P lo s ->
  (forall i t t', lo <= i < lo + k -> P i t -> body i t = Ok t' -> P (Datatypes.S i) t') ->
  P (lo + k) s'.
Proof.
  induction k; simpl; intros lo body s s' E H0 Hs.
  - inversion E; subst. now rewrite Nat.add_0_r.
  - apply bind_inv in E as (t & E1 & E2).
    rewrite Nat.add_succ_r. change (Datatypes.S (lo + k)) with (Datatypes.S lo + k).
    eapply IHk; eauto.
    + apply (Hs lo s t); auto. lia.
    + intros i u u' Hi. apply Hs. lia.
Qed.
Lemma for_range_inv_ok {S} (P : nat -> S -> Prop) lo hi body s s' :
  lo <= hi -> for_range lo hi body s = Ok s' -> P lo s ->
  (forall i t t', lo <= i < hi -> P i t -> body i t = Ok t' -> P (Datatypes.S i) t') ->
  P hi s'.
Proof.
  intros Hle E H0 Hs. replace hi with (lo + (hi - lo)) by lia.
  eapply for_up_inv_ok; eauto. intros i t t' Hi. apply Hs. lia.
Qed.

Lemma for_range_empty {S} lo hi (body : nat -> S -> res S) s : hi <= lo -> for_range lo hi body s = Ok s.
Proof. intros H. unfold for_range. now replace (hi - lo) with 0 by lia. Qed.
Lemma for_up_ext {S} k : forall lo (f g : nat -> S -> res S) s,
  (forall i t, lo <= i < lo + k -> f i t = g i t) -> for_up k lo f s = for_up k lo g s.
Proof.
  induction k; simpl; intros lo f g s H; auto.
  rewrite (H lo s) by lia. destruct (g lo s); simpl; auto. apply IHk. intros; apply H; lia.
Qed.
Lemma for_range_ext {S} lo hi (f g : nat -> S -> res S) s :
  (forall i t, lo <= i < hi -> f i t = g i t) -> for_range lo hi f s = for_range lo hi g s.
Proof. intros H. apply for_up_ext. intros; apply H; lia. Qed.

(** Total-correctness rule for loops with early exit: invariant [P], result
    condition [Q]. *)
Lemma loop_up_inv {S R} (P : nat -> S -> Prop) (Q : R -> Prop) k : forall lo body s,
  P lo s ->
  (forall i t, lo <= i < lo + k -> P i t ->
     (exists t', body i t = Ok (Next t') /\ P (Datatypes.S i) t') \/
     (exists r, body i t = Ok (Done r) /\ Q r)) ->
  (exists s', loop_up k lo body s = Ok (Next s') /\ P (lo + k) s') \/
  (exists r, loop_up k lo body s = Ok (Done r) /\ Q r).
Proof.
  induction k; simpl; intros lo body s H0 Hs.
  - left. exists s. rewrite Nat.add_0_r. auto.
  - destruct (Hs lo s) as [(t & E & Ht)|(r & E & Hr)]; [lia|auto| |]; rewrite E; simpl.
    + rewrite Nat.add_succ_r. apply (IHk (Datatypes.S lo)); auto. intros; apply Hs; auto; lia.
    + right; eauto.
Qed.
Lemma loop_range_inv {S R} (P : nat -> S -> Prop) (Q : R -> Prop) lo hi body s :
  lo <= hi -> P lo s ->
  (forall i t, lo <= i < hi -> P i t ->
     (exists t', body i t = Ok (Next t') /\ P (Datatypes.S i) t') \/
     (exists r, body i t = Ok (Done r) /\ Q r)) ->
  (exists s', loop_range lo hi body s = Ok (Next s') /\ P hi s') \/
  (exists r, loop_range lo hi body s = Ok (Done r) /\ Q r).
Proof.
  intros Hle H0 Hs. unfold loop_range.
  destruct (loop_up_inv P Q (hi - lo) lo body s H0) as [(s' & E & H)|H]; auto.
  - intros i t Hi. apply Hs. lia.
  - left. exists s'. now replace (lo + (hi - lo)) with hi in H by lia.
Qed.

(** * Loops as sequences of states *)
Definition scons {X} (x : X) (f : nat -> X) (i : nat) : X :=
  match i with O => x | S j => f j end.

Section LoopSeq.
Context {S R : Type}.
Variable body : nat -> S -> res (ctl S R).
(** [k] iterations from number [lo] that all continue *)
Definition nexts (lo k : nat) (f : nat -> S) : Prop :=
  forall i, i < k -> body (lo + i) (f i) = Ok (Next (f (Datatypes.S i))).

Lemma nexts_cons lo k s f : body lo s = Ok (Next (f 0)) -> nexts (Datatypes.S lo) k f ->
  nexts lo (Datatypes.S k) (scons s f).
Proof.
  intros H0 H i Hi. destruct i as [|i]; simpl.
  - now rewrite Nat.add_0_r.
  - rewrite Nat.add_succ_r. apply H. lia.
Qed.
Lemma nexts_tail lo k f : nexts lo (Datatypes.S k) f ->
  nexts (Datatypes.S lo) k (fun i => f (Datatypes.S i)).
Proof. intros H i Hi. specialize (H (Datatypes.S i)). rewrite Nat.add_succ_r in H. apply H. lia. Qed.

Lemma loop_next_iff m : forall lo s s',
  loop_up m lo body s = Ok (Next s') <-> exists f, f 0 = s /\ nexts lo m f /\ f m = s'.
Proof.
  induction m; intros lo s s'; simpl.
  - split.
    + intros E; inversion E; subst. exists (fun _ => s'). repeat split. intros i Hi; lia.
    + intros (f & <- & _ & <-). reflexivity.
  - split.
    + destruct (body lo s) as [[t|r]|] eqn:E; simpl; try discriminate.
      intros H. apply IHm in H as (f & H0 & Hn & Hm).
      exists (scons s f). repeat split; auto. apply nexts_cons; auto. congruence.
    + intros (f & <- & Hn & <-).
      generalize (Hn 0 ltac:(lia)). rewrite Nat.add_0_r. intros ->. simpl.
      apply IHm. exists (fun i => f (Datatypes.S i)). repeat split; auto. now apply nexts_tail.
Qed.
Lemma loop_done_iff m : forall lo s r,
  loop_up m lo body s = Ok (Done r) <->
  exists k f, k < m /\ f 0 = s /\ nexts lo k f /\ body (lo + k) (f k) = Ok (Done r).
Proof.
  induction m; intros lo s r; simpl.
  - split; [discriminate|]. intros (k & f & H & _); lia.
  - split.
    + destruct (body lo s) as [[t|r']|] eqn:E; simpl; try discriminate.
      * intros H. apply IHm in H as (k & f & Hk & H0 & Hn & Hd).
        exists (Datatypes.S k), (scons s f). repeat split; auto; try lia.
        -- apply nexts_cons; auto. congruence.
        -- now rewrite Nat.add_succ_r.
      * intros H; inversion H; subst. exists 0, (fun _ => s). rewrite Nat.add_0_r.
        repeat split; auto; try lia. intros i Hi; lia.
    + intros (k & f & Hk & <- & Hn & Hd). destruct k as [|k].
      * rewrite Nat.add_0_r in Hd. rewrite Hd. reflexivity.
      * generalize (Hn 0 ltac:(lia)). rewrite Nat.add_0_r. intros ->. simpl.
        apply IHm. exists k, (fun i => f (Datatypes.S i)). repeat split; auto; try lia.
        -- now apply nexts_tail.
        -- now rewrite Nat.add_succ_r in Hd.
Qed.
Lemma loop_panic_iff m : forall lo s,
  loop_up m lo body s = Panic <->
  exists k f, k < m /\ f 0 = s /\ nexts lo k f /\ body (lo + k) (f k) = Panic.
Proof.
  induction m; intros lo s; simpl.
  - split; [discriminate|]. intros (k & f & H & _); lia.
  - split.
    + destruct (body lo s) as [[t|r']|] eqn:E; simpl; try discriminate.
      * intros H. apply IHm in H as (k & f & Hk & H0 & Hn & Hd).
        exists (Datatypes.S k), (scons s f). repeat split; auto; try lia.
        -- apply nexts_cons; auto. congruence.
        -- now rewrite Nat.add_succ_r.
      * intros _. exists 0, (fun _ => s). rewrite Nat.add_0_r.
        repeat split; auto; try lia. intros i Hi; lia.
    + intros (k & f & Hk & <- & Hn & Hd). destruct k as [|k].
      * rewrite Nat.add_0_r in Hd. rewrite Hd. reflexivity.
      * generalize (Hn 0 ltac:(lia)). rewrite Nat.add_0_r. intros ->. simpl.
        apply IHm. exists k, (fun i => f (Datatypes.S i)). repeat split; auto; try lia.
        -- now apply nexts_tail.
        -- now rewrite Nat.add_succ_r in Hd.
Qed.
End LoopSeq.
