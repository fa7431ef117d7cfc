(** When the LDL' manager panics, in any number type (C127). *)
From Coq Require Import ZArith List Bool Arith Lia.
From Flocq Require Import IEEE754.BinarySingleNaN.
From Verif Require Import Num Res Arr ArrLemmas Ldlt LdltLemmas LdltSpec LdltProofs Replay.
Import ListNotations.

(** the manager [m'] and the verdict [b] of one of the two factorisations *)
Definition judged {N : Num} (get : nat -> nat -> res N) (m m' : LDLT N) (b : bool) : Prop :=
  ldlt_factor get m = Ok (m', b) \/ ldlt_factor_semi get m = Ok (m', b).
Section P.
Context {N : Num}.
Lemma factor_total n (m : LDLT N) get G : mgr n m -> reads n get G -> (exists m' b, ldlt_factor get m = Ok (m', b)) /\ (exists m' b, ldlt_factor_semi get m = Ok (m', b)).
Proof.
  intros Hm Hr. split.
  - destruct (ldlt_factor_ok n get G m (mgr_wf n m Hm) Hr) as (st & _ & [(E & _)|(p & _ & E & _)]); rewrite E; do 2 eexists; reflexivity.
  - destruct (ldlt_semi_ok n get G m (mgr_wf n m Hm) Hr) as (st & _ & [E|(s & p & _ & E & _)]); rewrite E; do 2 eexists; reflexivity.
Qed.
Lemma mgr_panics n (m : LDLT N) : mgr n m -> (ldlt_sqrt m = Panic <-> ldlt_is_spd m = false) /\ (ldlt_witness m = Panic <-> ldlt_is_spd m = true).
Proof.
  intros Hm. destruct (mgr_mgr_inv n m Hm) as [(Hn & Ls & Lw) HP]. unfold ldlt_is_spd at 1 2. split; split; intros H.
  - apply Nat.eqb_neq. intros Z. destruct (ldlt_sqrt_ok n m Hn Ls Z) as (r & E & _). rewrite E in H. discriminate.
  - unfold ldlt_sqrt, ldlt_is_spd. rewrite H. reflexivity.
  - apply Nat.eqb_eq. destruct HP as [HP|HP]; [|exact HP]. exfalso. destruct (l_pos m) as [s q] eqn:Ep. cbn [fst snd] in HP.
    destruct (ldlt_witness_ok n m s (q - 1) Hn Ls Lw) as (w & E & _); [rewrite Ep; f_equal; lia|lia|]. rewrite E in H. discriminate.
  - unfold ldlt_witness, ldlt_is_spd. rewrite H. reflexivity.
Qed.
Lemma judged_spd (m m' : LDLT N) get b : judged get m m' b -> ldlt_is_spd m' = b.
Proof.
  intros [H|H]; [unfold ldlt_factor in H|unfold ldlt_factor_semi in H]; apply bind_inv in H as (c & _ & H); injection H as <- <-; reflexivity.
Qed.
Lemma witness_keeps (m m' : LDLT N) e : ldlt_witness m = Ok (m', e) -> l_pos m' = l_pos m /\ l_storage m' = l_storage m /\ l_ndim m' = l_ndim m.
Proof.
  unfold ldlt_witness. intros H. destruct (l_pos m) as [s q] eqn:E. unfold assert in H. destruct (negb (ldlt_is_spd m)); [|discriminate].
  apply bind_inv in H as (w & _ & H). apply bind_inv in H as (w2 & _ & H). apply bind_inv in H as (d & _ & H). injection H as <- _. repeat split.
Qed.
Lemma panics_iff n (m : LDLT N) get m' b k m'' : mgr n m -> judged get m m' b -> do_ops (repeat OpWitness k) m' = Ok m'' ->
  (ldlt_sqrt m'' = Panic <-> b = false) /\ (ldlt_witness m'' = Panic <-> b = true) /\ ldlt_is_spd m'' = b.
Proof.
  intros Hm Hj. assert (Hm' : mgr n m') by (destruct Hj as [H|H]; [exact (mgr_factor n m _ _ _ Hm H)|exact (mgr_semi n m _ _ _ Hm H)]). apply judged_spd in Hj. clear Hm m. revert m' Hm' Hj.
  induction k as [|k IH]; cbn [repeat do_ops]; intros m' Hm Hj H.
  - injection H as <-. destruct (mgr_panics n m' Hm) as [A B]. rewrite Hj in A, B. split; [exact A|split; [exact B|exact Hj]].
  - apply bind_inv in H as (m1 & E & H). refine (IH m1 (mgr_step n m' _ m1 Hm E) _ H). cbn [do_op] in E. apply bind_inv in E as ([m2 e] & E & E2). injection E2 as <-. apply witness_keeps in E as (E & _). unfold ldlt_is_spd in *. rewrite E. exact Hj.
Qed.
Lemma fresh n : exists r, ldlt_sqrt (ldlt_new (N := N) n) = Ok r /\ ldlt_witness (ldlt_new (N := N) n) = Panic.
Proof. destruct (ldlt_sqrt_ok n (ldlt_new (N := N) n) eq_refl (repeat_length _ _) eq_refl) as (r & E & _). eexists. split; [exact E|reflexivity]. Qed.
End P.

(** in binary64: factorise, ask for the witness twice, factorise another matrix, ask for the
    root; a matrix of NaN is accepted *)
Definition ldlt_story (a b : Arr F) : bool :=
  match ldlt_factorize a (ldlt_new 2) with
  | Ok (m, false) => match ldlt_witness m with
    | Ok (m, _) => match ldlt_sqrt m, ldlt_witness m with
      | Panic, Ok (m, _) => match ldlt_factorize b m with
        | Ok (m, true) => match ldlt_sqrt m, ldlt_witness m with Ok _, Panic => true | _, _ => false end
        | _ => false end
      | _, _ => false end
    | _ => false end
  | _ => false end.
Definition four (a b c d : Z) : Arr F := mkArr (N := F) (map fofZ [a; b; c; d]) 2 2.
Lemma story_case : ldlt_story (four 1 2 2 1) (four 2 1 1 2) = true /\ ldlt_story (four 1 2 2 1) (mkArr (N := F) [B754_nan; B754_nan; B754_nan; B754_nan] 2 2) = true.
Proof. split; vm_compute; reflexivity. Qed.
