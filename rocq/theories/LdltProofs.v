(** Proofs about the LDL' manager. *)
From Coq Require Import Reals List Bool Arith Lia Lra Psatz.
From Verif Require Import Num Res Arr ArrLemmas Spec RealLin EllSpec StableSpec StableReal Ldlt LdltLemmas LdltSpec LdltReal.
Import ListNotations.
Open Scope R_scope.

(** * Any number type: reachable managers *)
Section Reach.
Open Scope nat_scope.
Context {N : Num}.

Lemma loop_up_ok_inv {S R} (P : S -> Prop) (Q : R -> Prop) k : forall lo (body : nat -> S -> res (ctl S R)) s c,
  loop_up k lo body s = Ok c -> P s ->
  (forall i t c, lo <= i < lo + k -> P t -> body i t = Ok c -> match c with Next t' => P t' | Done r => Q r end) ->
  match c with Next t' => P t' | Done r => Q r end.
Proof.
  induction k; simpl; intros lo body s c H HP Hb.
  - injection H as <-. auto.
  - apply bind_inv in H as (a & E & H). pose proof (Hb lo s a ltac:(lia) HP E) as Ha. destruct a as [s'|r].
    + apply (IHk (Datatypes.S lo) body s'); auto. intros; apply (Hb i t); auto; lia.
    + injection H as <-. auto.
Qed.
Lemma for_up_ok_keep {S} (P : S -> Prop) k lo (body : nat -> S -> res S) s s' :
  for_up k lo body s = Ok s' -> P s -> (forall i t t', P t -> body i t = Ok t' -> P t') -> P s'.
Proof. intros H HP Hb. apply (for_up_inv_ok (fun _ => P) k lo body s s'); auto. intros; eapply Hb; eauto. Qed.
Lemma for_down_ok_keep {S} (P : S -> Prop) k : forall lo (body : nat -> S -> res S) s s',
  for_down k lo body s = Ok s' -> P s -> (forall i t t', P t -> body i t = Ok t' -> P t') -> P s'.
Proof.
  induction k; simpl; intros lo body s s' H HP Hb; [now injection H as <-|].
  apply bind_inv in H as (a & E & H). eapply IHk; eauto.
Qed.
Lemma wr_len {A} (l : list A) i v l' : wr l i v = Ok l' -> length l' = length l.
Proof. unfold wr. destruct (_ <? _); intros H; inversion H; subst. apply upd_length. Qed.

Lemma ldlt_row_len n s i get (st st' : list N) d : ldlt_row n s i get st = Ok (st', d) -> length st' = length st.
Proof.
  unfold ldlt_row. intros H. apply bind_inv in H as (d0 & _ & H). apply bind_inv in H as ([t d1] & E & H).
  apply bind_inv in H as (t' & E' & H). injection H as <- <-. apply wr_len in E'. rewrite E'.
  change (length (fst (t, d1)) = length st). eapply (for_up_ok_keep (fun x => length (fst x) = length st)); [exact E|auto|].
  intros j [u e] [u' e'] Hu Hb. cbn [fst] in *. apply bind_inv in Hb as (a1 & Ea & Hb). apply bind_inv in Hb as (a2 & _ & Hb).
  apply bind_inv in Hb as (a3 & Eb & Hb). apply bind_inv in Hb as (a4 & _ & Hb). apply bind_inv in Hb as (a5 & _ & Hb).
  injection Hb as <- <-. apply wr_len in Ea. apply wr_len in Eb. congruence.
Qed.

(** What every reachable manager satisfies. *)
Definition mgr_inv (n : nat) (m : LDLT N) : Prop :=
  ldlt_wf n m /\ ((fst (l_pos m) < snd (l_pos m) <= n) \/ snd (l_pos m) = 0).

Lemma do_op_inv n o (m m' : LDLT N) : mgr_inv n m -> do_op o m = Ok m' -> mgr_inv n m'.
Proof.
  intros [(Hn & Ls & Lw) Hp] H. destruct o; cbn [do_op] in H; apply bind_inv in H as ([m1 b] & E & H); injection H as <-.
  - unfold ldlt_factor in E. apply bind_inv in E as (c & E & H). rewrite Hn in *.
    assert (K : match c with Next st => length st = n * n | Done (st, pos) => length st = n * n /\ fst pos < snd pos <= n end).
    { pose proof (loop_up_ok_inv (fun st => length st = n * n) (fun '(st, pos) => length st = n * n /\ fst pos < snd pos <= n) _ _ _ _ _ E Ls) as K.
      destruct c as [st|[st pos]]; apply K; intros i t c' Hi Ht Hc; apply bind_inv in Hc as ([t' d] & Er & Hc); apply ldlt_row_len in Er;
        destruct (d <=?! n0); injection Hc as <-; simpl; try split; try congruence; lia. }
    clear E. destruct c as [st|[st pos]]; injection H as <- _.
    + repeat split; auto.
    + destruct K as [K1 K2]. repeat split; auto.
  - unfold ldlt_factor_semi in E. apply bind_inv in E as (c & E & H). rewrite Hn in *.
    assert (K : match c with Next (st, _) => length st = n * n | Done (st, pos) => length st = n * n /\ fst pos < snd pos <= n end).
    { assert (KK : match c with Next (st, s) => length st = n * n /\ s <= n | Done (st, pos) => length st = n * n /\ fst pos < snd pos <= n end).
      { assert (G : forall k lo (s0 : list N * nat) (c : ctl (list N * nat) (list N * (nat * nat))), lo + k <= n ->
          loop_up k lo (fun i '(st, start) => '(st0, diag) <- ldlt_row n start i get st;;
            (if diag <?! n0 then Ok (Done (st0, (start, i + 1))) else if diag =?! n0 then Ok (Next (st0, i + 1)) else Ok (Next (st0, start)))) s0 = Ok c ->
          length (fst s0) = n * n -> snd s0 <= lo ->
          match c with Next (st, s) => length st = n * n /\ s <= n | Done (st, pos) => length st = n * n /\ fst pos < snd pos <= n end).
        { clear. induction k; simpl; intros lo [st s] c Hk H L Hs; cbn [fst snd] in *.
          - injection H as <-. split; [auto|lia].
          - apply bind_inv in H as (c1 & E & H). apply bind_inv in E as ([st' d] & Er & E). apply ldlt_row_len in Er.
            destruct (d <?! n0); [|destruct (d =?! n0)]; injection E as <-; simpl in H.
            + injection H as <-. simpl. split; [congruence|lia].
            + apply (IHk (S lo) (st', lo + 1)); simpl; auto; try lia; congruence.
            + apply (IHk (S lo) (st', s)); simpl; auto; try lia; congruence. }
        apply (G (n - 0) 0 (l_storage m, 0)); auto. lia. }
      destruct c as [[st s]|[st pos]]; tauto. }
    clear E. destruct c as [[st s]|[st pos]]; injection H as <- _.
    + repeat split; auto.
    + destruct K as [K1 K2]. repeat split; auto.
  - unfold ldlt_witness in E. destruct (l_pos m) as [s p] eqn:Epos. unfold assert in E. destruct (negb (ldlt_is_spd m)); [|discriminate].
    apply bind_inv in E as (w1 & E1 & E). apply bind_inv in E as (w2 & E2 & E). apply bind_inv in E as (d & _ & E).
    injection E as <- _. split; [split; [|split]|]; auto.
    cbn [l_wit]. assert (A : forall (w : Arr N) i v w', a_setidx w i v = Ok w' -> length (adata w') = length (adata w)).
    { intros w i v w' Hw. unfold a_setidx in Hw. apply bind_inv in Hw as (l & El & Hw). injection Hw as <-. apply wr_len in El. auto. }
    apply A in E1. rewrite Lw in E1.
    apply (for_down_ok_keep (fun w => length (adata w) = n) _ _ _ _ _ E2 E1). intros i t t' Ht Hb.
    apply bind_inv in Hb as (sv & _ & Hb). apply A in Hb. congruence.
Qed.
Lemma do_ops_inv n l : forall (m m' : LDLT N), mgr_inv n m -> do_ops l m = Ok m' -> mgr_inv n m'.
Proof.
  induction l; cbn [do_ops]; intros m m' Hm H; [now injection H as <-|].
  apply bind_inv in H as (m1 & E & H). apply (IHl m1 m'); auto. apply (do_op_inv n a m m1); auto.
Qed.
Lemma mgr_mgr_inv n (m : LDLT N) : mgr n m -> mgr_inv n m.
Proof. intros (l & H). eapply do_ops_inv; [|exact H]. split; [apply ldlt_new_wf|]. right. reflexivity. Qed.
Lemma do_ops_app l1 : forall l2 (m : LDLT N), do_ops (l1 ++ l2) m = (m' <- do_ops l1 m ;; do_ops l2 m').
Proof. induction l1; simpl; intros; auto. destruct (do_op a m); simpl; auto. Qed.
Lemma mgr_step n (m : LDLT N) o m' : mgr n m -> do_op o m = Ok m' -> mgr n m'.
Proof. intros (l & H) E. exists (l ++ [o]). rewrite do_ops_app, H. simpl. now rewrite E. Qed.
Lemma mgr_factor n (m : LDLT N) g m' b : mgr n m -> ldlt_factor g m = Ok (m', b) -> mgr n m'.
Proof. intros H E. apply (mgr_step n m (OpFactor g)); auto. simpl. now rewrite E. Qed.
Lemma mgr_semi n (m : LDLT N) g m' b : mgr n m -> ldlt_factor_semi g m = Ok (m', b) -> mgr n m'.
Proof. intros H E. apply (mgr_step n m (OpSemi g)); auto. simpl. now rewrite E. Qed.
Lemma mgr_witness n (m : LDLT N) m' e : mgr n m -> ldlt_witness m = Ok (m', e) -> mgr n m'.
Proof. intros H E. apply (mgr_step n m OpWitness); auto. simpl. now rewrite E. Qed.
Lemma mgr_wf n (m : LDLT N) : mgr n m -> ldlt_wf n m.
Proof. intros H. apply (mgr_mgr_inv n m H). Qed.

Lemma square_reads n (a : Arr N) : square n a -> reads n (a_get a) (fun i j => nth (i * n + j) (adata a) n0).
Proof.
  intros (L & R & C) i j Hj Hi. unfold a_get. rewrite C. apply rd_nth. rewrite L. apply flat_lt; lia.
Qed.
End Reach.

(** * The reals *)
From Verif Require Import EllReal.
Lemma Req_bool_iff x y : Raux.Req_bool x y = true <-> x = y.
Proof. destruct (Raux.Req_bool_spec x y); split; auto; discriminate. Qed.
Lemma Req_bool_no x y : Raux.Req_bool x y = false <-> x <> y.
Proof. destruct (Raux.Req_bool_spec x y); split; auto; try discriminate; contradiction. Qed.

(** The storage's witness solves L'w = e_p, so the form takes the value of the pivot. *)
Lemma wit_upper n s p (st : list (num RNum)) (w : vec) : (s <= p)%nat -> w p = 1 ->
  (forall i, (s <= i < p)%nat -> w i = - Rsum (p - i) (fun k => mget (N := RNum) n st (S i + k) i * w (S i + k)%nat)) ->
  forall i, (i < S p - s)%nat -> upper_mv (S p - s) (transp (shift s (mget (N := RNum) n st))) (fun k => w (s + k)%nat) i = if (i =? p - s)%nat then 1 else 0.
Proof.
  intros Hsp Hp Hw i Hi. unfold upper_mv, transp, shift.
  destruct (Nat.eqb_spec i (p - s)) as [->|Hne].
  - rewrite Rsum_zero. { replace (s + (p - s))%nat with p by lia. rewrite Hp. ring. }
    intros j Hj. rewrite (proj2 (Nat.ltb_ge (p - s) j)) by lia. auto.
  - rewrite <- (Rsum_gt_split (S p - s) i (fun j => mget (N := RNum) n st (s + j) (s + i) * w (s + j)%nat)) by lia.
    rewrite (Hw (s + i)%nat) by lia. replace (S p - s - S i)%nat with (p - (s + i))%nat by lia.
    match goal with |- - ?a + ?b = 0 => assert (E : a = b); [|rewrite E; ring] end.
    apply Rsum_ext. intros k Hk. replace (s + (S i + k))%nat with (S (s + i) + k)%nat by lia. reflexivity.
Qed.

Lemma wit_quad n s p (G : nat -> nat -> num RNum) (st : list (num RNum)) (w : vec) : (s <= p < n)%nat -> sym n G ->
  (forall i, (s <= i <= p)%nat -> row_ok n s G st i) -> (forall i, (s <= i < p)%nat -> mget n st i i <> 0) ->
  w p = 1 -> (forall i, (s <= i < p)%nat -> w i = - Rsum (p - i) (fun k => mget (N := RNum) n st (S i + k) i * w (S i + k)%nat)) ->
  (forall i, (i < n)%nat -> (i < s \/ p < i)%nat -> w i = 0) -> quad n G w = mget (N := RNum) n st p p.
Proof.
  intros Hsp Hs HR HD Hp Hw H0. rewrite (quad_block n G w s (S p - s)); [|lia|intros i Hi Ho; apply H0; lia].
  rewrite (ldl_quad (S p - s) _ (shift s (mget (N := RNum) n st)) (fun i => mget (N := RNum) n st (s + i) (s + i))).
  - rewrite (Rsum_one _ (p - s)%nat).
    + rewrite (wit_upper n s p) by (auto; lia). rewrite Nat.eqb_refl. replace (s + (p - s))%nat with p by lia.
      assert (K : forall a : R, a * (1 * 1) = a) by (intros; ring). apply K.
    + lia.
    + intros i Hi Hne. rewrite (wit_upper n s p) by (auto; lia). rewrite (proj2 (Nat.eqb_neq i (p - s))) by auto.
      assert (K : forall a : R, a * (0 * 0) = 0) by (intros; ring). apply K.
  - intros i j Hi Hj. unfold shift. apply Hs; lia.
  - apply rows_ldl; auto. lia.
Qed.

(** Every block factorisation that stopped at a pivot has a witness vector. *)
Lemma wit_exists n s p (st : list (num RNum)) : (s <= p)%nat ->
  exists w : vec, w p = 1 /\ (forall i, (s <= i < p)%nat -> w i = - Rsum (p - i) (fun k => mget (N := RNum) n st (S i + k) i * w (S i + k)%nat)) /\
  (forall i, (i < s \/ p < i)%nat -> w i = 0).
Proof.
  intros Hsp.
  assert (K : forall q, (q <= p - s)%nat -> exists w : vec, w p = 1 /\
     (forall i, (p - q <= i < p)%nat -> w i = - Rsum (p - i) (fun k => mget (N := RNum) n st (S i + k) i * w (S i + k)%nat)) /\
     (forall i, (i < p - q \/ p < i)%nat -> w i = 0)).
  { induction q; intros Hq.
    - exists (fun i => if (i =? p)%nat then 1 else 0). rewrite Nat.eqb_refl. split; auto. split; [intros; lia|].
      intros i Hi. rewrite (proj2 (Nat.eqb_neq i p)) by lia. auto.
    - destruct (IHq ltac:(lia)) as (w & W1 & W2 & W3).
      set (z := (p - S q)%nat).
      exists (fun i => if (i =? z)%nat then - Rsum (p - z) (fun k => mget (N := RNum) n st (S z + k) z * w (S z + k)%nat) else w i).
      split. { rewrite (proj2 (Nat.eqb_neq p z)) by (unfold z; lia). auto. } split.
      + intros i Hi. assert (E : forall k, (S i + k =? z)%nat = false) by (intros; apply Nat.eqb_neq; unfold z in *; lia).
        destruct (Nat.eqb_spec i z) as [->|].
        * f_equal. apply Rsum_ext. intros k Hk. rewrite E. auto.
        * rewrite W2 by (unfold z in *; lia). f_equal. apply Rsum_ext. intros k Hk. rewrite E. auto.
      + intros i Hi. rewrite (proj2 (Nat.eqb_neq i z)) by (unfold z in *; lia). apply W3. unfold z in *. lia. }
  destruct (K (p - s)%nat ltac:(lia)) as (w & W1 & W2 & W3). exists w. split; auto. split.
  - intros i Hi. apply W2. lia.
  - intros i Hi. apply W3. lia.
Qed.

Lemma reads_lower {N : Num} n (get : nat -> nat -> res N) A : reads n get A -> lower_ok n get A.
Proof. auto. Qed.

(** ** factor *)
Lemma factor_decides n m get (A : mtx) : mgr n m -> reads (N := RNum) n get A -> sym n A ->
  exists m' b, ldlt_factor (N := RNum) get m = Ok (m', b) /\ (b = true <-> pd n A).
Proof.
  intros Hm Hr Hs. destruct (ldlt_factor_ok n get A m (mgr_wf n m Hm) Hr) as (st & Ls & [(E & H)|(p & Hp & E & H1 & H2 & H3)]).
  - do 2 eexists. split; [exact E|]. split; auto. intros _. destruct n as [|n'].
    { intros x (i & Hi & _). lia. }
    assert (HL : ldl_of (S n') A (mget (N := RNum) (S n') st) (fun i => mget (N := RNum) (S n') st i i)).
    { apply (rows_ldl (S n') 0 n' A st); [lia| |]; intros i Hi; destruct (H i ltac:(lia)) as [R P]; auto.
      apply Rle_bool_no in P. cbn in P. apply Rgt_not_eq. exact P. }
    apply (ldl_pd _ A _ _ Hs HL). intros k Hk. destruct (H k Hk) as [_ P]. apply Rle_bool_no in P. exact P.
  - do 2 eexists. split; [exact E|]. split; [discriminate|]. intros HP. exfalso.
    destruct (wit_exists n 0 p st ltac:(lia)) as (w & W1 & W2 & W3).
    assert (Q : quad n A w = mget (N := RNum) n st p p).
    { apply (wit_quad n 0 p); auto; try lia.
      - intros i Hi. apply H1. lia.
      - intros i Hi. specialize (H2 i ltac:(lia)). apply Rle_bool_no in H2. apply Rgt_not_eq. exact H2. }
    apply Rle_bool_iff in H3. specialize (HP w ltac:(exists p; split; [auto|lra])). rewrite Q in HP.
    change (mget (N := RNum) n st p p <= 0) in H3. apply (Rlt_irrefl 0). eapply Rlt_le_trans; [exact HP|exact H3].
Qed.

(** ** the witness *)
Lemma nested_sum s k : forall (f : nat -> nat -> R) (z : R) (lo : nat), True -> forall body,
  (forall i (r : R), (lo <= i < lo + k)%nat -> body i r = Ok (r + f i s)) ->
  for_up k lo body z = Ok (z + Rsum k (fun i => f (lo + i)%nat s)).
Proof.
  induction k; intros f z lo _ body H.
  - cbn. f_equal. ring.
  - cbn [for_up]. rewrite H by lia. cbn [bind]. rewrite (IHk f _ (S lo) I body) by (intros; apply H; lia).
    f_equal. change (Rsum (S k) (fun i => f (lo + i)%nat s)) with (Rsum (S k) (fun i => f (lo + i)%nat s)).
    assert (E : forall q, Rsum (S q) (fun i => f (lo + i)%nat s) = f lo s + Rsum q (fun i => f (S lo + i)%nat s)).
    { induction q; cbn [Rsum]; [rewrite Nat.add_0_r; ring|]. cbn [Rsum] in IHq. rewrite IHq.
      replace (lo + S q)%nat with (S lo + q)%nat by lia. ring. }
    rewrite E. ring.
Qed.

Lemma sym_quad_ok n (l : LDLT RNum) F : square n F -> length (adata (l_wit l)) = n -> (snd (l_pos l) <= n)%nat ->
  (fst (l_pos l) <= snd (l_pos l))%nat ->
  ldlt_sym_quad (N := RNum) l F = Ok (quad n (entries n F) (wit_vec l)).
Proof.
  intros (LF & RF & CF) Lw Hp Hfs. unfold ldlt_sym_quad. destruct (l_pos l) as [s e] eqn:Epos. cbn [fst snd] in *.
  assert (W : forall i, (s <= i < e)%nat -> wit_vec l i = nth i (adata (l_wit l)) 0).
  { intros i Hi. unfold wit_vec. rewrite Epos. cbn [fst snd]. rewrite (proj2 (Nat.leb_le s i)), (proj2 (Nat.ltb_lt i e)) by lia. auto. }
  assert (W0 : forall i, (i < s \/ e <= i)%nat -> wit_vec l i = 0).
  { intros i Hi. unfold wit_vec. rewrite Epos. cbn [fst snd]. destruct (Nat.leb_spec s i), (Nat.ltb_spec i e); auto; lia. }
  rewrite (quad_block n _ _ s (e - s)); [|lia|intros; apply W0; lia].
  unfold for_range. rewrite (nested_sum 0 (e - s) (fun i _ => wit_vec l i * Rsum (e - s) (fun j => entries n F i (s + j)%nat * wit_vec l (s + j)%nat)) _ s I).
  - f_equal. cbn. rewrite Rplus_0_l. reflexivity.
  - intros i r Hi. rewrite (nested_sum i (e - s) (fun j i => wit_vec l i * entries n F i j * wit_vec l j) r s I).
    + f_equal. f_equal. rewrite <- Rsum_scal. apply Rsum_ext. intros j Hj. ring.
    + intros j r' Hj. unfold a_idx, a_get. rewrite CF.
      rewrite (rd_nth _ i (n0 (N := RNum))) by (rewrite Lw; lia). cbn [bind].
      rewrite (rd_nth _ _ (n0 (N := RNum))) by (rewrite LF; apply flat_lt; lia). cbn [bind].
      rewrite (rd_nth _ j (n0 (N := RNum))) by (rewrite Lw; lia). cbn [bind]. rewrite !W by lia. reflexivity.
Qed.

Lemma witness_gen n (m m' : LDLT RNum) (A : mtx) st s p : ldlt_wf n m -> length st = (n * n)%nat -> (s <= p < n)%nat -> sym n A ->
  m' = mkLDLT (N := RNum) (s, p + 1)%nat (l_wit m) n st ->
  (forall i, (s <= i <= p)%nat -> row_ok (N := RNum) n s A st i) -> (forall i, (s <= i < p)%nat -> mget (N := RNum) n st i i <> 0) ->
  exists m'' ep, ldlt_witness (N := RNum) m' = Ok (m'', ep) /\ @eq R ep (- mget (N := RNum) n st p p) /\ l_pos m'' = (s, p + 1)%nat /\
    quad n A (wit_vec m'') = - ep /\ wit_vec m'' p = 1 /\
    forall F, square n F -> ldlt_sym_quad (N := RNum) m'' F = Ok (quad n (entries n F) (wit_vec m'')).
Proof.
  intros (Hn & Ls & Lw) Lst Hsp Hs -> HR HD.
  destruct (ldlt_witness_ok n (mkLDLT (N := RNum) (s, p + 1)%nat (l_wit m) n st) s p) as (w & E & Lw' & W1 & W2 & W3); auto.
  cbn [l_pos l_storage] in *.
  set (m'' := mkLDLT (N := RNum) (s, (p + 1)%nat) w n st) in *.
  assert (V : forall i, (s <= i <= p)%nat -> wit_vec m'' i = vget w i).
  { intros i Hi. unfold wit_vec, m''. cbn [l_pos fst snd l_wit]. rewrite (proj2 (Nat.leb_le s i)), (proj2 (Nat.ltb_lt i (p + 1))) by lia. auto. }
  exists m'', (- mget (N := RNum) n st p p). split; [exact E|]. split; auto. split; auto.
  assert (Vp : wit_vec m'' p = 1) by (rewrite V by lia; exact W1).
  split; [|split; auto].
  - rewrite Ropp_involutive. apply (wit_quad n s p); auto.
    + intros i Hi. rewrite V by lia. rewrite W2 by lia. rewrite accum_from. rewrite Rplus_0_l.
      change (- Rsum (p - i) (fun k => mget (N := RNum) n st (S i + k) i * vget w (S i + k)) =
        - Rsum (p - i) (fun k => mget (N := RNum) n st (S i + k) i * wit_vec m'' (S i + k)%nat)).
      f_equal. apply Rsum_ext. intros k Hk. now rewrite V by lia.
    + intros i Hi Ho. unfold wit_vec, m''. cbn [l_pos fst snd]. destruct (Nat.leb_spec s i), (Nat.ltb_spec i (p + 1)); auto; lia.
  - intros F HF. apply (sym_quad_ok n m'' F HF); auto; unfold m''; cbn [l_pos fst snd]; lia.
Qed.

Lemma factor_witness n m get (A : mtx) m' : mgr n m -> reads (N := RNum) n get A -> sym n A ->
  ldlt_factor (N := RNum) get m = Ok (m', false) ->
  exists p m'' ep, (p < n)%nat /\ l_pos m' = (0, p + 1)%nat /\ ldlt_witness (N := RNum) m' = Ok (m'', ep) /\ 0 <= ep /\ l_pos m'' = l_pos m' /\
    quad n A (wit_vec m'') = - ep /\ wit_vec m'' p = 1 /\
    forall F, square n F -> ldlt_sym_quad (N := RNum) m'' F = Ok (quad n (entries n F) (wit_vec m'')).
Proof.
  intros Hm Hr Hs Hf. destruct (ldlt_factor_ok n get A m (mgr_wf n m Hm) Hr) as (st & Ls & [(E & H)|(p & Hp & E & H1 & H2 & H3)]).
  { rewrite E in Hf. discriminate. }
  rewrite E in Hf. injection Hf as <-.
  destruct (witness_gen n m _ A st 0 p (mgr_wf n m Hm) Ls ltac:(lia) Hs eq_refl) as (m'' & ep & E1 & E2 & E3 & E4 & E5 & E6).
  - intros i Hi. apply H1. lia.
  - intros i Hi. specialize (H2 i ltac:(lia)). apply Rle_bool_no in H2. apply Rgt_not_eq. exact H2.
  - exists p, m'', ep. repeat (split; auto). apply Rle_bool_iff in H3. change (mget (N := RNum) n st p p <= 0) in H3.
    assert (K : forall a b : R, b <= 0 -> a = - b -> 0 <= a) by (intros; lra). apply (K ep _ H3 E2).
Qed.

Lemma witness_panics_iff n m get (A : mtx) m' b : mgr n m -> reads (N := RNum) n get A ->
  ldlt_factor (N := RNum) get m = Ok (m', b) -> (ldlt_witness (N := RNum) m' = Panic <-> b = true).
Proof.
  intros Hm Hr Hf. destruct (ldlt_factor_ok n get A m (mgr_wf n m Hm) Hr) as (st & Ls & [(E & H)|(p & Hp & E & H1 & H2 & H3)]);
    rewrite E in Hf; injection Hf as <- <-.
  - split; [auto|]. intros _. apply ldlt_witness_panics. reflexivity.
  - split; [|discriminate]. intros HP. exfalso.
    destruct (ldlt_witness_ok n (mkLDLT (N := RNum) (0, p + 1)%nat (l_wit m) n st) 0 p) as (w & E1 & _); auto; [apply (mgr_wf n m Hm)|lia|].
    rewrite E1 in HP. discriminate.
Qed.

(** ** sqrt *)
Lemma factor_sqrt n m get (A : mtx) m' : mgr n m -> reads (N := RNum) n get A -> sym n A ->
  ldlt_factor (N := RNum) get m = Ok (m', true) ->
  exists r, ldlt_sqrt (N := RNum) m' = Ok r /\ square n r /\
    (forall i j, (j < i)%nat -> (i < n)%nat -> entries n r i j = 0) /\
    (forall i, (i < n)%nat -> 0 < entries n r i i) /\
    forall i j, (i < n)%nat -> (j < n)%nat -> mulmm n (fun a b => entries n r b a) (entries n r) i j = A i j.
Proof.
  intros Hm Hr Hs Hf. destruct (ldlt_factor_ok n get A m (mgr_wf n m Hm) Hr) as (st & Ls & [(E & H)|(p & Hp & E & H1 & H2 & H3)]);
    rewrite E in Hf; [injection Hf as <-|discriminate].
  destruct (ldlt_sqrt_ok n (mkLDLT (N := RNum) (0, 0)%nat (l_wit m) n st)) as (r & Er & Lr & Hrr); auto.
  exists (mkArr r n n). split; [exact Er|]. split; [repeat split; auto|].
  assert (D : forall i, (i < n)%nat -> 0 < mget (N := RNum) n st i i).
  { intros i Hi. destruct (H i Hi) as [_ P]. apply Rle_bool_no in P. exact P. }
  assert (V : forall i j, (i < n)%nat -> (j < n)%nat -> entries n (mkArr r n n) i j =
     if (i =? j)%nat then sqrt (mget (N := RNum) n st i i) else if (i <? j)%nat then mget (N := RNum) n st j i * sqrt (mget (N := RNum) n st i i) else 0).
  { intros i j Hi Hj. exact (Hrr i j Hi Hj). }
  split; [|split].
  - intros i j Hj Hi. rewrite V by lia. rewrite (proj2 (Nat.eqb_neq i j)), (proj2 (Nat.ltb_ge i j)) by lia. auto.
  - intros i Hi. rewrite V, Nat.eqb_refl by auto. apply sqrt_lt_R0, D, Hi.
  - assert (HL : ldl_of n A (mget (N := RNum) n st) (fun i => mget (N := RNum) n st i i)).
    { destruct n as [|n']; [intros i j Hj Hi; lia|]. apply (rows_ldl (S n') 0 n' A st); [lia| |]; intros i Hi.
      - apply H. lia.
      - apply Rgt_not_eq. apply D. lia. }
    assert (K : forall i j, (j <= i)%nat -> (i < n)%nat -> mulmm n (fun a b => entries n (mkArr r n n) b a) (entries n (mkArr r n n)) i j = A i j).
    { intros i j Hj Hi. unfold mulmm. rewrite (Rsum_block n 0 (S j)).
      - cbn [Rsum]. rewrite (HL i j) by lia. cbn [plus]. f_equal.
        + apply Rsum_ext. intros k Hk. rewrite !V by lia.
          rewrite (proj2 (Nat.eqb_neq k i)), (proj2 (Nat.eqb_neq k j)), (proj2 (Nat.ltb_lt k i)), (proj2 (Nat.ltb_lt k j)) by lia.
          assert (Q : forall a b c, 0 < c -> a * sqrt c * (b * sqrt c) = a * b * c).
          { intros a b c Hc. rewrite <- (sqrt_sqrt c) at 3 by lra. ring. }
          apply Q. apply D. lia.
        + rewrite !V by lia. rewrite (Nat.eqb_refl j), (Nat.eqb_sym j i). destruct (Nat.eqb_spec i j) as [->|].
          * apply sqrt_sqrt. apply Rlt_le, D. lia.
          * rewrite (proj2 (Nat.ltb_lt j i)) by lia. rewrite Rmult_assoc. f_equal. apply sqrt_sqrt. apply Rlt_le, D. lia.
      - lia.
      - intros k Hk Ho. rewrite (V k j) by lia. rewrite (proj2 (Nat.eqb_neq k j)), (proj2 (Nat.ltb_ge k j)) by lia. ring. }
    intros i j Hi Hj. destruct (Nat.le_ge_cases j i) as [Hl|Hl]; [apply K; auto|].
    rewrite (Hs i j) by auto. rewrite <- (K j i) by auto. unfold mulmm. apply Rsum_ext. intros. ring.
Qed.
Lemma sqrt_panics_iff n m get (A : mtx) m' b : mgr n m -> reads (N := RNum) n get A ->
  ldlt_factor (N := RNum) get m = Ok (m', b) -> (ldlt_sqrt (N := RNum) m' = Panic <-> b = false).
Proof.
  intros Hm Hr Hf. destruct (ldlt_factor_ok n get A m (mgr_wf n m Hm) Hr) as (st & Ls & [(E & H)|(p & Hp & E & H1 & H2 & H3)]);
    rewrite E in Hf; injection Hf as <- <-.
  - split; [|discriminate]. intros HP. exfalso.
    destruct (ldlt_sqrt_ok n (mkLDLT (N := RNum) (0, 0)%nat (l_wit m) n st)) as (r & E1 & _); auto. rewrite E1 in HP. discriminate.
  - split; [auto|]. intros _. apply ldlt_sqrt_panics. cbn [l_pos snd]. lia.
Qed.

(** ** the semidefinite variant *)
Lemma semi_accepts_psd n m get (A : mtx) : mgr n m -> reads (N := RNum) n get A -> sym n A ->
  exists m' b, ldlt_factor_semi (N := RNum) get m = Ok (m', b) /\ (psd n A -> b = true) /\
    (b = false -> exists p m'' ep, (p < n)%nat /\ ldlt_witness (N := RNum) m' = Ok (m'', ep) /\ 0 < ep /\
       quad n A (wit_vec m'') = - ep /\ wit_vec m'' p = 1 /\
       forall F, square n F -> ldlt_sym_quad (N := RNum) m'' F = Ok (quad n (entries n F) (wit_vec m''))).
Proof.
  intros Hm Hr Hs. destruct (ldlt_semi_ok n get A m (mgr_wf n m Hm) Hr) as (st & Ls & [E|(s & p & Hp & E & H1 & H2 & H3)]).
  - do 2 eexists. split; [exact E|]. split; auto. discriminate.
  - do 2 eexists. split; [exact E|].
    destruct (witness_gen n m _ A st s p (mgr_wf n m Hm) Ls ltac:(lia) Hs eq_refl H1) as (m'' & ep & E1 & E2 & E3 & E4 & E5 & E6).
    { intros i Hi. destruct (H2 i ltac:(lia)) as [_ P]. apply Req_bool_no in P. exact P. }
    assert (H3' : mget (N := RNum) n st p p < 0).
    { apply Rlt_bool_iff in H3. exact H3. }
    assert (Hep : 0 < ep). { assert (K : forall a b : R, b < 0 -> a = - b -> 0 < a) by (intros; lra). apply (K ep _ H3' E2). }
    split.
    + intros Hpsd. specialize (Hpsd (wit_vec m'')). rewrite E4 in Hpsd. assert (K : forall a : R, 0 < a -> 0 <= - a -> False) by (intros; lra). destruct (K ep Hep Hpsd).
    + intros _. exists p, m'', ep. repeat (split; auto). lia.
Qed.

Lemma factorize_decides n m a : mgr n m -> square n a -> sym n (entries n a) ->
  exists m' b, ldlt_factorize (N := RNum) a m = Ok (m', b) /\ mgr n m' /\ (b = true <-> pd n (entries n a)).
Proof.
  intros Hm Ha Hs. destruct (factor_decides n m (a_get a) (entries n a) Hm (square_reads (N := RNum) n a Ha) Hs) as (m' & b & E & H).
  exists m', b. split; [exact E|]. split; auto. eapply mgr_factor; eauto.
Qed.
