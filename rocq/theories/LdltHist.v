(** The LDL' manager's answers do not depend on its history (any number type). *)
From Coq Require Import List Bool Arith Lia.
From Verif Require Import Num Res Arr ArrLemmas Ldlt LdltLemmas LdltSpec LdltProofs.
Import ListNotations.
Open Scope nat_scope.

Section Hist.
Context {N : Num}.

(** Two managers that hold the same reported block. *)
Definition same_block (n : nat) (m1 m2 : LDLT N) : Prop :=
  l_pos m1 = l_pos m2 /\ l_ndim m1 = n /\ l_ndim m2 = n /\
  length (l_storage m1) = n * n /\ length (l_storage m2) = n * n /\
  length (adata (l_wit m1)) = n /\ length (adata (l_wit m2)) = n /\
  (snd (l_pos m1) <> 0 -> fst (l_pos m1) < snd (l_pos m1) <= n /\
     forall i j, fst (l_pos m1) <= i < snd (l_pos m1) -> fst (l_pos m1) <= j < snd (l_pos m1) ->
     mget n (l_storage m1) i j = mget n (l_storage m2) i j).

Definition same_witness (m1 m2 : LDLT N) : Prop :=
  match ldlt_witness m1, ldlt_witness m2 with
  | Ok (w1, e1), Ok (w2, e2) => e1 = e2 /\ l_pos w1 = l_pos w2 /\
      (forall i, fst (l_pos w1) <= i < snd (l_pos w1) -> nth i (adata (l_wit w1)) n0 = nth i (adata (l_wit w2)) n0) /\
      forall F, ldlt_sym_quad w1 F = ldlt_sym_quad w2 F
  | Panic, Panic => True
  | _, _ => False
  end.

Lemma same_block_witness n m1 m2 : same_block n m1 m2 -> same_witness m1 m2.
Proof.
  intros (Hp & N1 & N2 & L1 & L2 & W1 & W2 & H). unfold same_witness.
  destruct (l_pos m1) as [s e] eqn:E1. cbn [fst snd] in H. destruct (Nat.eq_dec e 0) as [->|He].
  { rewrite !ldlt_witness_panics; auto; [rewrite <- Hp|rewrite E1]; reflexivity. }
  destruct (H He) as [Hse HB]. destruct e as [|p]; [lia|].
  destruct (ldlt_witness_ok n m1 s p) as (w1 & Ew1 & Lw1 & A1 & B1 & C1); auto. { rewrite E1; f_equal; lia. } { lia. }
  destruct (ldlt_witness_ok n m2 s p) as (w2 & Ew2 & Lw2 & A2 & B2 & C2); auto. { rewrite <- Hp; f_equal; lia. } { lia. }
  rewrite Ew1, Ew2. rewrite E1, <- Hp. cbn [l_pos l_wit fst snd].
  assert (V : forall q, q <= p - s -> forall i, p - q <= i <= p -> vget w1 i = vget w2 i).
  { induction q; intros Hq i Hi.
    - replace i with p by lia. congruence.
    - destruct (Nat.eq_dec i (p - S q)) as [->|]; [|apply IHq; lia].
      rewrite B1, B2 by lia. f_equal. apply accum_ext. intros k Hk. rewrite HB by lia. f_equal. apply IHq; lia. }
  assert (V' : forall i, s <= i < S p -> vget w1 i = vget w2 i) by (intros i Hi; apply (V (p - s)); lia).
  split. { f_equal. apply HB; lia. } split; auto. split. { intros i Hi. apply (V' i Hi). }
  intros F. unfold ldlt_sym_quad. cbn [l_pos l_wit].
  apply for_range_ext. intros i r Hi. apply for_range_ext. intros j r' Hj.
  unfold a_idx. rewrite !(rd_nth _ _ n0) by lia. cbn [bind]. change (nth i (adata w1) n0) with (vget w1 i).
  change (nth i (adata w2) n0) with (vget w2 i). change (nth j (adata w1) n0) with (vget w1 j).
  change (nth j (adata w2) n0) with (vget w2 j). now rewrite !V' by auto.
Qed.

Lemma sqrt_same n (m1 m2 : LDLT N) : l_pos m1 = l_pos m2 -> l_ndim m1 = n -> l_ndim m2 = n ->
  length (l_storage m1) = n * n -> length (l_storage m2) = n * n ->
  (snd (l_pos m1) = 0 -> forall i j, i < n -> j < n -> mget n (l_storage m1) i j = mget n (l_storage m2) i j) ->
  ldlt_sqrt m1 = ldlt_sqrt m2.
Proof.
  intros Hp N1 N2 L1 L2 H. destruct (Nat.eq_dec (snd (l_pos m1)) 0) as [E|E].
  - specialize (H E). destruct (ldlt_sqrt_ok n m1 N1 L1 E) as (r1 & -> & R1 & V1).
    rewrite Hp in E. destruct (ldlt_sqrt_ok n m2 N2 L2 E) as (r2 & -> & R2 & V2).
    do 2 f_equal. apply (list_eq_nth _ _ n0); [congruence|]. intros i Hi.
    destruct n as [|n']; [simpl in R1; lia|].
    assert (Ei : i = (i / S n') * S n' + i mod S n') by (rewrite Nat.mul_comm; apply Nat.div_mod; lia).
    assert (Hm : i mod S n' < S n') by (apply Nat.mod_upper_bound; lia).
    assert (Hd : i / S n' < S n') by (apply Nat.div_lt_upper_bound; lia).
    rewrite Ei. fold (mget (S n') r1 (i / S n') (i mod S n')) (mget (S n') r2 (i / S n') (i mod S n')).
    rewrite V1, V2 by auto. rewrite !H by auto. reflexivity.
  - rewrite !ldlt_sqrt_panics; auto. now rewrite <- Hp.
Qed.

Lemma factor_history n (m1 m2 : LDLT N) get1 get2 A : mgr n m1 -> mgr n m2 -> reads n get1 A -> reads n get2 A ->
  exists m1' m2' b, ldlt_factor get1 m1 = Ok (m1', b) /\ ldlt_factor get2 m2 = Ok (m2', b) /\
    l_pos m1' = l_pos m2' /\ ldlt_sqrt m1' = ldlt_sqrt m2' /\ same_witness m1' m2'.
Proof.
  intros H1 H2 R1 R2. pose proof (mgr_wf n m1 H1) as W1. pose proof (mgr_wf n m2 H2) as W2.
  destruct (ldlt_factor_ok n get1 A m1 W1 R1) as (st1 & L1 & F1). destruct (ldlt_factor_ok n get2 A m2 W2 R2) as (st2 & L2 & F2).
  assert (U : forall e, (forall i, i < e -> row_ok n 0 A st1 i) -> (forall i, i < e -> row_ok n 0 A st2 i) ->
     forall i j, i < e -> j < e -> mget n st1 i j = mget n st2 i j).
  { intros e K1 K2 i j Hi Hj. apply (rows_unique n 0 A A st1 st2 e); auto; try lia; intros; [apply K1|apply K2]; lia. }
  destruct F1 as [(E1 & K1)|(p1 & P1 & E1 & K1 & K1' & K1'')], F2 as [(E2 & K2)|(p2 & P2 & E2 & K2 & K2' & K2'')]; rewrite E1, E2.
  - do 3 eexists. split; [reflexivity|]. split; [reflexivity|]. split; [reflexivity|]. split.
    + apply (sqrt_same n); auto. intros _. cbn [l_storage]. apply U; intros; [apply K1|apply K2]; auto.
    + unfold same_witness. rewrite !ldlt_witness_panics; auto.
  - exfalso. rewrite <- (U (S p2)) in K2''; try lia.
    + destruct (K1 p2 ltac:(lia)) as [_ K]. congruence.
    + intros; apply K1; lia.
    + intros; apply K2; lia.
  - exfalso. rewrite (U (S p1)) in K1''; try lia.
    + destruct (K2 p1 ltac:(lia)) as [_ K]. congruence.
    + intros; apply K1; lia.
    + intros; apply K2; lia.
  - assert (p1 = p2) as <-.
    { destruct (Nat.lt_trichotomy p1 p2) as [H|[H|H]]; auto; exfalso.
      - rewrite (U (S p1)) in K1''; try lia; [rewrite K2' in K1'' by lia; discriminate|intros; apply K1; lia|intros; apply K2; lia].
      - rewrite <- (U (S p2)) in K2''; try lia; [rewrite K1' in K2'' by lia; discriminate|intros; apply K1; lia|intros; apply K2; lia]. }
    do 3 eexists. split; [reflexivity|]. split; [reflexivity|]. split; [reflexivity|]. split.
    + rewrite !ldlt_sqrt_panics; auto; cbn [l_pos snd]; lia.
    + apply (same_block_witness n). destruct W1 as (_ & _ & W1), W2 as (_ & _ & W2). unfold same_block. cbn [l_pos l_ndim l_storage l_wit fst snd].
      do 7 (split; auto). intros _. split; [lia|]. intros i j Hi Hj. apply (U (S p1)); try lia; intros; [apply K1|apply K2]; lia.
Qed.

(** The semidefinite variant. *)
Lemma loop_up_rel {S1 R1 S2 R2} (P : nat -> S1 -> S2 -> Prop) (Q : R1 -> R2 -> Prop) k : forall lo b1 b2 (s1 : S1) (s2 : S2),
  P lo s1 s2 ->
  (forall i t1 t2, lo <= i < lo + k -> P i t1 t2 ->
     (exists u1 u2, b1 i t1 = Ok (Next u1) /\ b2 i t2 = Ok (Next u2) /\ P (S i) u1 u2) \/
     (exists r1 r2, b1 i t1 = Ok (Done r1) /\ b2 i t2 = Ok (Done r2) /\ Q r1 r2)) ->
  (exists u1 u2, loop_up k lo b1 s1 = Ok (Next u1) /\ loop_up k lo b2 s2 = Ok (Next u2) /\ P (lo + k) u1 u2) \/
  (exists r1 r2, loop_up k lo b1 s1 = Ok (Done r1) /\ loop_up k lo b2 s2 = Ok (Done r2) /\ Q r1 r2).
Proof.
  induction k; intros lo b1 b2 s1 s2 HP Hb; cbn [loop_up].
  - left. exists s1, s2. rewrite Nat.add_0_r. auto.
  - destruct (Hb lo s1 s2 ltac:(lia) HP) as [(u1 & u2 & -> & -> & H)|(r1 & r2 & -> & -> & H)]; cbn [bind].
    + replace (lo + S k) with (S lo + k) by lia. apply IHk; auto. intros; apply Hb; auto; lia.
    + right. exists r1, r2. auto.
Qed.

Lemma semi_history n (m1 m2 : LDLT N) get1 get2 A : mgr n m1 -> mgr n m2 -> reads n get1 A -> reads n get2 A ->
  exists m1' m2' b, ldlt_factor_semi get1 m1 = Ok (m1', b) /\ ldlt_factor_semi get2 m2 = Ok (m2', b) /\
    l_pos m1' = l_pos m2' /\ same_witness m1' m2'.
Proof.
  intros H1 H2 R1 R2. destruct (mgr_wf n m1 H1) as (N1 & L1 & W1). destruct (mgr_wf n m2 H2) as (N2 & L2 & W2).
  unfold ldlt_factor_semi. rewrite N1, N2. unfold loop_range.
  match goal with |- context [loop_up (n - 0) 0 ?b1 (l_storage m1, 0)] => match goal with |- context [loop_up (n - 0) 0 ?b2 (l_storage m2, 0)] =>
    destruct (loop_up_rel (fun i '(st1, s1) '(st2, s2) => s1 = s2 /\ s1 <= i /\ length st1 = n * n /\ length st2 = n * n /\
        (forall k, s1 <= k < i -> row_ok n s1 A st1 k) /\ (forall k, s1 <= k < i -> row_ok n s1 A st2 k))
      (fun '(st1, p1) '(st2, p2) => p1 = p2 /\ length st1 = n * n /\ length st2 = n * n /\ fst p1 < snd p1 <= n /\
        forall i j, fst p1 <= i < snd p1 -> fst p1 <= j < snd p1 -> mget n st1 i j = mget n st2 i j)
      (n - 0) 0 b1 b2 (l_storage m1, 0) (l_storage m2, 0)) as [([st1 s1] & [st2 s2] & E1 & E2 & H)|([st1 p1] & [st2 p2] & E1 & E2 & H)]
  end end.
  - do 4 (split; auto). split; intros; lia.
  - intros i [st1 s1] [st2 s2] Hi (<- & Hs & K1 & K2 & O1 & O2).
    destruct (ldlt_row_ok n s1 i get1 A st1 K1) as (t1 & E1 & T1 & Ro1 & U1); [lia|intros; apply R1; lia|].
    destruct (ldlt_row_ok n s1 i get2 A st2 K2) as (t2 & E2 & T2 & Ro2 & U2); [lia|intros; apply R2; lia|].
    rewrite E1, E2. cbn [bind].
    assert (O1' : forall k, s1 <= k < S i -> row_ok n s1 A t1 k).
    { intros k Hk. destruct (Nat.eq_dec k i) as [->|]; auto. apply (row_ok_ext n s1 A st1); auto; try lia; [|apply O1; lia].
      intros a b Ha Hb. symmetry. apply U1; lia. }
    assert (O2' : forall k, s1 <= k < S i -> row_ok n s1 A t2 k).
    { intros k Hk. destruct (Nat.eq_dec k i) as [->|]; auto. apply (row_ok_ext n s1 A st2); auto; try lia; [|apply O2; lia].
      intros a b Ha Hb. symmetry. apply U2; lia. }
    assert (U : forall a b, s1 <= a < S i -> s1 <= b < S i -> mget n t1 a b = mget n t2 a b).
    { apply (rows_unique n s1 A A t1 t2 (S i)); auto. }
    rewrite (U i i) by lia. destruct (mget n t2 i i <?! n0).
    + right. do 2 eexists. split; [reflexivity|]. split; [reflexivity|]. cbn [fst snd]. do 3 (split; auto). split; [lia|].
      intros a b Ha Hb. apply U; lia.
    + left. destruct (mget n t2 i i =?! n0).
      * do 2 eexists. split; [reflexivity|]. split; [reflexivity|]. split; auto. split; [lia|]. do 2 (split; auto). split; intros; lia.
      * do 2 eexists. split; [reflexivity|]. split; [reflexivity|]. split; auto.
  - rewrite E1, E2. cbn [bind]. do 3 eexists. split; [reflexivity|]. split; [reflexivity|]. split; [reflexivity|].
    unfold same_witness. rewrite !ldlt_witness_panics; auto.
  - rewrite E1, E2. cbn [bind]. destruct H as (<- & K1 & K2 & Hp & HB). do 3 eexists. split; [reflexivity|].
    split. { unfold ldlt_is_spd. cbn [l_pos]. reflexivity. } split; [reflexivity|].
    apply (same_block_witness n). unfold same_block. cbn [l_pos l_ndim l_storage l_wit fst snd]. do 7 (split; auto).
Qed.

(** Entries outside the reported block keep whatever value they had. *)
Lemma witness_outside n (m m' : LDLT N) e : mgr n m -> ldlt_witness m = Ok (m', e) ->
  forall i, i < fst (l_pos m) \/ snd (l_pos m) <= i -> nth i (adata (l_wit m')) n0 = nth i (adata (l_wit m)) n0.
Proof.
  intros Hm E i Hi. destruct (mgr_mgr_inv n m Hm) as [(Hn & Ls & Lw) Hp].
  destruct (l_pos m) as [s p'] eqn:Ep. cbn [fst snd] in *. destruct Hp as [Hp|Hp].
  - destruct p' as [|p]; [lia|]. destruct (ldlt_witness_ok n m s p) as (w & E1 & _ & _ & _ & W); auto. { rewrite Ep. f_equal. lia. } { lia. }
    rewrite E1 in E. injection E as <- _. cbn [l_wit]. apply W. lia.
  - rewrite ldlt_witness_panics in E; [discriminate|]. now rewrite Ep.
Qed.
End Hist.
