(** What the lowpass oracle computes, for any number type. *)
From Coq Require Import ZArith Reals List Bool Arith Lia Lra.
From Verif Require Import Num Res Arr ArrLemmas CuttingPlane Spec LmiSpec ExtSpec Lowpass LowpassSpec.
Import ListNotations.
Open Scope nat_scope.

(** ** the round-robin loop *)
Section Round.
Context {S R : Type}.
Variables (lo hi : Z) (step : Z -> S -> res (ctl S R)).
Variables (I : list Z -> S -> Prop) (Q : Z -> R -> Prop).
Hypothesis Hlo : (lo <= hi)%Z.
Hypothesis Hstep : forall l k s, (lo <= k < hi)%Z -> I l s ->
  (exists s', step k s = Ok (Next s') /\ I (k :: l) s') \/ (exists r, step k s = Ok (Done r) /\ Q k r).
Definition next_idx (i : Z) : Z := if (i + 1 =? hi)%Z then lo else (i + 1)%Z.
Lemma next_mod i : (lo - 1 <= i <= hi - 1)%Z -> (lo < hi)%Z -> next_idx i = (lo + (i - lo + 1) mod (hi - lo))%Z.
Proof.
  intros Hi H. unfold next_idx. destruct (Z.eqb_spec (i + 1) hi) as [E|E].
  - replace (i - lo + 1)%Z with (hi - lo)%Z by lia. rewrite Z.mod_same by lia. lia.
  - rewrite Z.mod_small by lia. lia.
Qed.
Lemma round_ok idx s : (lo - 1 <= idx <= hi - 1)%Z \/ lo = hi -> I [] s ->
  exists c, lowpass_round lo hi step idx s = Ok c /\
    match c with
    | Next (idx', s') => (lo = hi -> idx' = idx) /\ (lo < hi -> lo <= idx' <= hi - 1)%Z /\ exists l, I l s' /\ (forall k, In k l -> lo <= k < hi)%Z /\ forall k, (lo <= k < hi)%Z -> In k l
    | Done (idx', s', r) => (lo <= idx' <= hi - 1)%Z /\ Q idx' r /\ exists l, I l s' /\ (forall k, In k l -> lo <= k < hi)%Z
    end.
Proof.
  intros Hi H0. unfold lowpass_round.
  destruct (Z.eq_dec lo hi) as [->|Ne].
  { rewrite Z.sub_diag. cbn. eexists. split; [reflexivity|]. split; [auto|]. split; [lia|]. exists []. split; [exact H0|]. split; [intros k []|intros; lia]. }
  destruct Hi as [Hi|]; [|lia].
  set (w := (hi - lo)%Z). assert (Hw : (0 < w)%Z) by (unfold w; lia).
  set (pos := fun i : nat => (lo + (idx - lo + 1 + Z.of_nat i) mod w)%Z).
  assert (Hpos : forall i, (lo <= pos i < hi)%Z).
  { intros i. unfold pos. pose proof (Z.mod_pos_bound (idx - lo + 1 + Z.of_nat i) w Hw). unfold w in *. lia. }
  assert (Hnext : forall i, next_idx (pos i) = pos (Datatypes.S i)).
  { intros i. rewrite next_mod by (specialize (Hpos i); lia). unfold pos. fold w. f_equal.
    replace (lo + (idx - lo + 1 + Z.of_nat i) mod w - lo + 1)%Z with (1 + (idx - lo + 1 + Z.of_nat i) mod w)%Z by lia.
    rewrite Zplus_mod_idemp_r. f_equal. lia. }
  pose (P := fun (t : nat) (st : Z * S) => (match t with O => fst st = idx | Datatypes.S t' => fst st = pos t' end) /\ I (rev (map pos (seq 0 t))) (snd st)).
  pose (QQ := fun r : Z * S * R => let '(i, s', r) := r in (lo <= i <= hi - 1)%Z /\ Q i r /\ exists l, I l s' /\ (forall k, In k l -> lo <= k < hi)%Z).
  match goal with |- exists c, loop_range 0 ?n ?B _ = _ /\ _ =>
    destruct (loop_range_inv P QQ 0 n B (idx, s)) as [(st & E & P1)|(r & E & Q1)] end.
  - lia.
  - split; [reflexivity|exact H0].
  - intros t [i s1] Ht [P1 P2]. cbn [fst snd] in *.
    assert (Ni : next_idx i = pos t).
    { destruct t as [|t]; [|rewrite P1; apply Hnext]. rewrite P1. rewrite next_mod by lia. unfold pos. fold w. f_equal. f_equal. lia. }
    change (if (i + 1 =? hi)%Z then lo else (i + 1)%Z) with (next_idx i). rewrite Ni.
    destruct (Hstep _ (pos t) s1 (Hpos t) P2) as [(s' & E & I')|(r & E & Qr)]; rewrite E; cbn [bind].
    + left. eexists. split; [reflexivity|]. split; [reflexivity|]. cbn [snd]. rewrite seq_S, map_app, rev_app_distr. exact I'.
    + right. eexists. split; [reflexivity|]. split; [specialize (Hpos t); lia|]. split; [exact Qr|]. eexists. split; [exact P2|].
      intros k Hk. apply in_rev in Hk. apply in_map_iff in Hk as (j & <- & _). apply Hpos.
  - rewrite E. eexists. split; [reflexivity|]. destruct st as [i s1]. destruct P1 as [P1 P2]. cbn [fst snd] in *.
    split; [lia|]. split.
    + intros _. destruct (Z.to_nat w) as [|t] eqn:Et; [lia|]. rewrite P1. specialize (Hpos t). lia.
    + eexists. split; [exact P2|]. split.
      * intros k Hk. apply in_rev in Hk. apply in_map_iff in Hk as (j & <- & _). apply Hpos.
      * intros k Hk. apply -> in_rev. apply in_map_iff. exists (Z.to_nat ((k - idx - 1) mod w)).
        pose proof (Z.mod_pos_bound (k - idx - 1) w Hw). split.
        -- unfold pos. rewrite Z2Nat.id by lia. rewrite Zplus_mod_idemp_r. replace (idx - lo + 1 + (k - idx - 1))%Z with (k - lo)%Z by lia.
           rewrite Z.mod_small by (unfold w; lia). lia.
        -- apply in_seq. fold w. lia.
  - rewrite E. eexists. split; [reflexivity|]. destruct r as [[i s1] r]. exact Q1.
Qed.
End Round.

Section Any.
Context {N : Num}.
Notation arr := (Arr N).
Variables (n : nat) (o : Lowpass N) (x : arr).
Hypotheses (Ho : lw_ok n o) (Hx : is_vec n x).
Notation m := (length (lw_spectrum o)).
Notation row k := (nth k (lw_spectrum o) (a_new 0)).
Notation v k := (v_resp n o x k).
Lemma row_vec k : k < m -> is_vec n (row k).
Proof. intros Hk. destruct Ho as (_ & _ & Hr & _). apply Hr. now apply nth_In. Qed.
Lemma col_ok (k : Z) {B} (K : arr -> N -> res B) : (0 <= k < Z.of_nat m)%Z ->
  (col <- rdz (lw_spectrum o) k ;; val <- a_dot col x ;; K col val) = K (row (Z.to_nat k)) (v (Z.to_nat k)).
Proof.
  intros Hk. unfold rdz. rewrite (proj2 (Z.ltb_ge k 0)) by lia. rewrite (rd_nth _ _ (a_new 0)) by lia. cbn [bind].
  rewrite (a_dot_ok n) by (auto; apply row_vec; lia). reflexivity.
Qed.
Definition pass_I (l : list Z) (_ : unit) : Prop := forall k, In k l -> (v (Z.to_nat k) >?! lw_up o) = false /\ (v (Z.to_nat k) <?! lw_lp o) = false.
Definition pass_Q (k : Z) (r : arr * ParallelCut N) : Prop := let k := Z.to_nat k in
  ((v k >?! lw_up o) = true /\ fst r = row k /\ snd r = mkParallel (v k -! lw_up o) (Some (v k -! lw_lp o))) \/
  ((v k <?! lw_lp o) = true /\ fst r = neg_row (row k) /\ snd r = mkParallel (-! v k +! lw_lp o) (Some (-! v k +! lw_up o))).
Definition stop_I (M : list Z -> N * Z -> Prop) (l : list Z) (s : N * Z) : Prop :=
  (forall k, In k l -> (v (Z.to_nat k) >?! lw_sp o) = false /\ (v (Z.to_nat k) <?! n0) = false) /\ M l s.
Definition stop_Q (k : Z) (r : arr * ParallelCut N) : Prop := let k := Z.to_nat k in
  ((v k >?! lw_sp o) = true /\ fst r = row k /\ snd r = mkParallel (v k -! lw_sp o) (Some (v k))) \/
  ((v k <?! n0) = true /\ fst r = neg_row (row k) /\ snd r = mkParallel (-! v k) (Some (-! v k +! lw_sp o))).
Definition trans_I (l : list Z) (_ : unit) : Prop := forall k, In k l -> (v (Z.to_nat k) <?! n0) = false.
Definition trans_Q (k : Z) (r : arr * ParallelCut N) : Prop := let k := Z.to_nat k in
  (v k <?! n0) = true /\ fst r = neg_row (row k) /\ snd r = mkParallel (-! v k) None.

Lemma pass_step_ok l k s : (0 <= k < lw_nwpass o)%Z -> pass_I l s ->
  (exists s', pass_step o x k s = Ok (Next s') /\ pass_I (k :: l) s') \/ (exists r, pass_step o x k s = Ok (Done r) /\ pass_Q k r).
Proof.
  intros Hk HI. pose proof Ho as (_ & _ & _ & H1 & H2 & _). unfold pass_step. rewrite col_ok by lia. unfold pass_Q. cbv zeta.
  destruct (v (Z.to_nat k) >?! lw_up o) eqn:E1; [right; eexists; split; [reflexivity|]; left; auto|].
  destruct (v (Z.to_nat k) <?! lw_lp o) eqn:E2; [right; eexists; split; [reflexivity|]; right; auto|].
  left. eexists. split; [reflexivity|]. intros j [<-|Hj]; auto.
Qed.
(** what the loop says about (fmax, kmax) *)
Definition tracks (M : list Z -> N * Z -> Prop) : Prop := M [] (nninf, (-1)%Z) /\
  forall l s k, (lw_nwstop o <= k < Z.of_nat m)%Z -> M l s -> M (k :: l) (if v (Z.to_nat k) >?! fst s then (v (Z.to_nat k), k) else s).
Lemma stop_step_ok M l k s : tracks M -> (lw_nwstop o <= k < Z.of_nat m)%Z -> stop_I M l s ->
  (exists s', stop_step o x k s = Ok (Next s') /\ stop_I M (k :: l) s') \/ (exists r, stop_step o x k s = Ok (Done r) /\ stop_Q k r).
Proof.
  intros [_ Mk] Hk HI. pose proof Ho as (_ & _ & _ & H1 & H2 & _). unfold stop_step. rewrite col_ok by lia. unfold stop_Q. cbv zeta.
  destruct (v (Z.to_nat k) >?! lw_sp o) eqn:E1; [right; eexists; split; [reflexivity|]; left; auto|].
  destruct (v (Z.to_nat k) <?! n0) eqn:E2; [right; eexists; split; [reflexivity|]; right; auto|].
  left. specialize (Mk l s k Hk (proj2 HI)).
  destruct (v (Z.to_nat k) >?! fst s); eexists; (split; [reflexivity|]); (split; [intros j [<-|Hj]; [auto|apply HI, Hj]|exact Mk]).
Qed.
Lemma trans_step_ok l k s : (lw_nwpass o <= k < lw_nwstop o)%Z -> trans_I l s ->
  (exists s', trans_step o x k s = Ok (Next s') /\ trans_I (k :: l) s') \/ (exists r, trans_step o x k s = Ok (Done r) /\ trans_Q k r).
Proof.
  intros Hk HI. pose proof Ho as (_ & _ & _ & H1 & H2 & _). unfold trans_step. rewrite col_ok by lia. unfold trans_Q. cbv zeta.
  destruct (v (Z.to_nat k) <?! n0) eqn:E2; [right; eexists; split; [reflexivity|]; auto|].
  left. eexists. split; [reflexivity|]. intros j [<-|Hj]; auto.
Qed.
Lemma setidx_new (a : N) : a_setidx (a_new n) 0 a = Ok (mkArr (a :: repeat n0 (n - 1)) n 0).
Proof.
  destruct Ho as (Hn & _). unfold a_setidx, a_new. cbn [adata arows acols]. rewrite wr_ok by (rewrite repeat_length; lia). cbn [bind].
  destruct n as [|n']; [lia|]. cbn. rewrite Nat.sub_0_r. reflexivity.
Qed.
Ltac lwk := unfold lw_ok; cbn; (do 7 (split; [first [assumption | lia]|])); first [assumption | lia].
Lemma lowpass_feas_ok M : tracks M -> exists o' r, lowpass_feas o x = Ok (o', r) /\ lw_ok n o' /\ lw_same o o' /\ lw_sp o' = lw_sp o /\
  match r with
  | Some (g, c) => v_cut n o x g c
  | None => v_meets n o x /\ lw_more_alt o' = false /\ exists l, (forall k, In k l <-> (lw_nwstop o <= k < Z.of_nat m)%Z) /\ M l (lw_fmax o', lw_kmax o')
  end.
Proof.
  intros HM. pose proof Ho as (Hn & Hm & Hr & H1 & H2 & I1 & I2 & I3). unfold lowpass_feas.
  rewrite (rd_nth _ _ (a_new 0)) by lia. cbn [bind].
  assert (L0 : a_len (row 0) = n) by (apply row_vec; lia). rewrite L0.
  destruct (round_ok 0 (lw_nwpass o) (pass_step o x) pass_I pass_Q ltac:(lia) pass_step_ok (lw_idx1 o) tt) as (c1 & E1 & C1).
  { destruct I1 as [I1|I1]; [left; lia|right; lia]. }
  { intros k []. }
  rewrite E1. cbn [bind]. destruct c1 as [[idx1 []]|[[idx1 []] [g c]]].
  2: { destruct C1 as (C1 & C2 & _). do 2 eexists. split; [reflexivity|]. split; [lwk|]. split; [repeat split|]. split; [reflexivity|].
    unfold pass_Q in C2. cbv zeta in C2. cbn [fst snd] in C2. destruct C2 as [C2|C2]; [left|right; left]; exists (Z.to_nat idx1); (split; [lia|exact C2]). }
  destruct C1 as (C1a & C1b & l1 & C1c & _ & C1d).
  assert (J1 : (-1 <= idx1 <= lw_nwpass o - 1 \/ lw_nwpass o = 0)%Z) by lia.
  destruct (round_ok (lw_nwstop o) (Z.of_nat m) (stop_step o x) (stop_I M) stop_Q ltac:(lia) (fun l k s => stop_step_ok M l k s HM) (lw_idx3 o) (nninf, (-1)%Z)) as (c3 & E3 & C3).
  { left. lia. }
  { split; [intros k []|apply HM]. }
  rewrite E3. cbn [bind]. destruct c3 as [[idx3 [fmax kmax]]|[[idx3 [fmax kmax]] [g c]]].
  2: { destruct C3 as (C3 & C4 & _). do 2 eexists. split; [reflexivity|]. split; [lwk|]. split; [repeat split|]. split; [reflexivity|].
    unfold stop_Q in C4. cbv zeta in C4. cbn [fst snd] in C4. destruct C4 as [C4|C4]; [right; right; left|right; right; right; left]; exists (Z.to_nat idx3); (split; [lia|exact C4]). }
  destruct C3 as (C3a & C3b & l3 & C3c & C3d & C3e).
  assert (J3 : (lw_nwstop o - 1 <= idx3 <= Z.of_nat m - 1)%Z) by (destruct (Z.eq_dec (lw_nwstop o) (Z.of_nat m)) as [Q|Q]; [rewrite (C3a Q); lia|lia]).
  destruct (round_ok (lw_nwpass o) (lw_nwstop o) (trans_step o x) trans_I trans_Q ltac:(lia) trans_step_ok (lw_idx2 o) tt) as (c2 & E2 & C2).
  { left. lia. }
  { intros k []. }
  rewrite E2. cbn [bind]. destruct c2 as [[idx2 []]|[[idx2 []] [g c]]].
  2: { destruct C2 as (C2 & C4 & _). do 2 eexists. split; [reflexivity|]. split; [lwk|]. split; [repeat split|]. split; [reflexivity|].
    unfold trans_Q in C4. cbv zeta in C4. cbn [fst snd] in C4. right; right; right; right; left. exists (Z.to_nat idx2). split; [lia|exact C4]. }
  destruct C2 as (C2a & C2b & l2 & C2c & _ & C2d).
  assert (J2 : (lw_nwpass o - 1 <= idx2 <= lw_nwstop o - 1)%Z) by (destruct (Z.eq_dec (lw_nwpass o) (lw_nwstop o)) as [Q|Q]; [rewrite (C2a Q); lia|lia]).
  destruct Hx as [Lx Cx]. unfold a_idx. rewrite (rd_nth _ _ n0) by lia. cbn [bind]. change (nth 0 (adata x) n0) with (vget x 0).
  destruct (vget x 0 <?! n0) eqn:E0.
  - rewrite setidx_new. cbn [bind]. do 2 eexists. split; [reflexivity|]. split; [lwk|]. split; [repeat split|]. split; [reflexivity|].
    do 5 right. split; [exact E0|]. split; [split; cbn; [rewrite repeat_length; lia|reflexivity]|]. split; reflexivity.
  - do 2 eexists. split; [reflexivity|]. split; [lwk|]. split; [repeat split|]. split; [reflexivity|].
    split; [|split; [reflexivity|]].
    + split; [|split; [|split; [|exact E0]]].
      * intros k Hk. specialize (C1c (Z.of_nat k)). rewrite Nat2Z.id in C1c. apply C1c, C1d. lia.
      * intros k Hk. specialize (C2c (Z.of_nat k)). rewrite Nat2Z.id in C2c. apply C2c, C2d. lia.
      * intros k Hk. destruct C3c as [C3c _]. specialize (C3c (Z.of_nat k)). rewrite Nat2Z.id in C3c. apply C3c, C3e. lia.
    + exists l3. split; [intros k; split; auto|]. apply C3c.
Qed.
(** the two answers exclude each other *)
Lemma cut_not_meets g c : v_cut n o x g c -> ~ v_meets n o x.
Proof.
  unfold v_cut, v_meets. cbv zeta. intros C (M1 & M2 & M3 & M4).
  destruct C as [(k & Hk & C & _)|[(k & Hk & C & _)|[(k & Hk & C & _)|[(k & Hk & C & _)|[(k & Hk & C & _)|(C & _)]]]]].
  - destruct (M1 k Hk). congruence.
  - destruct (M1 k Hk). congruence.
  - destruct (M3 k Hk). congruence.
  - destruct (M3 k Hk). congruence.
  - specialize (M2 k Hk). congruence.
  - congruence.
Qed.
Lemma lowpass_exhaustive : exists o' r, lowpass_feas o x = Ok (o', r) /\ lw_ok n o' /\ lw_same o o' /\ lw_sp o' = lw_sp o /\
  (r = None <-> v_meets n o x) /\ (forall g c, r = Some (g, c) -> v_cut n o x g c).
Proof.
  destruct (lowpass_feas_ok (fun _ _ => True)) as (o' & r & E & O & Sm & Sp & C). { split; auto. }
  exists o', r. split; [exact E|]. split; [exact O|]. split; [exact Sm|]. split; [exact Sp|]. destruct r as [[g c]|].
  - split; [split; [discriminate|intros K; exfalso; exact (cut_not_meets _ _ C K)]|]. intros g' c' K. inversion K; subst; exact C.
  - split; [split; [intros _; apply C|reflexivity]|discriminate].
Qed.
End Any.
