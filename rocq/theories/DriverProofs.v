(** Proofs about the drivers of cutting_plane.rs, for any number type, oracle
    and search space. *)
From Coq Require Import ZArith List Bool Arith Lia.
From Verif Require Import Num Res CuttingPlane DriverSpec.

Lemma is_success_spec st : is_success st = true <-> st = Success.
Proof. destruct st; simpl; split; congruence. Qed.
Lemma is_success_false st : is_success st = false <-> st <> Success.
Proof. destruct st; simpl; split; congruence. Qed.
Lemma cont_false st b : negb (is_success st) || b = false <-> st = Success /\ b = false.
Proof. destruct st, b; simpl; split; intuition congruence. Qed.
Lemma cont_true st b : negb (is_success st) || b = true <-> st <> Success \/ b = true.
Proof. destruct st, b; simpl; split; intuition congruence. Qed.

(** A sequence continued by one value. *)
Definition upto {X} (f : nat -> X) (k : nat) (v : X) (i : nat) : X := if i <=? k then f i else v.
Lemma upto_le {X} (f : nat -> X) k v i : i <= k -> upto f k v i = f i.
Proof. intros H. unfold upto. apply Nat.leb_le in H. now rewrite H. Qed.
Lemma upto_succ {X} (f : nat -> X) k v : upto f k v (S k) = v.
Proof. unfold upto. destruct (Nat.leb_spec (S k) k); [lia|auto]. Qed.

Section Feas.
Context {N : Num} {A C O S : Type}.
Variable ora : OracleFeas N A C O.
Variable sp : SearchSpace N A C S.
Variable opt : Options N.
Let tol := tolerance opt.

Definition feas_body (niter : nat) (p : O * S) : res (ctl (O * S) (O * S * (option A * nat))) :=
  let '(o, s) := p in
        '(o, cut) <- of_assess ora o (sp_xc sp s) ;;
        match cut with
        | None => Ok (Done (o, s, (Some (sp_xc sp s), niter)))
        | Some cut =>
            '(s, status) <- sp_update_bias_cut sp s cut ;;
            if negb (is_success status) || (sp_tsq sp s <?! tolerance opt)
            then Ok (Done (o, s, (None, niter)))
            else Ok (Next (o, s))
        end.

Lemma feas_unfold o s :
  cutting_plane_feas ora sp opt o s =
  (c <- loop_up (max_iters opt) 0 feas_body (o, s) ;;
   match c with
   | Done r => Ok r
   | Next (o, s) => Ok (o, s, (None, max_iters opt))
   end).
Proof. unfold cutting_plane_feas, loop_range. now rewrite Nat.sub_0_r. Qed.

Lemma feas_next_iff i o s o' s' :
  feas_body i (o, s) = Ok (Next (o', s')) <->
  exists cut, of_assess ora o (sp_xc sp s) = Ok (o', Some cut) /\
    sp_update_bias_cut sp s cut = Ok (s', Success) /\ (sp_tsq sp s' <?! tol) = false.
Proof.
  unfold feas_body. destruct (of_assess ora o (sp_xc sp s)) as [[o1 [cut|]]|]; simpl.
  - destruct (sp_update_bias_cut sp s cut) as [[s1 st]|] eqn:Eu; simpl.
    + destruct (negb (is_success st) || (sp_tsq sp s1 <?! tolerance opt)) eqn:Eb.
      * apply cont_true in Eb. split; [discriminate|]. intros (c & E1 & E2 & E3).
        inversion E1; subst. rewrite Eu in E2. inversion E2; subst. unfold tol in E3.
        destruct Eb; congruence.
      * apply cont_false in Eb as [-> Eb]. split.
        -- intros E; inversion E; subst. exists cut. auto.
        -- intros (c & E1 & E2 & E3). inversion E1; subst. rewrite Eu in E2. inversion E2; subst. auto.
    + split; [discriminate|]. intros (c & E1 & E2 & E3). inversion E1; subst. congruence.
  - split; [discriminate|]. intros (c & E1 & _). discriminate.
  - split; [discriminate|]. intros (c & E1 & _). discriminate.
Qed.

Lemma feas_nexts_iff k (f : nat -> O * S) :
  nexts feas_body 0 k f <-> feas_steps ora sp tol k (fun i => fst (f i)) (fun i => snd (f i)).
Proof.
  unfold nexts, feas_steps. split; intros H i Hi; specialize (H i Hi); simpl in *.
  - destruct (f i) as [o s], (f (Datatypes.S i)) as [o' s']. apply feas_next_iff in H. exact H.
  - destruct (f i) as [o s], (f (Datatypes.S i)) as [o' s']. apply feas_next_iff. exact H.
Qed.

Lemma feas_some_iff o s o' s' x k :
  cutting_plane_feas ora sp opt o s = Ok (o', s', (Some x, k)) <->
  k < max_iters opt /\
  exists os ss, os 0 = o /\ ss 0 = s /\ feas_steps ora sp tol k os ss /\
    of_assess ora (os k) (sp_xc sp (ss k)) = Ok (o', None) /\
    s' = ss k /\ x = sp_xc sp s'.
Proof.
  rewrite feas_unfold. split.
  - intros E. apply bind_inv in E as ([[o1 s1]|r] & E & E2); inversion E2; subst; clear E2.
    apply loop_done_iff in E as (k' & f & Hk & H0 & Hn & Hd).
    apply feas_nexts_iff in Hn. simpl in Hd. unfold feas_body in Hd.
    destruct (f k') as [ok sk] eqn:Ek.
    apply bind_inv in Hd as ([o1 [cut|]] & E1 & E2); simpl in E2.
    + apply bind_inv in E2 as ([s1 st] & E2 & E3).
      destruct (negb (is_success st) || (sp_tsq sp s1 <?! tolerance opt)); inversion E3.
    + inversion E2; subst. split; auto.
      exists (fun i => fst (f i)), (fun i => snd (f i)). rewrite H0, Ek. simpl. auto 10.
  - intros (Hk & os & ss & Ho & Hs & Hst & E & -> & ->).
    assert (L : loop_up (max_iters opt) 0 feas_body (o, s) = Ok (Done (o', ss k, (Some (sp_xc sp (ss k)), k)))).
    { apply loop_done_iff. exists k, (fun i => (os i, ss i)). repeat split; auto.
      - congruence.
      - apply feas_nexts_iff. exact Hst.
      - simpl. now rewrite E. }
    now rewrite L.
Qed.

Lemma feas_none_iff o s o' s' k :
  cutting_plane_feas ora sp opt o s = Ok (o', s', (None, k)) <->
  exists os ss, os 0 = o /\ ss 0 = s /\ feas_steps ora sp tol k os ss /\
   ((k < max_iters opt /\ exists cut st,
       of_assess ora (os k) (sp_xc sp (ss k)) = Ok (o', Some cut) /\
       sp_update_bias_cut sp (ss k) cut = Ok (s', st) /\
       (st <> Success \/ (sp_tsq sp s' <?! tol) = true)) \/
    (k = max_iters opt /\ o' = os k /\ s' = ss k)).
Proof.
  rewrite feas_unfold. split.
  - intros E. apply bind_inv in E as ([[o1 s1]|r] & E & E2); inversion E2; subst; clear E2.
    + apply loop_next_iff in E as (f & H0 & Hn & Hd). apply feas_nexts_iff in Hn.
      exists (fun i => fst (f i)), (fun i => snd (f i)). rewrite H0, Hd. simpl. auto 10.
    + apply loop_done_iff in E as (k' & f & Hk & H0 & Hn & Hd).
      apply feas_nexts_iff in Hn. simpl in Hd. unfold feas_body in Hd.
      destruct (f k') as [ok sk] eqn:Ek.
      apply bind_inv in Hd as ([o1 [cut|]] & E1 & E2); simpl in E2; [|inversion E2].
      apply bind_inv in E2 as ([s1 st] & E2 & E3).
      destruct (negb (is_success st) || (sp_tsq sp s1 <?! tolerance opt)) eqn:Eb; inversion E3; subst.
      apply cont_true in Eb.
      exists (fun i => fst (f i)), (fun i => snd (f i)). rewrite H0, Ek. simpl. repeat split; auto.
      left. split; auto. exists cut, st. auto.
  - intros (os & ss & Ho & Hs & Hst & [(Hk & cut & st & E & Eu & Hend)|(-> & -> & ->)]).
    + assert (L : loop_up (max_iters opt) 0 feas_body (o, s) = Ok (Done (o', s', (None, k)))).
      { apply loop_done_iff. exists k, (fun i => (os i, ss i)). repeat split; auto.
        - congruence.
        - now apply feas_nexts_iff.
        - simpl. rewrite E. simpl. rewrite Eu. simpl. apply cont_true in Hend. unfold tol in Hend. now rewrite Hend. }
      now rewrite L.
    + assert (L : loop_up (max_iters opt) 0 feas_body (o, s) = Ok (Next (os (max_iters opt), ss (max_iters opt)))).
      { apply loop_next_iff. exists (fun i => (os i, ss i)). repeat split; auto.
        - congruence.
        - now apply feas_nexts_iff. }
      now rewrite L.
Qed.

(** panics only if the oracle or the space panics *)
Lemma feas_panic_iff o s :
  cutting_plane_feas ora sp opt o s = Panic <->
  exists k os ss, k < max_iters opt /\ os 0 = o /\ ss 0 = s /\ feas_steps ora sp tol k os ss /\
    (of_assess ora (os k) (sp_xc sp (ss k)) = Panic \/
     exists o' cut, of_assess ora (os k) (sp_xc sp (ss k)) = Ok (o', Some cut) /\
       sp_update_bias_cut sp (ss k) cut = Panic).
Proof.
  rewrite feas_unfold.
  transitivity (loop_up (max_iters opt) 0 feas_body (o, s) = Panic).
  { destruct (loop_up (max_iters opt) 0 feas_body (o, s)) as [[[o1 s1]|r]|]; simpl; split; congruence. }
  rewrite loop_panic_iff. split.
  - intros (k & f & Hk & H0 & Hn & Hp). apply feas_nexts_iff in Hn.
    exists k, (fun i => fst (f i)), (fun i => snd (f i)). rewrite H0. repeat split; auto.
    simpl in Hp. unfold feas_body in Hp. destruct (f k) as [ok sk]. simpl.
    destruct (of_assess ora ok (sp_xc sp sk)) as [[o1 [cut|]]|] eqn:E; simpl in Hp; auto; [|discriminate].
    destruct (sp_update_bias_cut sp sk cut) as [[s1 st]|] eqn:Eu; simpl in Hp; eauto.
    destruct (negb (is_success st) || (sp_tsq sp s1 <?! tolerance opt)); discriminate.
  - intros (k & os & ss & Hk & Ho & Hs & Hst & Hp).
    exists k, (fun i => (os i, ss i)). repeat split; auto; [congruence|now apply feas_nexts_iff|].
    simpl. destruct Hp as [->|(o1 & cut & -> & Eu)]; simpl; auto. now rewrite Eu.
Qed.
End Feas.

(** A counted run is the run, and the counter says how often the oracle was asked. *)
Lemma feas_counting {N A C O S} (ora : OracleFeas N A C O) (sp : SearchSpace N A C S) opt o s c0 o' s' r k :
  cutting_plane_feas ora sp opt o s = Ok (o', s', (r, k)) ->
  cutting_plane_feas (counting ora) sp opt (o, c0) s =
    Ok ((o', c0 + Nat.min (1 + k) (max_iters opt)), s', (r, k)).
Proof.
  intros E. destruct r as [x|].
  - apply feas_some_iff in E as (Hk & os & ss & Ho & Hs & Hst & Ea & -> & ->).
    apply feas_some_iff. split; auto. exists (fun i => (os i, c0 + i)), ss.
    rewrite Ho, Nat.add_0_r. repeat split; auto.
    + intros i Hi. destruct (Hst i Hi) as (cut & E1 & E2 & E3). exists cut. simpl.
      rewrite E1. rewrite Nat.add_succ_r. auto.
    + replace (c0 + Nat.min (1 + k) (max_iters opt)) with (1 + (c0 + k)) by lia.
      simpl. now rewrite Ea.
  - apply feas_none_iff in E as (os & ss & Ho & Hs & Hst & Hend).
    apply feas_none_iff. exists (fun i => (os i, c0 + i)), ss.
    rewrite Ho, Nat.add_0_r. repeat split; auto.
    + intros i Hi. destruct (Hst i Hi) as (cut & E1 & E2 & E3). exists cut. simpl.
      rewrite E1. rewrite Nat.add_succ_r. auto.
    + destruct Hend as [(Hk & cut & st & E1 & E2 & E3)|(-> & -> & ->)].
      * left. split; auto. exists cut, st.
        replace (c0 + Nat.min (1 + k) (max_iters opt)) with (1 + (c0 + k)) by lia.
        simpl. rewrite E1. auto.
      * right. repeat split; auto.
        replace (c0 + Nat.min (1 + max_iters opt) (max_iters opt)) with (c0 + max_iters opt) by lia. reflexivity.
Qed.

Lemma last_flagged_step {B} sh (val : nat -> B) (bs : nat -> option B) m :
  bs 0 = None -> (forall i, i < m -> bs (S i) = if sh i : bool then Some (val i) else bs i) ->
  last_flagged sh val m (bs m).
Proof.
  intros H0. induction m; intros H.
  - left. split; auto. intros i Hi; lia.
  - rewrite H by lia. destruct (sh m) eqn:E.
    + right. exists m. repeat split; auto; try lia.
    + destruct IHm as [[Hb Hf]|(i & Hi & Hs & Hj & Hb)].
      * intros i Hi. apply H. lia.
      * left. split; auto. intros i Hi. destruct (Nat.eq_dec i m) as [->|]; auto. apply Hf. lia.
      * right. exists i. repeat split; auto; try lia.
        intros j Hj2. destruct (Nat.eq_dec j m) as [->|]; auto. apply Hj. lia.
Qed.
Lemma last_flagged_fun {B} sh (val : nat -> B) m r1 r2 :
  last_flagged sh val m r1 -> last_flagged sh val m r2 -> r1 = r2.
Proof.
  intros [[-> H1]|(i & Hi & Hs & Hj & ->)] [[-> H2]|(i' & Hi' & Hs' & Hj' & ->)]; auto.
  - rewrite H1 in Hs' by auto. discriminate.
  - rewrite H2 in Hs by auto. discriminate.
  - destruct (Nat.lt_trichotomy i i') as [L|[->|L]]; auto.
    + rewrite Hj in Hs' by lia. discriminate.
    + rewrite Hj' in Hs by lia. discriminate.
Qed.
Lemma last_flagged_ext {B} sh sh' (val val' : nat -> B) m r :
  (forall i, i < m -> sh i = sh' i /\ val i = val' i) -> last_flagged sh val m r -> last_flagged sh' val' m r.
Proof.
  intros E [[-> H]|(i & Hi & Hs & Hj & ->)].
  - left. split; auto. intros i Hi. destruct (E i Hi) as [<- _]. auto.
  - right. exists i. destruct (E i Hi) as [<- <-]. repeat split; auto.
    intros j Hj'. destruct (E j) as [<- _]; auto. lia.
Qed.

(** * The optimiser *)
Section Optim.
Context {N : Num} {A C O S : Type}.
Variable ora : OracleOptim N A C O.
Variable sp : SearchSpace N A C S.
Variable opt : Options N.
Let tol := tolerance opt.

Definition optim_body (niter : nat) (p : O * S * N * option A)
  : res (ctl (O * S * N * option A) (O * S * N * (option A * nat))) :=
  let '(o, s, gamma, x_best) := p in
        '(o, gamma, (cut, shrunk)) <- ora o (sp_xc sp s) gamma ;;
        '(x_best, (s, status)) <-
           (if shrunk : bool
            then let x_best := Some (sp_xc sp s) in
                 r <- sp_update_central_cut sp s cut ;; Ok (x_best, r)
            else r <- sp_update_bias_cut sp s cut ;; Ok (x_best, r)) ;;
        if negb (is_success status) || (sp_tsq sp s <?! tolerance opt)
        then Ok (Done (o, s, gamma, (x_best, niter)))
        else Ok (Next (o, s, gamma, x_best)).

Lemma optim_unfold o s g :
  cutting_plane_optim ora sp opt o s g =
  (c <- loop_up (max_iters opt) 0 optim_body (o, s, g, None) ;;
   match c with
   | Done r => Ok r
   | Next (o, s, gamma, x_best) => Ok (o, s, gamma, (x_best, max_iters opt))
   end).
Proof. unfold cutting_plane_optim, loop_range. now rewrite Nat.sub_0_r. Qed.

(** the transition of one iteration *)
Definition otrans (o : O) (s : S) (g : N) (o' : O) (s' : S) (g' : N) (sh : bool) (st : CutStatus) : Prop :=
  exists cut, ora o (sp_xc sp s) g = Ok (o', g', (cut, sh)) /\
    (if sh then sp_update_central_cut sp s cut = Ok (s', st)
     else sp_update_bias_cut sp s cut = Ok (s', st)).
Definition obest (s : S) (sh : bool) (b : option A) := if sh then Some (sp_xc sp s) else b.

Lemma optim_body_iff i o s g b c :
  optim_body i (o, s, g, b) = Ok c <->
  exists o' s' g' sh st, otrans o s g o' s' g' sh st /\
    c = (if negb (is_success st) || (sp_tsq sp s' <?! tol)
         then Done (o', s', g', (obest s sh b, i)) else Next (o', s', g', obest s sh b)).
Proof.
  unfold optim_body, otrans. split.
  - intros E. apply bind_inv in E as ([[o1 g1] [cut sh]] & E1 & E).
    apply bind_inv in E as ([b1 [s1 st]] & E2 & E).
    exists o1, s1, g1, sh, st. destruct sh; apply bind_inv in E2 as ([s2 st2] & E2 & E3); inversion E3; subst.
    + split; [exists cut; auto|].
      simpl. unfold tol. destruct (negb (is_success st) || (sp_tsq sp s1 <?! tolerance opt)); inversion E; auto.
    + split; [exists cut; auto|].
      simpl. unfold tol. destruct (negb (is_success st) || (sp_tsq sp s1 <?! tolerance opt)); inversion E; auto.
  - intros (o' & s' & g' & sh & st & (cut & E1 & E2) & ->). rewrite E1. simpl.
    destruct sh; rewrite E2; simpl; unfold tol;
    destruct (negb (is_success st) || (sp_tsq sp s' <?! tolerance opt)); auto.
Qed.

Lemma optim_iff o s g o' s' g' xb k :
  cutting_plane_optim ora sp opt o s g = Ok (o', s', g', (xb, k)) <->
  exists q os ss gs sh, os 0 = o /\ ss 0 = s /\ gs 0 = g /\
    optim_run ora sp opt os ss gs sh k q /\
    o' = os q /\ s' = ss q /\ g' = gs q /\
    last_flagged sh (fun i => sp_xc sp (ss i)) q xb.
Proof.
  rewrite optim_unfold. split.
  - intros E. apply bind_inv in E as (c & E & E2).
    (* the common part of both endings *)
    assert (K : forall k (f : nat -> O * S * N * option A), f 0 = (o, s, g, None) -> nexts optim_body 0 k f ->
      exists sh : nat -> bool, forall i, i < k ->
        let '(oi, si, gi, bi) := f i in let '(o1, s1, g1, b1) := f (Datatypes.S i) in
        otrans oi si gi o1 s1 g1 (sh i) Success /\ (sp_tsq sp s1 <?! tol) = false /\ b1 = obest si (sh i) bi).
    { intros k0 f _ Hn.
      exists (fun i => match f i with (oi, si, gi, bi) =>
                match ora oi (sp_xc sp si) gi with Ok (_, _, (_, b)) => b | Panic => false end end).
      intros i Hi. specialize (Hn i Hi). simpl in Hn.
      destruct (f i) as [[[oi si] gi] bi]. destruct (f (Datatypes.S i)) as [[[o1 s1] g1] b1].
      apply optim_body_iff in Hn as (o2 & s2 & g2 & sh & st & Ht & Ec).
      destruct (negb (is_success st) || (sp_tsq sp s2 <?! tol)) eqn:Eb; inversion Ec; subst; clear Ec.
      apply cont_false in Eb as [-> Eb]. destruct Ht as (cut & Ea & Eu).
      rewrite Ea. repeat split; auto. exists cut. auto. }
    destruct c as [[[[o1 s1] g1] b1]|[[[o1 s1] g1] [b1 k1]]]; inversion E2; subst; clear E2.
    + apply loop_next_iff in E as (f & H0 & Hn & Hd). destruct (K _ f H0 Hn) as (sh & Hsh).
      exists (max_iters opt), (fun i => fst (fst (fst (f i)))), (fun i => snd (fst (fst (f i)))),
        (fun i => snd (fst (f i))), sh.
      rewrite H0, Hd. simpl. repeat split; auto.
      * specialize (Hsh i H). destruct (f i) as [[[oi si] gi] bi] eqn:E1. simpl in Hsh.
        destruct (f (Datatypes.S i)) as [[[o2 s2] g2] b2] eqn:E2. destruct Hsh as (Ht & Hq & Hb).
        unfold optim_step. simpl. rewrite E1, E2. exact Ht.
      * specialize (Hsh i H). destruct (f i) as [[[oi si] gi] bi] eqn:E1. simpl in Hsh.
        destruct (f (Datatypes.S i)) as [[[o2 s2] g2] b2] eqn:E2. destruct Hsh as (Ht & Hq & Hb). simpl. rewrite E2. exact Hq.
      * replace xb with (snd (f (max_iters opt))) by now rewrite Hd.
        apply last_flagged_step with (bs := fun i => snd (f i)); [now rewrite H0|].
        intros i H. specialize (Hsh i H). destruct (f i) as [[[oi si] gi] bi] eqn:E1.
        destruct (f (Datatypes.S i)) as [[[o2 s2] g2] b2] eqn:E2. destruct Hsh as (Ht & Hq & Hb). simpl. exact Hb.
    + apply loop_done_iff in E as (k' & f & Hk & H0 & Hn & Hd). destruct (K _ f H0 Hn) as (sh & Hsh).
      destruct (f k') as [[[ok sk] gk] bk] eqn:Ek.
      apply optim_body_iff in Hd as (o2 & s2 & g2 & shk & st & Ht & Ec).
      destruct (negb (is_success st) || (sp_tsq sp s2 <?! tol)) eqn:Eb; inversion Ec; subst; clear Ec.
      apply cont_true in Eb. simpl in *.
      exists (Datatypes.S k'), (upto (fun i => fst (fst (fst (f i)))) k' o2), (upto (fun i => snd (fst (fst (f i)))) k' s2),
        (upto (fun i => snd (fst (f i))) k' g2), (fun i => if i <? k' then sh i else shk).
      rewrite !upto_succ. rewrite !upto_le by lia. rewrite H0. repeat split; auto.
      * specialize (Hsh i H). destruct (f i) as [[[oi si] gi] bi] eqn:E1.
        destruct (f (Datatypes.S i)) as [[[o3 s3] g3] b3] eqn:E2. destruct Hsh as (Ht' & Hq & Hb).
        unfold optim_step. rewrite !upto_le by lia. simpl. rewrite E1, E2. simpl.
        apply Nat.ltb_lt in H. rewrite H. exact Ht'.
      * specialize (Hsh i H). destruct (f i) as [[[oi si] gi] bi] eqn:E1.
        destruct (f (Datatypes.S i)) as [[[o3 s3] g3] b3] eqn:E2. destruct Hsh as (Ht' & Hq & Hb).
        rewrite !upto_le by lia. simpl. rewrite E2. exact Hq.
      * left. repeat split; auto. exists st. simpl. rewrite !upto_succ. split; auto.
        unfold optim_step. simpl. rewrite !upto_succ. rewrite !upto_le by lia. rewrite Ek, Nat.ltb_irrefl. exact Ht.
      * set (bs := upto (fun i => snd (f i)) k' (obest sk shk bk)).
        replace (obest sk shk bk) with (bs (Datatypes.S k')) by (unfold bs; now rewrite upto_succ).
        apply last_flagged_step.
        -- unfold bs. rewrite upto_le by lia. now rewrite H0.
        -- intros i Hi. unfold bs. destruct (Nat.eq_dec i k') as [->|Hne].
           ++ rewrite upto_succ, !upto_le by lia. rewrite Nat.ltb_irrefl, Ek. reflexivity.
           ++ rewrite !upto_le by lia. assert (Hlt : i < k') by lia.
              specialize (Hsh i Hlt). destruct (f i) as [[[oi si] gi] bi] eqn:E1.
              destruct (f (Datatypes.S i)) as [[[o3 s3] g3] b3] eqn:E2. destruct Hsh as (Ht' & Hq & Hb).
              apply Nat.ltb_lt in Hlt. rewrite Hlt. simpl. exact Hb.
  - intros (q & os & ss & gs & sh & <- & <- & <- & [Hst Hend] & -> & -> & -> & Hl).
    set (bs := fix bs i := match i with 0 => None | Datatypes.S j => obest (ss j) (sh j) (bs j) end).
    assert (Hbs : forall m r, last_flagged sh (fun i => sp_xc sp (ss i)) m r -> r = bs m).
    { intros m r Hr. eapply last_flagged_fun; [exact Hr|]. apply last_flagged_step; auto. }
    assert (Hn : nexts optim_body 0 k (fun i => (os i, ss i, gs i, bs i))).
    { intros i Hi. destruct (Hst i Hi) as [Ht Hq]. apply optim_body_iff.
      exists (os (1 + i)), (ss (1 + i)), (gs (1 + i)), (sh i), Success. split; [exact Ht|].
      unfold tol. simpl. simpl in Hq. rewrite Hq. reflexivity. }
    destruct Hend as [(Hk & -> & st & Ht & Hq)|[-> ->]].
    + assert (L : loop_up (max_iters opt) 0 optim_body (os 0, ss 0, gs 0, None) =
         Ok (Done (os (1 + k), ss (1 + k), gs (1 + k), (xb, k)))).
      { apply loop_done_iff. exists k, (fun i => (os i, ss i, gs i, bs i)). repeat split; auto.
        apply optim_body_iff. exists (os (1 + k)), (ss (1 + k)), (gs (1 + k)), (sh k), st. split; [exact Ht|].
        apply cont_true in Hq. unfold tol. rewrite Hq. rewrite (Hbs _ _ Hl). reflexivity. }
      now rewrite L.
    + assert (L : loop_up (max_iters opt) 0 optim_body (os 0, ss 0, gs 0, None) =
         Ok (Next (os (max_iters opt), ss (max_iters opt), gs (max_iters opt), xb))).
      { apply loop_next_iff. exists (fun i => (os i, ss i, gs i, bs i)). repeat split; auto.
        now rewrite (Hbs _ _ Hl). }
      now rewrite L.
Qed.

(** The run is determined: an improvement is never overwritten by a worse one. *)
Lemma optim_paired (f : A -> N) (better : N -> N -> Prop)
  (Htrans : forall a b c, better a b -> better b c -> better a c)
  (Hora : forall o x g o' g' cut sh, ora o x g = Ok (o', g', (cut, sh)) ->
     if sh : bool then g' = f x /\ better g' g else g' = g)
  o s g o' s' g' xb k :
  cutting_plane_optim ora sp opt o s g = Ok (o', s', g', (xb, k)) ->
  exists q os ss gs sh, os 0 = o /\ ss 0 = s /\ gs 0 = g /\
    optim_run ora sp opt os ss gs sh k q /\ g' = gs q /\
    (forall i j, i <= j <= q -> gs j = gs i \/ better (gs j) (gs i)) /\
    (forall i, i < q -> sh i = true -> gs (1 + i) = f (sp_xc sp (ss i))) /\
    match xb with
    | None => g' = g /\ (forall i, i < q -> sh i = false)
    | Some x => g' = f x /\ better g' g
    end.
Proof.
  intros E. apply optim_iff in E as (q & os & ss & gs & sh & Ho & Hs & Hg & Hrun & -> & -> & -> & Hl).
  assert (Hstep : forall i, i < q -> if sh i then gs (1 + i) = f (sp_xc sp (ss i)) /\ better (gs (1 + i)) (gs i)
                                        else gs (1 + i) = gs i).
    { intros i Hi. destruct Hrun as [H1 H2].
      assert (exists st, optim_step ora sp os ss gs sh i st) as (st & cut & Ea & _).
      { destruct H2 as [(Hk & -> & st & Ht & _)|[-> ->]].
        - destruct (Nat.eq_dec i k) as [->|]; eauto. destruct (H1 i); eauto. lia.
        - destruct (H1 i); eauto. }
      apply Hora in Ea. exact Ea. }
  exists q, os, ss, gs, sh. split; [auto|]. split; [auto|]. split; [auto|]. split; [auto|]. split; [auto|].
  split; [|split].
  - intros i j [Hij Hjq]. induction Hij as [|j Hij IH]; auto.
    destruct IH as [IH|IH]; [lia| |]; specialize (Hstep j ltac:(lia)); destruct (sh j); simpl in Hstep.
    + destruct Hstep as [_ Hb]. right. congruence.
    + left. congruence.
    + destruct Hstep as [_ Hb]. right. eauto.
    + right. congruence.
  - intros i Hi Hsh. specialize (Hstep i Hi). rewrite Hsh in Hstep. tauto.
  - destruct Hl as [[-> Hf]|(i & Hi & Hsh & Hj & ->)].
    + split; auto. rewrite <- Hg. clear Hrun. induction q; auto.
      rewrite <- IHq.
      * specialize (Hstep q ltac:(lia)). rewrite Hf in Hstep by lia. exact Hstep.
      * intros i Hi. apply Hf. lia.
      * intros i Hi. apply Hstep. lia.
    + assert (Hgq : forall d, i + 1 + d <= q -> gs (i + 1 + d) = gs (i + 1)).
      { induction d; intros Hd; [now rewrite Nat.add_0_r|].
        rewrite <- IHd by lia. replace (i + 1 + Datatypes.S d) with (1 + (i + 1 + d)) by lia.
        specialize (Hstep (i + 1 + d) ltac:(lia)). rewrite Hj in Hstep by lia. exact Hstep. }
      assert (Hgi : forall j, j <= q -> gs j = gs 0 \/ better (gs j) (gs 0)).
      { induction j as [|j IHj]; intros Hjq; auto.
        specialize (Hstep j ltac:(lia)). destruct IHj as [IH|IH]; [lia| |]; destruct (sh j); simpl in Hstep.
        - right. destruct Hstep. congruence.
        - left; congruence.
        - right. destruct Hstep. eauto.
        - right. congruence. }
      specialize (Hgq (q - (i + 1)) ltac:(lia)). replace (i + 1 + (q - (i + 1))) with q in Hgq by lia.
      pose proof (Hstep i Hi) as Hsi. rewrite Hsh in Hsi. replace (1 + i) with (i + 1) in Hsi by lia.
      rewrite Hgq. destruct Hsi as [Ha Hb]. split; auto.
      rewrite <- Hg. destruct (Hgi i ltac:(lia)) as [E|E]; [congruence|eauto].
Qed.
End Optim.
