(** Proofs about cutting_plane_optim_q, BSearchAdaptor and bsearch. *)
From Coq Require Import ZArith List Bool Arith Lia.
From Verif Require Import Num Res CuttingPlane DriverSpec DriverProofs.

Section OptimQ.
Context {N : Num} {A C O S : Type}.
Variable ora : OracleOptimQ N A C O.
Variable sp : SearchSpace N A C S.
Variable opt : Options N.
Let tol := tolerance opt.
Let St := (O * S * N * option A * bool)%type.

Definition optim_q_body (niter : nat) (p : St) : res (ctl St (O * S * N * (option A * nat))) :=
  let '(o, s, gamma, x_best, retry) := p in
        '(o, gamma, (cut, shrunk, x_q, more_alt)) <- ora o (sp_xc sp s) gamma retry ;;
        let '(x_best, retry) := if shrunk : bool then (Some x_q, false) else (x_best, retry) in
        '(s, status) <- sp_update_q sp s cut ;;
        let fin (retry : bool) :=
          if sp_tsq sp s <?! tolerance opt
          then Ok (Done (o, s, gamma, (x_best, niter)))
          else Ok (Next (o, s, gamma, x_best, retry)) in
        match status with
        | Success => fin false
        | NoSoln => Ok (Done (o, s, gamma, (x_best, niter)))
        | NoEffect => if negb more_alt then Ok (Done (o, s, gamma, (x_best, niter))) else fin true
        | Unknown => fin retry
        end.

Lemma optim_q_unfold o s g :
  cutting_plane_optim_q ora sp opt o s g =
  (c <- loop_up (max_iters opt) 0 optim_q_body (o, s, g, None, false) ;;
   match c with
   | Done r => Ok r
   | Next (o, s, gamma, x_best, retry) => Ok (o, s, gamma, (x_best, max_iters opt))
   end).
Proof. unfold cutting_plane_optim_q, loop_range. now rewrite Nat.sub_0_r. Qed.

Definition qtrans (o : O) (s : S) (g : N) (r : bool) (o' : O) (s' : S) (g' : N)
    (sh : bool) (xq : A) (st : CutStatus) (more : bool) : Prop :=
  exists cut, ora o (sp_xc sp s) g r = Ok (o', g', (cut, sh, xq, more)) /\
              sp_update_q sp s cut = Ok (s', st).
Definition qbest (xq : A) (sh : bool) (b : option A) := if sh then Some xq else b.

Lemma q_next_iff i o s g b r o' s' g' b' r' :
  optim_q_body i (o, s, g, b, r) = Ok (Next (o', s', g', b', r')) <->
  exists sh xq st more, qtrans o s g r o' s' g' sh xq st more /\
    q_continues st more sh r r' /\ (sp_tsq sp s' <?! tol) = false /\ b' = qbest xq sh b.
Proof.
  unfold optim_q_body, qtrans, q_continues, qbest. split.
  - intros E. apply bind_inv in E as ([[o1 g1] [[[cut sh] xq] more]] & E1 & E).
    exists sh, xq. destruct sh;
    (apply bind_inv in E as ([s1 st] & E2 & E); exists st, more;
     destruct st; try discriminate E;
     [|destruct more; try discriminate E|];
     simpl in E; destruct (sp_tsq sp s1 <?! tolerance opt) eqn:Et; inversion E; subst;
     (repeat split; [exists cut; split; auto|auto 10|auto])).
  - intros (sh & xq & st & more & (cut & E1 & E2) & Hc & Ht & ->). rewrite E1. simpl.
    unfold tol in Ht.
    destruct sh; rewrite E2; simpl; rewrite Ht;
    destruct Hc as [[-> ->]|[(-> & -> & ->)|[-> ->]]]; reflexivity.
Qed.
Lemma q_done_iff i o s g b r o' s' g' b' ni :
  optim_q_body i (o, s, g, b, r) = Ok (Done (o', s', g', (b', ni))) <->
  exists sh xq st more, qtrans o s g r o' s' g' sh xq st more /\
    (q_stops st more \/ (sp_tsq sp s' <?! tol) = true) /\ b' = qbest xq sh b /\ ni = i.
Proof.
  unfold optim_q_body, qtrans, q_stops, qbest. split.
  - intros E. apply bind_inv in E as ([[o1 g1] [[[cut sh] xq] more]] & E1 & E).
    exists sh, xq. destruct sh;
    (apply bind_inv in E as ([s1 st] & E2 & E); exists st, more;
     destruct st;
     [ | |destruct more|];
     simpl in E; try (destruct (sp_tsq sp s1 <?! tolerance opt) eqn:Et); inversion E; subst;
     (split; [exists cut; split; auto|split; [auto 10|auto]])).
  - intros (sh & xq & st & more & (cut & E1 & E2) & Hc & -> & ->). rewrite E1. simpl.
    unfold tol in Hc.
    destruct sh; rewrite E2; simpl;
    destruct Hc as [[->|[-> ->]]|Ht]; simpl; auto; rewrite Ht;
    destruct st; auto; destruct more; auto.
Qed.

Lemma optim_q_iff o s g o' s' g' xb k :
  cutting_plane_optim_q ora sp opt o s g = Ok (o', s', g', (xb, k)) <->
  exists q os ss gs rs sh xq, os 0 = o /\ ss 0 = s /\ gs 0 = g /\
    optim_q_run ora sp opt os ss gs rs sh xq k q /\
    o' = os q /\ s' = ss q /\ g' = gs q /\ last_flagged sh xq q xb.
Proof.
  rewrite optim_q_unfold. split.
  - intros E. apply bind_inv in E as (c & E & E2).
    assert (K : forall k (f : nat -> St), nexts optim_q_body 0 k f ->
      exists (sh : nat -> bool) (xq : nat -> A), forall i, i < k ->
        let '(oi, si, gi, bi, ri) := f i in let '(o1, s1, g1, b1, r1) := f (Datatypes.S i) in
        exists st more, qtrans oi si gi ri o1 s1 g1 (sh i) (xq i) st more /\
        q_continues st more (sh i) ri r1 /\ (sp_tsq sp s1 <?! tol) = false /\ b1 = qbest (xq i) (sh i) bi).
    { intros k0 f Hn.
      exists (fun i => match f i with (oi, si, gi, bi, ri) =>
                match ora oi (sp_xc sp si) gi ri with Ok (_, _, (_, b, _, _)) => b | Panic => false end end),
             (fun i => match f i with (oi, si, gi, bi, ri) =>
                match ora oi (sp_xc sp si) gi ri with Ok (_, _, (_, _, x, _)) => x | Panic => sp_xc sp si end end).
      intros i Hi. specialize (Hn i Hi). simpl in Hn.
      destruct (f i) as [[[[oi si] gi] bi] ri]. destruct (f (Datatypes.S i)) as [[[[o1 s1] g1] b1] r1].
      apply q_next_iff in Hn as (sh & xq & st & more & Ht & Hc & Hq & Hb).
      destruct Ht as (cut & Ea & Eu). exists st, more. rewrite Ea. repeat split; auto.
      exists cut. auto. }
    destruct c as [[[[[o1 s1] g1] b1] r1]|[[[o1 s1] g1] [b1 k1]]]; inversion E2; subst; clear E2.
    + apply loop_next_iff in E as (f & H0 & Hn & Hd). destruct (K _ f Hn) as (sh & xq & Hsh).
      exists (max_iters opt), (fun i => fst (fst (fst (fst (f i))))), (fun i => snd (fst (fst (fst (f i))))),
        (fun i => snd (fst (fst (f i)))), (fun i => snd (f i)), sh, xq.
      rewrite H0, Hd. simpl. split; [auto|]. split; [auto|]. split; [auto|]. split; [|repeat split; auto].
      * split; [now rewrite H0|]. split; [|auto]. intros i Hi.
        specialize (Hsh i Hi). destruct (f i) as [[[[oi si] gi] bi] ri] eqn:E1.
        destruct (f (Datatypes.S i)) as [[[[o2 s2] g2] b2] r2] eqn:E2. destruct Hsh as (st & more & Ht & Hc & Hq & Hb).
        exists st, more. unfold optim_q_step. simpl. rewrite E1, E2. simpl. auto.
      * replace xb with (snd (fst (f (max_iters opt)))) by now rewrite Hd.
        apply last_flagged_step with (bs := fun i => snd (fst (f i))); [now rewrite H0|].
        intros i Hi. specialize (Hsh i Hi). destruct (f i) as [[[[oi si] gi] bi] ri] eqn:E1.
        destruct (f (Datatypes.S i)) as [[[[o2 s2] g2] b2] r2] eqn:E2. destruct Hsh as (st & more & Ht & Hc & Hq & Hb).
        simpl. exact Hb.
    + apply loop_done_iff in E as (k' & f & Hk & H0 & Hn & Hd). destruct (K _ f Hn) as (sh & xq & Hsh).
      destruct (f k') as [[[[ok sk] gk] bk] rk] eqn:Ek.
      apply q_done_iff in Hd as (shk & xqk & st & more & Ht & Hc & -> & Hni).
      simpl in Hni. subst k'.
      exists (Datatypes.S k), (upto (fun i => fst (fst (fst (fst (f i))))) k o'),
        (upto (fun i => snd (fst (fst (fst (f i))))) k s'),
        (upto (fun i => snd (fst (fst (f i)))) k g'), (fun i => snd (f i)),
        (fun i => if i <? k then sh i else shk), (fun i => if i <? k then xq i else xqk).
      rewrite !upto_succ. rewrite !upto_le by lia. rewrite H0.
      split; [auto|]. split; [auto|]. split; [auto|]. split; [|repeat split; auto].
      * split; [now rewrite H0|]. split.
        -- intros i Hi.
           specialize (Hsh i Hi). destruct (f i) as [[[[oi si] gi] bi] ri] eqn:E1.
           destruct (f (Datatypes.S i)) as [[[[o2 s2] g2] b2] r2] eqn:E2. destruct Hsh as (st' & more' & Ht' & Hc' & Hq & Hb).
           exists st', more'. unfold optim_q_step. rewrite !upto_le by lia. simpl. rewrite E1, E2. simpl.
           apply Nat.ltb_lt in Hi. rewrite Hi. auto.
        -- left. repeat split; auto. exists st, more. unfold optim_q_step. simpl.
           rewrite !upto_succ. rewrite !upto_le by lia. rewrite Nat.ltb_irrefl, Ek. simpl. auto.
      * set (bs := upto (fun i => snd (fst (f i))) k (qbest xqk shk bk)).
        replace (qbest xqk shk bk) with (bs (Datatypes.S k)) by (unfold bs; now rewrite upto_succ).
        apply last_flagged_step.
        -- unfold bs. rewrite upto_le by lia. now rewrite H0.
        -- intros i Hi. unfold bs. destruct (Nat.eq_dec i k) as [->|Hne].
           ++ rewrite upto_succ, !upto_le by lia. rewrite Nat.ltb_irrefl, Ek. reflexivity.
           ++ rewrite !upto_le by lia. assert (Hlt : i < k) by lia.
              specialize (Hsh i Hlt). destruct (f i) as [[[[oi si] gi] bi] ri] eqn:E1.
              destruct (f (Datatypes.S i)) as [[[[o2 s2] g2] b2] r2] eqn:E2. destruct Hsh as (st' & more' & Ht' & Hc' & Hq & Hb).
              apply Nat.ltb_lt in Hlt. rewrite Hlt. simpl. exact Hb.
  - intros (q & os & ss & gs & rs & sh & xq & <- & <- & <- & (Hr0 & Hst & Hend) & -> & -> & -> & Hl).
    set (bs := fix bs i := match i with 0 => None | Datatypes.S j => qbest (xq j) (sh j) (bs j) end).
    assert (Hbs : forall m r, last_flagged sh xq m r -> r = bs m).
    { intros m r Hr. eapply last_flagged_fun; [exact Hr|]. apply last_flagged_step; auto. }
    assert (Hn : nexts optim_q_body 0 k (fun i => (os i, ss i, gs i, bs i, rs i))).
    { intros i Hi. destruct (Hst i Hi) as (st & more & Ht & Hc & Hq). simpl in Ht, Hc, Hq. apply q_next_iff.
      exists (sh i), (xq i), st, more. repeat split; auto. }
    destruct Hend as [(Hk & -> & st & more & Ht & Hq)|[-> ->]].
    + assert (L : loop_up (max_iters opt) 0 optim_q_body (os 0, ss 0, gs 0, None, false) =
         Ok (Done (os (1 + k), ss (1 + k), gs (1 + k), (xb, k)))).
      { apply loop_done_iff. exists k, (fun i => (os i, ss i, gs i, bs i, rs i)). repeat split; auto.
        - now rewrite Hr0.
        - apply q_done_iff. exists (sh k), (xq k), st, more. repeat split; auto.
          now rewrite (Hbs _ _ Hl). }
      now rewrite L.
    + assert (L : loop_up (max_iters opt) 0 optim_q_body (os 0, ss 0, gs 0, None, false) =
         Ok (Next (os (max_iters opt), ss (max_iters opt), gs (max_iters opt), xb, rs (max_iters opt)))).
      { apply loop_next_iff. exists (fun i => (os i, ss i, gs i, bs i, rs i)). repeat split; auto.
        - now rewrite Hr0.
        - now rewrite (Hbs _ _ Hl). }
      now rewrite L.
Qed.
End OptimQ.

(** * bsearch over any number type *)
Section BSearch.
Context {N : Num} {B : Type}.
Variable ora : OracleBS N B.
Variable opt : Options N.
Let tol := tolerance opt.

Definition bsearch_body (u_orig : N) (niter : nat) (p : B * N * N)
  : res (ctl (B * N * N) (B * (bool * nat))) :=
  let '(b, lower, upper) := p in
           let tau := (upper -! lower) /! n2 in
           if tau <?! tolerance opt
           then Ok (Done (b, (negb (upper =?! u_orig), niter)))
           else
             let gamma := lower +! tau in
             '(b, feas) <- ora b gamma ;;
             if feas : bool then Ok (Next (b, lower, gamma)) else Ok (Next (b, gamma, upper)).

Lemma bsearch_unfold b l u :
  bsearch ora opt b (l, u) =
  assert (l <=?! u)
   (c <- loop_up (max_iters opt) 0 (bsearch_body u) (b, l, u) ;;
    match c with
    | Done (b, r) => Ok (b, (l, u), r)
    | Next (b, lower, upper) => Ok (b, (l, u), (negb (upper =?! u), max_iters opt))
    end).
Proof. unfold bsearch, loop_range. now rewrite Nat.sub_0_r. Qed.

Lemma bs_next_iff u0 i b l u b' l' u' :
  bsearch_body u0 i (b, l, u) = Ok (Next (b', l', u')) <->
  (bs_tau l u <?! tol) = false /\ exists ans,
  ora b (l +! bs_tau l u) = Ok (b', ans) /\
  (if ans : bool then l' = l /\ u' = l +! bs_tau l u else l' = l +! bs_tau l u /\ u' = u).
Proof.
  unfold bsearch_body, bs_tau, tol. destruct ((u -! l) /! n2 <?! tolerance opt).
  { split; [discriminate|]. intros [H _]. discriminate. }
  split.
  - intros E. split; auto. apply bind_inv in E as ([b1 ans] & E1 & E). exists ans.
    destruct ans; inversion E; subst; auto.
  - intros (_ & ans & E & H). rewrite E. simpl. destruct ans; destruct H as [-> ->]; auto.
Qed.
Lemma bs_nexts_iff u0 k (f : nat -> B * N * N) :
  nexts (bsearch_body u0) 0 k f <->
  exists ans, bs_steps ora tol k (fun i => fst (fst (f i))) (fun i => snd (fst (f i))) (fun i => snd (f i)) ans.
Proof.
  split.
  - intros H. exists (fun i => match f i with (b, l, u) =>
      match ora b (l +! bs_tau l u) with Ok (_, a) => a | Panic => false end end).
    intros i Hi. specialize (H i Hi). simpl in *.
    destruct (f i) as [[b l] u], (f (Datatypes.S i)) as [[b' l'] u']. simpl.
    apply bs_next_iff in H as (Ht & a & E & H). rewrite E. auto.
  - intros (ans & H) i Hi. specialize (H i Hi). simpl in *.
    destruct (f i) as [[b l] u], (f (Datatypes.S i)) as [[b' l'] u']. simpl in H.
    apply bs_next_iff. destruct H as (Ht & E & H). split; auto. exists (ans i). auto.
Qed.

Lemma bsearch_iff b l u b' iv flag k :
  bsearch ora opt b (l, u) = Ok (b', iv, (flag, k)) <->
  (l <=?! u) = true /\ iv = (l, u) /\
  exists bs lo hi ans, bs 0 = b /\ lo 0 = l /\ hi 0 = u /\
    bs_steps ora tol k bs lo hi ans /\ b' = bs k /\
    flag = negb (hi k =?! u) /\
    ((k < max_iters opt /\ (bs_tau (lo k) (hi k) <?! tol) = true) \/ k = max_iters opt).
Proof.
  rewrite bsearch_unfold. unfold assert. split.
  - intros E. destruct (l <=?! u); [|discriminate]. split; auto.
    apply bind_inv in E as ([[[b1 l1] u1]|[b1 [fl k1]]] & E & E2); inversion E2; subst; split; auto; clear E2.
    + apply loop_next_iff in E as (f & H0 & Hn & Hd). apply bs_nexts_iff in Hn as (ans & Hs).
      exists (fun i => fst (fst (f i))), (fun i => snd (fst (f i))), (fun i => snd (f i)), ans.
      rewrite H0, Hd. simpl. auto 10.
    + apply loop_done_iff in E as (k' & f & Hk & H0 & Hn & Hd). apply bs_nexts_iff in Hn as (ans & Hs).
      exists (fun i => fst (fst (f i))), (fun i => snd (fst (f i))), (fun i => snd (f i)), ans.
      rewrite H0. simpl in *. unfold bsearch_body in Hd. destruct (f k') as [[bk lk] uk] eqn:Ek.
      unfold bs_tau. destruct ((uk -! lk) /! n2 <?! tolerance opt) eqn:Et.
      * inversion Hd; subst. rewrite Ek. simpl. auto 12.
      * apply bind_inv in Hd as ([b2 a] & _ & Hd). destruct a; discriminate.
  - intros (-> & -> & bs & lo & hi & ans & Hb & Hl & Hu & Hs & -> & -> & He).
    assert (Hn : nexts (bsearch_body u) 0 k (fun i => (bs i, lo i, hi i))).
    { apply bs_nexts_iff. exists ans. exact Hs. }
    destruct He as [[Hk Ht]| ->].
    + assert (L : loop_up (max_iters opt) 0 (bsearch_body u) (b, l, u) = Ok (Done (bs k, (negb (hi k =?! u), k)))).
      { apply loop_done_iff. exists k, (fun i => (bs i, lo i, hi i)). repeat split; auto; [congruence|].
        simpl. unfold bs_tau, tol in Ht. now rewrite Ht. }
      now rewrite L.
    + assert (L : loop_up (max_iters opt) 0 (bsearch_body u) (b, l, u) =
          Ok (Next (bs (max_iters opt), lo (max_iters opt), hi (max_iters opt)))).
      { apply loop_next_iff. exists (fun i => (bs i, lo i, hi i)). repeat split; auto. congruence. }
      now rewrite L.
Qed.

Lemma bsearch_panic_iff b l u (Hora : forall b g, ora b g <> Panic) :
  bsearch ora opt b (l, u) = Panic <-> (l <=?! u) = false.
Proof.
  rewrite bsearch_unfold. unfold assert. destruct (l <=?! u); split; try discriminate; auto.
  intros E. exfalso.
  destruct (loop_up (max_iters opt) 0 (bsearch_body u) (b, l, u)) as [[[[b1 l1] u1]|[b1 r]]|] eqn:L; try discriminate.
  apply loop_panic_iff in L as (k & f & Hk & H0 & Hn & Hp). simpl in Hp. unfold bsearch_body in Hp.
  destruct (f k) as [[bk lk] uk].
  destruct ((uk -! lk) /! n2 <?! tolerance opt); [discriminate|].
  destruct (ora bk (lk +! (uk -! lk) /! n2)) as [[b2 []]|] eqn:Eo; try discriminate.
  now apply Hora in Eo.
Qed.
End BSearch.

(** * BSearchAdaptor *)
Section Adaptor.
Context {N : Num} {A C O S : Type}.
Variable ora : OracleFeas N A C O.
Variable sp : SearchSpace N A C S.

Lemma assess_bs_iff b gamma b' ans :
  assess_bs ora sp b gamma = Ok (b', ans) <->
  exists s' r k,
    cutting_plane_feas ora sp (ba_options b) (of_update ora (ba_omega b) gamma) (ba_space b)
      = Ok (ba_omega b', s', (r, k)) /\
    ba_options b' = ba_options b /\
    match r with
    | Some x => ans = true /\ ba_space b' = sp_set_xc sp (ba_space b) x
    | None => ans = false /\ ba_space b' = ba_space b
    end.
Proof.
  unfold assess_bs. split.
  - intros E. apply bind_inv in E as ([[o' s'] [r k]] & E & E2). exists s', r, k.
    destruct r; inversion E2; subst; simpl; auto.
  - intros (s' & r & k & E & Ho & Hr). rewrite E. simpl. destruct b' as [om sp' op]. simpl in *. subst op.
    destruct r as [x|]; destruct Hr as [-> ->]; reflexivity.
Qed.

(** [k] probes in sequence *)
Definition probes (k : nat) (bs : nat -> BSearchAdaptor N O S) (gs : nat -> N) (ans : nat -> bool) : Prop :=
  forall i, i < k -> assess_bs ora sp (bs i) (gs i) = Ok (bs (1 + i), ans i).

Lemma probes_space k bs gs ans
  (Hset : forall s x y, sp_set_xc sp (sp_set_xc sp s x) y = sp_set_xc sp s y) :
  probes k bs gs ans ->
  exists pts : nat -> A,
   (forall i, i < k -> ans i = true ->
      exists o' s' n, cutting_plane_feas ora sp (ba_options (bs 0)) (of_update ora (ba_omega (bs i)) (gs i)) (ba_space (bs i))
        = Ok (o', s', (Some (pts i), n))) /\
   ba_options (bs k) = ba_options (bs 0) /\
   exists last, last_flagged ans pts k last /\
     ba_space (bs k) = match last with None => ba_space (bs 0) | Some x => sp_set_xc sp (ba_space (bs 0)) x end.
Proof.
  intros H.
  assert (Hopt : forall i, i <= k -> ba_options (bs i) = ba_options (bs 0)).
  { induction i; intros Hi; auto. specialize (H i ltac:(lia)). apply assess_bs_iff in H as (s' & r & n & _ & Ho & _).
    simpl in Ho. rewrite Ho. apply IHi. lia. }
  pose (run i := cutting_plane_feas ora sp (ba_options (bs i)) (of_update ora (ba_omega (bs i)) (gs i)) (ba_space (bs i))).
  exists (fun i => match run i with Ok (_, _, (Some x, _)) => x | _ => sp_xc sp (ba_space (bs 0)) end).
  split; [|split].
  - intros i Hi Ha. pose proof (H i Hi) as Hp. apply assess_bs_iff in Hp as (s' & r & n & E & _ & Hr).
    fold (run i) in E. rewrite <- (Hopt i) by lia. fold (run i). rewrite E.
    destruct r as [x|]; destruct Hr as [Hans _]; [|congruence]. eauto.
  - apply Hopt. auto.
  - set (pts := fun i => match run i with Ok (_, _, (Some x, _)) => x | _ => sp_xc sp (ba_space (bs 0)) end).
    set (bst := fix bst i := match i with 0 => None | Datatypes.S j => if ans j then Some (pts j) else bst j end).
    exists (bst k). split; [apply last_flagged_step; auto|].
    clear Hopt. induction k as [|k IHk]; auto.
    assert (IH := IHk (fun i Hi => H i (Nat.lt_lt_succ_r _ _ Hi))). clear IHk.
    specialize (H k ltac:(lia)). simpl in H. apply assess_bs_iff in H as (s' & r & n & E & _ & Hr).
    fold (run k) in E. simpl.
    destruct r as [x|]; destruct Hr as [-> ->].
    + unfold pts at 1. rewrite E. rewrite IH. destruct (bst k); auto.
    + exact IH.
Qed.
End Adaptor.
