(** Whole runs: nothing is lost, and the classical iteration bounds. *)
From Coq Require Import Reals List Arith Lia Lra Psatz Bool ZArith.
From Verif Require Import Num Res Arr CuttingPlane EllCalc Ell EllRun ArrLemmas EllLemmas Spec RealLin CutScalar EllSpec EllReal EllCuts EllMore
  Det DetLemmas VolScalar VolProofs RunSpec.
Import ListNotations.
Open Scope R_scope.

(** partial correctness of loops *)
Lemma loop_part {S R} (P : nat -> S -> Prop) (Q : R -> Prop) (body : nat -> S -> res (ctl S R)) k : forall lo s,
  P lo s ->
  (forall i t t', (lo <= i < lo + k)%nat -> P i t -> body i t = Ok (Next t') -> P (Datatypes.S i) t') ->
  (forall i t r, (lo <= i < lo + k)%nat -> P i t -> body i t = Ok (Done r) -> Q r) ->
  match loop_up k lo body s with Ok (Next s') => P (lo + k)%nat s' | Ok (Done r) => Q r | Panic => True end.
Proof.
  induction k as [|k IH]; intros lo s H0 HN HD; simpl.
  - now rewrite Nat.add_0_r.
  - destruct (body lo s) as [[t|r]|] eqn:E; simpl; auto.
    + rewrite <- Nat.add_succ_comm. apply IH.
      * eapply HN; eauto. lia.
      * intros i u u' Hi. apply HN. lia.
      * intros i u r Hi. apply HD. lia.
    + eapply HD; eauto. lia.
Qed.

(** ** One step *)
Lemma offset_used m b : offset m b = used m b.
Proof. destruct m; reflexivity. Qed.

(** what a step of the drivers needs to know, for a cut type *)
Definition step_ok {C} (ct : CutType RNum C) (sat : mode -> C -> R -> Prop) (deep : C -> Prop) : Prop :=
  forall m n e g c, m = Bias \/ m = Central -> (2 <= n)%nat -> valid n e -> vecn n g -> 0 < width2 n e g -> deep c ->
  exists e' st, apply_cut (N := RNum) ct m e (g, c) = Ok (e', st) /\ valid n e' /\
    (forall x, pts n e x -> sat m c (along n (coords g) x (centre e)) -> pts n e' x) /\
    (st <> Success -> forall x, pts n e x -> ~ sat m c (along n (coords g) x (centre e))).
Definition shrink_ok {C} (ct : CutType RNum C) (sat : mode -> C -> R -> Prop) (deep : C -> Prop) : Prop :=
  forall m n e g c lo hi, m = Bias \/ m = Central -> (2 <= n)%nat -> proper n e -> vecn n g -> (exists i, (i < n)%nat /\ coords g i <> 0) ->
  deep c -> lo < hi -> - sqrt (width2 n e g) <= lo -> hi <= sqrt (width2 n e g) -> sat m c lo -> sat m c hi ->
  exists e', apply_cut (N := RNum) ct m e (g, c) = Ok (e', Success) /\ proper n e' /\ e_tsq e' = width2 n e g /\
    vol2 n e' <= rate n * vol2 n e /\
    (forall x, pts n e x -> sat m c (along n (coords g) x (centre e)) -> pts n e' x).

Lemma valid_with_tsq n e t : valid n e -> valid n (with_tsq e t).
Proof. intros []. constructor; auto. Qed.
Lemma single_step : step_ok single single_sat single_deep.
Proof.
  intros m n e g [beta] Hmode Hn V Hg Hw Hd. unfold single_deep in Hd. cbn in Hd. unfold single_sat. cbn [sc_beta].
  pose proof (INR_two n Hn) as Hm. pose proof (sqrt_lt_R0 _ Hw) as Hs.
  assert (Hss : sqrt (width2 n e g) * sqrt (width2 n e g) = width2 n e g) by (apply sqrt_sqrt; lra).
  destruct Hmode as [-> | ->].
  - rewrite apply_cut_core. set (str := cut_core (N := RNum) single Bias e (SC beta)).
    assert (E : str (width2 n e g) = calc_bias_cut (N := RNum) (calc_new n) beta (width2 n e g)) by (unfold str; simpl; rewrite (v_calc _ _ V); reflexivity).
    rewrite calc_bias_eq in E. destruct (Raux.Rlt_bool _ _) eqn:B.
    + apply Rlt_bool_iff in B. destruct (core_run n e g str _ _ _ _ V Hg E) as (e' & Er & H & _).
      exists e', NoSoln. rewrite H in * by discriminate. split; auto. split; [now apply valid_with_tsq|].
      split; [intros; now apply pts_with_tsq|]. intros _ x Hx Hc. cbn in Hc. pose proof (pts_range n e g x V Hx). nra.
    + apply Rlt_bool_no in B. assert (beta <= sqrt (width2 n e g)) by nra.
      destruct (core_deep n e g str beta Hn V Hg Hw ltac:(nra) H E) as (e' & Er & Hv & K).
      exists e', Success. split; [exact Er|]. split; [exact Hv|]. split; [exact K|congruence].
  - destruct (central_single n e g beta Hn V Hg Hw) as (e' & E & Hv & K). exists e', Success. split; auto. split; auto.
    split; [|congruence]. intros x Hx Hc. apply K; auto. cbn in Hc. lra.
Qed.
Lemma parallel_none m e g b0 : apply_cut (N := RNum) parallel m e (g, PC b0 None) = apply_cut (N := RNum) single m e (g, SC b0).
Proof. destruct m; reflexivity. Qed.
Lemma parallel_step : step_ok parallel parallel_sat parallel_deep.
Proof.
  intros m n e g [b0 [b1|]] Hmode Hn V Hg Hw Hd; unfold parallel_deep in Hd; cbn in Hd; unfold parallel_sat; cbn [pc_beta0 pc_beta1].
  2:{ rewrite parallel_none. destruct (single_step m n e g (SC b0) Hmode Hn V Hg Hw Hd) as (e' & st & E & Hv & K & L).
      exists e', st. split; auto. split; auto. split; [intros x Hx [Hc _]; apply K; auto|]. intros Hst x Hx [Hc _]. apply (L Hst x Hx Hc). }
  pose proof (INR_two n Hn) as Hm. pose proof (sqrt_lt_R0 _ Hw) as Hs.
  assert (Hss : sqrt (width2 n e g) * sqrt (width2 n e g) = width2 n e g) by (apply sqrt_sqrt; lra).
  pose proof (valid_width _ _ _ V Hg Hw) as [_ Ho].
  rewrite apply_cut_core. set (u := offset m b0). assert (Hu : 0 <= u) by (unfold u; destruct Hmode as [-> | ->]; cbn; lra).
  set (str := cut_core (N := RNum) parallel m e (PC b0 (Some b1))).
  set (goal := exists e' st, ell_update_core (N := RNum) e g str = Ok (e', st) /\ valid n e' /\
    (forall x, pts n e x -> along n (coords g) x (centre e) + u <= 0 /\ 0 <= along n (coords g) x (centre e) + b1 -> pts n e' x) /\
    (st <> Success -> forall x, pts n e x -> ~ (along n (coords g) x (centre e) + u <= 0 /\ 0 <= along n (coords g) x (centre e) + b1))).
  assert (Hno : str (width2 n e g) = (NoSoln, z3 (N := RNum)) -> b1 < u \/ sqrt (width2 n e g) < u -> goal).
  { intros E Hb. destruct (core_run n e g str _ _ _ _ V Hg E) as (e' & Er & H & _).
    exists e', NoSoln. rewrite H in * by discriminate. split; auto. split; [now apply valid_with_tsq|].
    split; [intros; now apply pts_with_tsq|]. intros _ x Hx Hc. pose proof (pts_range n e g x V Hx). lra. }
  assert (Hdeep : str (width2 n e g) = (Success, deep3 (INR n) (sqrt (width2 n e g)) u) -> u <= sqrt (width2 n e g) -> goal).
  { intros E Hb. destruct (core_deep n e g str u Hn V Hg Hw ltac:(nra) Hb E) as (e' & Er & Hv & K).
    exists e', Success. split; auto. split; auto. split; [|congruence]. intros x Hx [Hc _]. apply K; auto. }
  assert (Hpar : str (width2 n e g) = (Success, par3 (INR n) (width2 n e g) u b1) -> u <= b1 -> b1 < sqrt (width2 n e g) -> goal).
  { intros E H1 H2.
    assert (He : 0 <= width2 n e g + INR n * (u * b1)).
    { assert (0 <= INR n * (u * b1)) by (apply Rmult_le_pos; [lra|apply Rmult_le_pos; lra]). lra. }
    destruct (core_par n e g str u b1 Hn V Hg Hw H1 He E) as (e' & rho & sigma & delta & Ep & Er & Hst & K).
    exists e', Success. split; auto. split; [|split; [intros x Hx [Ha Hb]; apply K; auto|congruence]].
    unfold par3 in Ep. inversion Ep; subst rho sigma delta. clear Ep.
    eapply stepped_valid; [exact V|exact Hg|exact Ho| | |exact Hst].
    - apply (par_sigma_le (INR n)); auto; lra.
    - unfold Rdiv. apply Rmult_le_pos; [|left; now apply Rinv_0_lt_compat]. apply Rmult_le_pos.
      + apply Rmult_le_pos; [nra|left; apply Rinv_0_lt_compat; nra].
      + assert (u * u <= width2 n e g) by nra. assert (b1 * b1 <= width2 n e g) by nra.
        apply Rplus_le_le_0_compat; [lra|]. apply Rmult_le_pos; [apply sqrt_pos|left; apply Rinv_0_lt_compat; lra]. }
  assert (Hsmall : (Raux.Rlt_bool 0 b1 && Raux.Rle_bool (width2 n e g) (b1 * b1)) = false -> b1 < sqrt (width2 n e g)).
  { intros B. apply andb_false_iff in B as [B|B]; [apply Rlt_bool_no in B; lra|].
    apply Rle_bool_no in B. destruct (Rle_dec b1 0); [lra|nra]. }
  destruct Hmode as [-> | ->]; cbn [offset] in u.
  - assert (Estr : str (width2 n e g) = calc_parallel_bias_cut (N := RNum) (calc_new n) b0 b1 (width2 n e g))
      by (unfold str; simpl; rewrite (v_calc _ _ V); reflexivity).
    rewrite calc_par_bias_eq in Estr.
    destruct (Raux.Rlt_bool b1 b0) eqn:B1; [apply Rlt_bool_iff in B1; apply Hno; auto|]. apply Rlt_bool_no in B1.
    destruct (Raux.Rlt_bool 0 b1 && Raux.Rle_bool (width2 n e g) (b1 * b1)) eqn:B2; cbn [orb] in Estr; [|now apply Hpar; auto].
    rewrite calc_bias_eq in Estr. destruct (Raux.Rlt_bool _ (b0 * b0)) eqn:B4.
    + apply Rlt_bool_iff in B4. apply Hno; auto. right. unfold u in *. nra.
    + apply Rlt_bool_no in B4. apply Hdeep; auto. unfold u in *. nra.
  - assert (Estr : str (width2 n e g) = calc_parallel_central_cut (N := RNum) (calc_new n) b1 (width2 n e g))
      by (unfold str; simpl; rewrite (v_calc _ _ V); reflexivity).
    rewrite calc_par_central_eq in Estr.
    destruct (Raux.Rlt_bool b1 0) eqn:B1; [apply Rlt_bool_iff in B1; apply Hno; auto|]. apply Rlt_bool_no in B1.
    destruct (Raux.Rle_bool (width2 n e g) (b1 * b1)) eqn:B2; cbn [orb] in Estr.
    + rewrite calc_central_eq, central_deep in Estr by (auto; lia). apply Hdeep; auto. unfold u. lra.
    + apply Rle_bool_no in B2. rewrite parc3_par3 in Estr by auto. apply Hpar; auto. nra.
Qed.
Lemma single_shrink : shrink_ok single single_sat single_deep.
Proof.
  intros m n e g [beta] lo hi Hmode Hn HP Hg Hnz Hd Hlh Hlo Hhi S1 S2. unfold single_deep in Hd. unfold single_sat in *. cbn [sc_beta] in *.
  pose proof (INR_two n Hn) as Hm. pose proof (proper_width _ _ _ HP Hg Hnz) as Hw. pose proof (sqrt_lt_R0 _ Hw) as Hs.
  destruct (single_all m n e g beta Hn HP Hg Hnz) as (e' & st & E & R1 & R2 & R3 & R4 & R5).
  - destruct Hmode as [-> | ->]; cbn in *; auto. split; [|lra].
    apply Rle_trans with 0; auto. assert (0 < sqrt (width2 n e g) / INR n) by (apply Rdiv_lt_0_compat; lra). lra.
  - rewrite offset_used in *. destruct R4 as [-> R4]; [destruct Hmode as [-> | ->]; cbn; lra|]. exists e'. auto.
Qed.
Lemma parallel_shrink : shrink_ok parallel parallel_sat parallel_deep.
Proof.
  intros m n e g [b0 [b1|]] lo hi Hmode Hn HP Hg Hnz Hd Hlh Hlo Hhi S1 S2; unfold parallel_deep in Hd; unfold parallel_sat in *; cbn [pc_beta0 pc_beta1] in *.
  - pose proof (INR_two n Hn) as Hm. pose proof (proper_width _ _ _ HP Hg Hnz) as Hw. pose proof (sqrt_lt_R0 _ Hw) as Hs.
    rewrite offset_used in *.
    assert (Hu : 0 <= used m b0) by (destruct Hmode as [-> | ->]; cbn; lra).
    destruct (parallel_all m n e g b0 b1 Hn HP Hg Hnz) as (e' & st & E & R1 & R2 & R3 & R4 & R5).
    + split; [lra|]. split; [lra|]. split; [lra|]. intros ->. cbn [used] in *.
      assert (0 <= INR n * (b0 * b1)) by (apply Rmult_le_pos; [lra|apply Rmult_le_pos; lra]). lra.
    + destruct (R4 Hu) as [-> R4']. exists e'. do 4 (split; auto). intros x Hx Hc. apply R5. split; auto. lra.
  - rewrite parallel_none. destruct S1 as [S1 _], S2 as [S2 _].
    destruct (single_shrink m n e g (SC b0) lo hi Hmode Hn HP Hg Hnz Hd Hlh Hlo Hhi S1 S2) as (e' & E & R1 & R2 & R3 & R4).
    exists e'. do 4 (split; auto). intros x Hx [Hc _]. apply R4; auto.
Qed.

Lemma classic_nz n (v : vec) : (exists i, (i < n)%nat /\ v i <> 0) \/ (forall i, (i < n)%nat -> v i = 0).
Proof.
  induction n as [|n IH]; [right; intros; lia|]. destruct IH as [(i & Hi & Hv)|H]; [left; exists i; split; auto|].
  destruct (Req_dec (v n) 0) as [E|E]; [right|left; exists n; split; auto]. intros i Hi. destruct (Nat.eq_dec i n) as [->|]; auto. apply H. lia.
Qed.

Lemma cols_kept {C} (ct : CutType RNum C) m n (e : Ell RNum) g c e' st : ell_wf n e -> vecn n g ->
  apply_cut (N := RNum) ct m e (g, c) = Ok (e', st) -> acols (e_xc e') = acols (e_xc e).
Proof.
  intros Hw Hg E. rewrite apply_cut_core in E.
  destruct (ell_update_core_ok (N := RNum) n e g (cut_core (N := RNum) ct m e c) Hw Hg) as (e2 & st2 & rho & sigma & delta & _ & E2 & _ & _ & _ & _ & _ & Hc & _).
  rewrite E in E2. inversion E2; subst. exact Hc.
Qed.

(** ** Runs *)
Section Run.
Context {C O : Type} (ct : CutType RNum C) (sat : mode -> C -> R -> Prop) (deep : C -> Prop).
Hypothesis Hstep : step_ok ct sat deep.
Variables (n : nat) (Inv : O -> Prop) (InvL : O -> R -> Prop).
Hypothesis Hn : (2 <= n)%nat.

Lemma tsq_nonneg n' (e : Ell RNum) g : valid n' e -> 0 <= width2 n' e g.
Proof. intros V. apply Rmult_le_pos; apply V. Qed.

Lemma feas_keeps K (ora : OracleFeas RNum (Arr RNum) C O) (opt : Options RNum) o (e : Ell RNum) o' e' ans k :
  feas_cuts sat deep n Inv K ora -> Inv o -> valid n e -> vecn n (e_xc e) -> 0 < tolerance opt ->
  cutting_plane_feas ora (ell_space (N := RNum) ct) opt o e = Ok (o', e', (ans, k)) ->
  (e_tsq e' <> 0 \/ e' = e -> forall x, K x -> pts n e x -> pts n e' x) /\
  (ans = None -> (k < max_iters opt)%nat -> tolerance opt <= e_tsq e' -> forall x, K x -> ~ pts n e x).
Proof.
  intros Hc Ho V Hxc Ht E. unfold cutting_plane_feas in E. apply bind_inv in E as (c & E & Ek).
  unfold loop_range in E. match type of E with loop_up ?k ?lo ?body ?st = _ =>
    pose proof (loop_part (fun _ '((o, s) : O * Ell RNum) => Inv o /\ (valid n s /\ vecn n (e_xc s)) /\ forall x, K x -> pts n e x -> pts n s x)
      (fun '((_, s, (an, _)) : O * Ell RNum * (option (Arr RNum) * nat)) => (e_tsq s <> 0 \/ s = e -> forall x, K x -> pts n e x -> pts n s x) /\
         (an = None -> tolerance opt <= e_tsq s -> forall x, K x -> ~ pts n e x)) body k lo st) as L end.
  rewrite E in L. clear E.
  assert (U : forall s g c s2 st, valid n s -> vecn n g -> deep c ->
    sp_update_bias_cut (ell_space (N := RNum) ct) s (g, c) = Ok (s2, st) -> 0 <= e_tsq s2 /\ (0 < e_tsq s2 -> valid n s2 /\
      (forall x, pts n s x -> sat Bias c (along n (coords g) x (centre s)) -> pts n s2 x) /\
      (st <> Success -> forall x, pts n s x -> ~ sat Bias c (along n (coords g) x (centre s))))).
  { intros s g c0 s2 st HV Hg Hd Eu. pose proof (tsq_is_width ct Bias n s g c0 s2 st HV Hg Eu) as Et. rewrite Et.
    split; [now apply tsq_nonneg|]. intros Hw.
    destruct (Hstep Bias n s g c0 (or_introl eq_refl) Hn HV Hg Hw Hd) as (e2 & st2 & E2 & HV2 & HK2).
    change (sp_update_bias_cut (ell_space (N := RNum) ct) s (g, c0)) with (apply_cut (N := RNum) ct Bias s (g, c0)) in Eu.
    rewrite Eu in E2. inversion E2; subst e2 st2. auto. }
  specialize (L ltac:(auto)).
  assert (LL : match c with Next (_, s) => forall x, K x -> pts n e x -> pts n s x
    | Done (_, s, (an, _)) => (e_tsq s <> 0 \/ s = e -> forall x, K x -> pts n e x -> pts n s x) /\
         (an = None -> tolerance opt <= e_tsq s -> forall x, K x -> ~ pts n e x) end).
  2:{ destruct c as [[o1 s1]|[[o1 s1] [an kk]]]; inversion Ek; subst.
      - split; auto. lia.
      - destruct LL as [L1 L2]. split; auto. }
  clear Ek. match type of L with ?A -> ?B -> _ => assert (A1 : A); [|specialize (L A1); assert (B1 : B)] end.
  - intros i [o1 s1] [o2 s2] _ (HI & [HV HX] & HK) EB. apply bind_inv in EB as ([o3 an] & Ea & EB).
    destruct (Hc _ _ _ _ HI HX Ea) as [HI' Hans].
    destruct an as [[g c0]|]; [|discriminate]. destruct Hans as (Hg & Hd & Hsat).
    apply bind_inv in EB as ([s3 st] & Eu & EB).
    destruct (negb (is_success st) || _) eqn:B; [discriminate|]. inversion EB; subst o3 s3. clear EB.
    apply orb_false_iff in B as [B1 B2]. cbn in B2. apply Rlt_bool_no in B2.
    destruct (U s1 g c0 s2 st HV Hg Hd Eu) as [_ U1]. destruct (U1 ltac:(lra)) as (HV2 & HK2 & _).
    split; [exact HI'|]. split; [split; [exact HV2|]|auto]. split; [apply (v_xc _ _ HV2)|]. rewrite (cols_kept ct Bias n s1 g c0 s2 st (valid_wf _ _ HV) Hg Eu). apply HX.
  - intros i [o1 s1] [[o2 s2] [an kk]] _ (HI & [HV HX] & HK) EB. apply bind_inv in EB as ([o3 an'] & Ea & EB).
    destruct (Hc _ _ _ _ HI HX Ea) as [HI' Hans].
    destruct an' as [[g c0]|]; [|inversion EB; subst; split; [auto|discriminate]]. destruct Hans as (Hg & Hd & Hsat).
    apply bind_inv in EB as ([s3 st] & Eu & EB).
    destruct (negb (is_success st) || _) eqn:B; [|discriminate]. inversion EB; subst o3 s3 an kk. clear EB.
    destruct (U s1 g c0 s2 st HV Hg Hd Eu) as [U0 U1]. split.
    + intros [Hne| ->]; auto. destruct U1 as (HV2 & HK2 & _); [lra|]. auto.
    + intros _ Ht2 x Hx Hp. destruct U1 as (HV2 & HK2 & HN); [lra|].
      apply orb_true_iff in B as [B|B]; [|cbn in B; apply Rlt_bool_iff in B; lra].
      apply (HN ltac:(intros ->; discriminate) x (HK x Hx Hp)). apply Hsat. auto.
  - specialize (L B1). destruct c as [[o1 s1]|[[o1 s1] [an kk]]]; [apply L|exact L].
Qed.

Lemma optim_keeps beats (ora : OracleOptim RNum (Arr RNum) C O) (opt : Options RNum) o (e : Ell RNum) (gamma : R) o' e' (gamma' : R) ans k :
  optim_cuts sat deep n InvL beats ora -> InvL o gamma -> valid n e -> vecn n (e_xc e) -> 0 < tolerance opt ->
  cutting_plane_optim ora (ell_space (N := RNum) ct) opt o e gamma = Ok (o', e', gamma', (ans, k)) ->
  (e_tsq e' <> 0 \/ e' = e -> forall y, beats y gamma' -> pts n e y -> pts n e' y) /\
  ((k < max_iters opt)%nat -> tolerance opt <= e_tsq e' -> forall y, pts n e y -> ~ beats y gamma').
Proof.
  intros Hc Ho V Hxc Ht E. unfold cutting_plane_optim in E. apply bind_inv in E as (c & E & Ek).
  unfold loop_range in E. match type of E with loop_up ?k ?lo ?body ?st = _ =>
    pose proof (loop_part (fun _ '((o, s, ga, _) : O * Ell RNum * num RNum * option (Arr RNum)) => InvL o ga /\ (valid n s /\ vecn n (e_xc s)) /\ forall y, beats y ga -> pts n e y -> pts n s y)
      (fun '((_, s, ga, _) : O * Ell RNum * num RNum * (option (Arr RNum) * nat)) => (e_tsq s <> 0 \/ s = e -> forall y, beats y ga -> pts n e y -> pts n s y) /\
         (tolerance opt <= e_tsq s -> forall y, pts n e y -> ~ beats y ga)) body k lo st) as L end.
  rewrite E in L. clear E.
  assert (U : forall m s g c s2 st, m = Bias \/ m = Central -> valid n s -> vecn n g -> deep c ->
    apply_cut (N := RNum) ct m s (g, c) = Ok (s2, st) -> 0 <= e_tsq s2 /\ (0 < e_tsq s2 -> valid n s2 /\
      (forall x, pts n s x -> sat m c (along n (coords g) x (centre s)) -> pts n s2 x) /\
      (st <> Success -> forall x, pts n s x -> ~ sat m c (along n (coords g) x (centre s))))).
  { intros m s g c0 s2 st Hmm HV Hg Hd Eu. pose proof (tsq_is_width ct m n s g c0 s2 st HV Hg Eu) as Et. rewrite Et.
    split; [now apply tsq_nonneg|]. intros Hw.
    destruct (Hstep m n s g c0 Hmm Hn HV Hg Hw Hd) as (e2 & st2 & E2 & HV2 & HK2).
    rewrite Eu in E2. inversion E2; subst e2 st2. auto. }
  assert (D : forall (sh : bool) s (xb : option (Arr RNum)) cut xb2 s2 st,
    (if sh then (let x_best := Some (sp_xc (ell_space (N := RNum) ct) s) in
                 r <- sp_update_central_cut (ell_space (N := RNum) ct) s cut ;; Ok (x_best, r))
            else r <- sp_update_bias_cut (ell_space (N := RNum) ct) s cut ;; Ok (xb, r)) = Ok (xb2, (s2, st)) ->
    apply_cut (N := RNum) ct (if sh then Central else Bias) s cut = Ok (s2, st)).
  { intros sh s xb cut xb2 s2 st E. destruct sh; cbv zeta in E; apply bind_inv in E as (r & E & E'); inversion E'; subst; exact E. }
  assert (HM : forall sh : bool, (if sh then Central else Bias) = Bias \/ (if sh then Central else Bias) = Central) by (intros []; auto).
  specialize (L ltac:(auto)).
  match type of L with ?A -> ?B -> _ => assert (A1 : A); [|specialize (L A1); assert (B1 : B)] end.
  - intros i [[[o1 s1] ga1] xb1] [[[o2 s2] ga2] xb2] _ (HI & [HV HX] & HK) EB. apply bind_inv in EB as ([[o3 ga3] [[g c0] sh]] & Ea & EB).
    destruct (Hc _ _ _ _ _ _ _ _ HI HX Ea) as (HI' & Hg & Hd & _ & Hmono & Hsat).
    apply bind_inv in EB as ([xb3 [s3 st]] & Eu & EB). apply D in Eu.
    destruct (negb (is_success st) || _) eqn:B; [discriminate|]. inversion EB; subst o3 s3 ga3 xb3. clear EB.
    apply orb_false_iff in B as [B1 B2]. cbn in B2. apply Rlt_bool_no in B2.
    destruct (U _ s1 g c0 s2 st (HM sh) HV Hg Hd Eu) as [_ U1]. destruct (U1 ltac:(lra)) as (HV2 & HK2 & _).
    split; [exact HI'|]. split; [split; [exact HV2|split; [apply (v_xc _ _ HV2)|rewrite (cols_kept ct _ n s1 g c0 s2 st (valid_wf _ _ HV) Hg Eu); apply HX]]|]. intros y Hy Hp. apply HK2; [|apply Hsat; auto]. apply HK; auto.
  - intros i [[[o1 s1] ga1] xb1] [[[o2 s2] ga2] [an kk]] _ (HI & [HV HX] & HK) EB. apply bind_inv in EB as ([[o3 ga3] [[g c0] sh]] & Ea & EB).
    destruct (Hc _ _ _ _ _ _ _ _ HI HX Ea) as (HI' & Hg & Hd & _ & Hmono & Hsat).
    apply bind_inv in EB as ([xb3 [s3 st]] & Eu & EB). apply D in Eu.
    destruct (negb (is_success st) || _) eqn:B; [|discriminate]. inversion EB; subst o3 s3 ga3 xb3 kk. clear EB.
    destruct (U _ s1 g c0 s2 st (HM sh) HV Hg Hd Eu) as [U0 U1]. split.
    + intros [Hne| ->]; auto. destruct U1 as (HV2 & HK2 & _); [lra|]. intros y Hy Hp. apply HK2; [|apply Hsat; auto]. apply HK; auto.
    + intros Ht2 y Hp Hy. destruct U1 as (HV2 & HK2 & HN); [lra|].
      apply orb_true_iff in B as [B|B]; [|cbn in B; apply Rlt_bool_iff in B; lra].
      apply (HN ltac:(intros ->; discriminate) y (HK y (Hmono y Hy) Hp)). apply Hsat. auto.
  - specialize (L B1). destruct c as [[[[o1 s1] ga1] xb1]|[[[o1 s1] ga1] [an kk]]]; inversion Ek; subst.
    + split; [intros _; apply L|lia].
    + destruct L as [L1 L2]. split; auto.
Qed.

(** ** The ball *)
Variables (z : vec) (r : R).
Hypothesis Hr : 0 < r.
Lemma ball_width (e : Ell RNum) v : valid n e -> (forall x, ball n z r x -> pts n e x) -> 0 < dot n v v ->
  let s := r / sqrt (dot n v v) in
  ball n z r (fun i => z i - s * v i) /\ ball n z r (fun i => z i + s * v i) /\
  r * r * dot n v v <= kap e * quad n (shape n e) v.
Proof.
  intros V HB Hv s. set (nv := sqrt (dot n v v)) in *.
  assert (Hnv : 0 < nv) by (apply sqrt_lt_R0; auto).
  assert (Hsq : nv * nv = dot n v v) by (apply sqrt_sqrt; lra).
  assert (Hs : s * s * dot n v v = r * r) by (rewrite <- Hsq; unfold s; field; lra).
  assert (B1 : ball n z r (fun i => z i - s * v i)).
  { unfold ball. right. rewrite (dot_ext n _ _ (fun i => (- s) * v i) (fun i => (- s) * v i)) by (intros; ring).
    rewrite dot_scal_l, dot_scal_r. lra. }
  assert (B2 : ball n z r (fun i => z i + s * v i)).
  { unfold ball. right. rewrite (dot_ext n _ _ (fun i => s * v i) (fun i => s * v i)) by (intros; ring).
    rewrite dot_scal_l, dot_scal_r. lra. }
  split; auto. split; auto.
  pose proof (width_bound n _ _ _ v (v_sym _ _ V) (v_psd _ _ V) _ (HB _ B1)) as W1.
  pose proof (width_bound n _ _ _ v (v_sym _ _ V) (v_psd _ _ V) _ (HB _ B2)) as W2.
  set (a := along n v z (centre e)).
  assert (E1 : along n v (fun i => z i - s * v i) (centre e) = a - r * nv).
  { unfold a, along. rewrite (dot_ext n v _ v (fun i => (z i - centre e i) - s * v i)) by (intros; ring).
    rewrite dot_minus_r, dot_scal_r. rewrite <- Hsq. unfold s. field. lra. }
  assert (E2 : along n v (fun i => z i + s * v i) (centre e) = a + r * nv).
  { unfold a, along. rewrite (dot_ext n v _ v (fun i => (z i - centre e i) + s * v i)) by (intros; ring).
    rewrite dot_plus_r, dot_scal_r. rewrite <- Hsq. unfold s. field. lra. }
  rewrite E1 in W1. rewrite E2 in W2. rewrite <- Hsq. assert (0 <= a * a) by apply Rle_0_sqr. lra.
Qed.
Lemma ball_volume (e : Ell RNum) : valid n e -> (forall x, ball n z r x -> pts n e x) -> (r * r) ^ n <= vol2 n e.
Proof.
  intros V HB. unfold vol2. rewrite <- det_scale. apply det_lower; [nra| |].
  - intros i j Hi Hj. now rewrite (v_sym _ _ V i j Hi Hj).
  - intros x. rewrite quad_smul. destruct (Rle_lt_or_eq_dec _ _ (dot_self_nonneg n x)) as [Hx|Hx].
    + apply (ball_width e x V HB Hx).
    + rewrite <- Hx. rewrite Rmult_0_r. apply Rmult_le_pos; apply V.
Qed.

Hypothesis Hshrink : shrink_ok ct sat deep.
Lemma ball_step m (e : Ell RNum) g c : m = Bias \/ m = Central -> proper n e -> vecn n g -> 0 < dot n (coords g) (coords g) ->
  deep c -> (forall x, ball n z r x -> pts n e x) -> (forall x, ball n z r x -> sat m c (along n (coords g) x (centre e))) ->
  exists e', apply_cut (N := RNum) ct m e (g, c) = Ok (e', Success) /\ proper n e' /\
    e_tsq e' = width2 n e g /\ vol2 n e' <= rate n * vol2 n e /\ (forall x, ball n z r x -> pts n e' x).
Proof.
  intros Hmm HP Hg Hv Hd HB HS. pose proof HP as (V & _ & _).
  assert (Hnz : exists i, (i < n)%nat /\ coords g i <> 0).
  { destruct (classic_nz n (coords g)) as [H|H]; auto. exfalso. unfold dot in Hv. rewrite Rsum_zero in Hv; [lra|]. intros i Hi. rewrite H by auto. ring. }
  destruct (ball_width e (coords g) V HB Hv) as (B1 & B2 & HW).
  set (s := r / sqrt (dot n (coords g) (coords g))) in *. set (a := along n (coords g) z (centre e)).
  assert (Hs : 0 < s) by (apply Rdiv_lt_0_compat; auto; now apply sqrt_lt_R0).
  assert (E1 : along n (coords g) (fun i => z i - s * coords g i) (centre e) = a - s * dot n (coords g) (coords g)).
  { unfold a, along. rewrite (dot_ext n (coords g) _ (coords g) (fun i => (z i - centre e i) - s * coords g i)) by (intros; ring).
    now rewrite dot_minus_r, dot_scal_r. }
  assert (E2 : along n (coords g) (fun i => z i + s * coords g i) (centre e) = a + s * dot n (coords g) (coords g)).
  { unfold a, along. rewrite (dot_ext n (coords g) _ (coords g) (fun i => (z i - centre e i) + s * coords g i)) by (intros; ring).
    now rewrite dot_plus_r, dot_scal_r. }
  pose proof (pts_range n e g _ V (HB _ B1)) as R1. pose proof (pts_range n e g _ V (HB _ B2)) as R2.
  pose proof (HS _ B1) as S1. pose proof (HS _ B2) as S2. rewrite E1 in *. rewrite E2 in *.
  assert (0 < s * dot n (coords g) (coords g)) by (apply Rmult_lt_0_compat; auto).
  destruct (Hshrink m n e g c (a - s * dot n (coords g) (coords g)) (a + s * dot n (coords g) (coords g)) Hmm Hn HP Hg Hnz Hd ltac:(lra) (proj1 R1) (proj2 R2) S1 S2) as (e' & E & P1 & P2 & P3 & P4).
  exists e'. split; auto. split; auto.
Qed.
(** how wide the ellipsoid is along a gradient: by its norm, or by the depth of the point z *)
Lemma wide_norm (e : Ell RNum) g gmin : proper n e -> (forall x, ball n z r x -> pts n e x) -> 0 < gmin -> gmin * gmin <= dot n (coords g) (coords g) ->
  0 < dot n (coords g) (coords g) /\ (r * gmin) * (r * gmin) <= width2 n e g.
Proof.
  intros HP HB Hgm Hgg. pose proof HP as (V & _ & _). assert (Hv : 0 < dot n (coords g) (coords g)) by nra. split; auto.
  destruct (ball_width e (coords g) V HB Hv) as (_ & _ & HW). unfold width2. eapply Rle_trans; [|exact HW].
  assert (0 <= r * r * (dot n (coords g) (coords g) - gmin * gmin)) by (apply Rmult_le_pos; nra). lra.
Qed.
Lemma ball_centre : ball n z r z.
Proof. unfold ball. rewrite (dot_ext n _ _ (fun _ => 0) (fun _ => 0)) by (intros; ring). unfold dot. rewrite Rsum_zero by (intros; ring). nra. Qed.
Lemma wide_margin (e : Ell RNum) g rho : proper n e -> (forall x, ball n z r x -> pts n e x) -> 0 < rho -> along n (coords g) z (centre e) <= - rho ->
  0 < dot n (coords g) (coords g) /\ rho * rho <= width2 n e g.
Proof.
  intros HP HB Hr0 Ha. pose proof HP as (V & _ & _). split.
  - destruct (Rle_lt_or_eq_dec _ _ (dot_self_nonneg n (coords g))) as [H|H]; auto. exfalso.
    destruct (classic_nz n (coords g)) as [(i & Hi & Hz)|Hz].
    + apply Hz. apply (dot_self_zero n (coords g)); auto.
    + unfold along, dot in Ha. rewrite Rsum_zero in Ha; [lra|]. intros i Hi. rewrite Hz by auto. ring.
  - pose proof (width_bound n _ _ _ (coords g) (v_sym _ _ V) (v_psd _ _ V) _ (HB _ ball_centre)) as W. unfold width2. nra.
Qed.
Lemma rate_bound (e e' : Ell RNum) k : proper n e -> vol2 n e' <= rate n ^ k * vol2 n e -> (r * r) ^ n <= vol2 n e' ->
  INR k <= (INR n + 1) * ln (vol2 n e / (r * r) ^ n).
Proof.
  intros HP H1 H2. pose proof (vol_pos n e HP) as Hv. pose proof (pos_INR n) as Hnn.
  assert (Hp : 0 < (r * r) ^ n) by (apply pow_lt; nra).
  assert (H3 : (r * r) ^ n <= rate n ^ k * vol2 n e) by lra.
  assert (H4 : exp (INR k / (INR n + 1)) <= vol2 n e / (r * r) ^ n).
  { unfold rate in H3. rewrite exp_pow in H3.
    apply Rmult_le_reg_r with ((r * r) ^ n * exp (INR k * - / (INR n + 1))).
    - apply Rmult_lt_0_compat; auto. apply exp_pos.
    - replace (vol2 n e / (r * r) ^ n * ((r * r) ^ n * exp (INR k * - / (INR n + 1)))) with (exp (INR k * - / (INR n + 1)) * vol2 n e) by (field; lra).
      replace (exp (INR k / (INR n + 1)) * ((r * r) ^ n * exp (INR k * - / (INR n + 1)))) with
        ((r * r) ^ n * (exp (INR k / (INR n + 1)) * exp (INR k * - / (INR n + 1)))) by ring.
      rewrite <- exp_plus. replace (INR k / (INR n + 1) + INR k * - / (INR n + 1)) with 0 by (field; lra). rewrite exp_0. lra. }
  apply Rmult_le_reg_r with (/ (INR n + 1)); [apply Rinv_0_lt_compat; lra|].
  replace ((INR n + 1) * ln (vol2 n e / (r * r) ^ n) * / (INR n + 1)) with (ln (vol2 n e / (r * r) ^ n)) by (field; lra).
  rewrite <- (ln_exp (INR k * / (INR n + 1))). destruct (Rle_lt_or_eq_dec _ _ H4) as [H5|H5].
  - left. apply ln_increasing; auto. apply exp_pos.
  - right. f_equal. exact H5.
Qed.

Lemma feas_gen K (ora : OracleFeas RNum (Arr RNum) C O) (opt : Options RNum) o (e : Ell RNum) :
  feas_cuts sat deep n Inv K ora ->
  (forall o1 e1, Inv o1 -> proper n e1 -> vecn n (e_xc e1) -> (forall x, ball n z r x -> pts n e1 x) -> exists o2 ans, of_assess ora o1 (e_xc e1) = Ok (o2, ans) /\
     match ans with None => True | Some (g, _) => 0 < dot n (coords g) (coords g) /\ tolerance opt <= width2 n e1 g end) ->
  Inv o -> proper n e -> vecn n (e_xc e) -> (forall x, ball n z r x -> K x /\ pts n e x) ->
  (INR n + 1) * ln (vol2 n e / (r * r) ^ n) < INR (max_iters opt) ->
  exists o' e' x k, cutting_plane_feas ora (ell_space (N := RNum) ct) opt o e = Ok (o', e', (Some x, k)) /\
    INR k <= (INR n + 1) * ln (vol2 n e / (r * r) ^ n) /\ exists o1, Inv o1 /\ of_assess ora o1 x = Ok (o', None).
Proof.
  intros Hc Htot Ho HP Hxc HB Hmax. unfold cutting_plane_feas.
  set (Q := fun '((o', e', (ans, k)) : O * Ell RNum * (option (Arr RNum) * nat)) => exists x, ans = Some x /\
    INR k <= (INR n + 1) * ln (vol2 n e / (r * r) ^ n) /\ exists o1, Inv o1 /\ of_assess ora o1 x = Ok (o', None)).
  match goal with |- context [loop_range 0 ?k ?body ?st] =>
    destruct (loop_range_inv (fun i '((o, s) : O * Ell RNum) => Inv o /\ (proper n s /\ vecn n (e_xc s)) /\ vol2 n s <= rate n ^ i * vol2 n e /\ forall x, ball n z r x -> pts n s x)
      Q 0 k body st) as [L|L] end.
  - lia.
  - cbn [pow]. split; auto. split; auto. split; [lra|]. apply HB.
  - intros i [o1 s1] Hi (HI & [HPs HX] & Hvol & HBs). pose proof HPs as (Vs & _ & _).
    destruct (Htot o1 s1 HI HPs HX HBs) as (o2 & ans & Ea & Hgm).
    destruct (Hc _ _ _ _ HI HX Ea) as [HI' Hans].
    change (sp_xc (ell_space (N := RNum) ct) s1) with (e_xc s1). rewrite Ea. cbn [bind].
    destruct ans as [[g c0]|].
    + left. destruct Hans as (Hvg & Hd & Hsat).
      destruct (ball_step Bias s1 g c0 (or_introl eq_refl) HPs Hvg (proj1 Hgm) Hd HBs) as (s2 & E2 & P1 & P2 & P3 & P4).
      { intros x Hx. apply Hsat. apply HB; auto. }
      change (sp_update_bias_cut (ell_space (N := RNum) ct) s1 (g, c0)) with (apply_cut (N := RNum) ct Bias s1 (g, c0)). rewrite E2. cbn [bind is_success negb orb].
      change (sp_tsq (ell_space (N := RNum) ct) s2) with (e_tsq s2).
      destruct (e_tsq s2 <?! tolerance opt) eqn:B; [cbn in B; apply Rlt_bool_iff in B; exfalso; lra|].
      exists (o2, s2). split; auto. split; auto. split. { split; auto. split; [apply (v_xc n); apply P1|]. rewrite (cols_kept ct Bias n s1 g c0 s2 Success (valid_wf _ _ Vs) Hvg E2). apply HX. }
      split; auto. cbn [pow].
      eapply Rle_trans; [exact P3|]. rewrite Rmult_assoc. apply Rmult_le_compat_l; auto. left. apply rate_pos.
    + right. eexists. split; [reflexivity|]. exists (e_xc s1). split; auto. split; eauto.
      apply (rate_bound e s1 i HP Hvol). apply ball_volume; auto.
  - destruct L as ([o1 s1] & E & HI & [HPs HX] & Hvol & HBs). exfalso. pose proof HPs as (Vs & _ & _).
    pose proof (rate_bound e s1 _ HP Hvol (ball_volume s1 Vs HBs)). lra.
  - destruct L as ([[o1 s1] [ans k]] & E & (x & -> & H1 & H2)). rewrite E. cbn [bind]. exists o1, s1, x, k. auto.
Qed.

Lemma feas_bound (gmin : R) K (ora : OracleFeas RNum (Arr RNum) C O) (opt : Options RNum) o (e : Ell RNum) :
  feas_cuts sat deep n Inv K ora -> feas_total n Inv gmin ora -> 0 < gmin -> Inv o -> proper n e -> vecn n (e_xc e) ->
  (forall x, ball n z r x -> K x /\ pts n e x) -> tolerance opt <= (r * gmin) * (r * gmin) ->
  (INR n + 1) * ln (vol2 n e / (r * r) ^ n) < INR (max_iters opt) ->
  exists o' e' x k, cutting_plane_feas ora (ell_space (N := RNum) ct) opt o e = Ok (o', e', (Some x, k)) /\
    INR k <= (INR n + 1) * ln (vol2 n e / (r * r) ^ n) /\ exists o1, Inv o1 /\ of_assess ora o1 x = Ok (o', None).
Proof.
  intros Hc Htot Hg Ho HP Hxc HB Ht Hmax. apply (feas_gen K); auto. intros o1 e1 H1 H2 HX H3. pose proof H2 as (V & _ & _).
  destruct (Htot o1 (e_xc e1) H1 HX) as (o2 & ans & Ea & Hgm). exists o2, ans. split; auto. destruct ans as [[g c]|]; auto.
  destruct (wide_norm e1 g gmin H2 H3 Hg Hgm). split; auto. lra.
Qed.
Lemma feas_bound_margin (rho : R) K (ora : OracleFeas RNum (Arr RNum) C O) (opt : Options RNum) o (e : Ell RNum) :
  feas_cuts sat deep n Inv K ora -> feas_margin n Inv z rho ora -> 0 < rho -> Inv o -> proper n e -> vecn n (e_xc e) ->
  (forall x, ball n z r x -> K x /\ pts n e x) -> tolerance opt <= rho * rho ->
  (INR n + 1) * ln (vol2 n e / (r * r) ^ n) < INR (max_iters opt) ->
  exists o' e' x k, cutting_plane_feas ora (ell_space (N := RNum) ct) opt o e = Ok (o', e', (Some x, k)) /\
    INR k <= (INR n + 1) * ln (vol2 n e / (r * r) ^ n) /\ exists o1, Inv o1 /\ of_assess ora o1 x = Ok (o', None).
Proof.
  intros Hc Htot Hg Ho HP Hxc HB Ht Hmax. apply (feas_gen K); auto. intros o1 e1 H1 H2 HX H3. pose proof H2 as (V & _ & _).
  destruct (Htot o1 (e_xc e1) H1 HX) as (o2 & ans & Ea & Hgm). exists o2, ans. split; auto. destruct ans as [[g c]|]; auto.
  destruct (wide_margin e1 g rho H2 H3 Hg Hgm). split; auto. lra.
Qed.

Lemma optim_gen beats (ora : OracleOptim RNum (Arr RNum) C O) (opt : Options RNum) o (e : Ell RNum) (gamma : R) :
  optim_cuts sat deep n InvL beats ora ->
  (forall o1 e1 ga1, InvL o1 ga1 -> ell_wf n e1 -> vecn n (e_xc e1) -> exists o2 ga2 g c sh, ora o1 (e_xc e1) ga1 = Ok (o2, ga2, ((g, c), sh)) /\
     ((forall y, ball n z r y -> beats y ga2) -> proper n e1 -> (forall x, ball n z r x -> pts n e1 x) ->
       0 < dot n (coords g) (coords g) /\ tolerance opt <= width2 n e1 g)) ->
  InvL o gamma -> proper n e -> vecn n (e_xc e) -> (forall y, ball n z r y -> beats y gamma /\ pts n e y) ->
  (INR n + 1) * ln (vol2 n e / (r * r) ^ n) < INR (max_iters opt) ->
  exists o' e' gamma' x k, cutting_plane_optim ora (ell_space (N := RNum) ct) opt o e gamma = Ok (o', e', gamma', (Some x, k)) /\
    ~ (forall y, ball n z r y -> beats y gamma') /\
    exists o1 g1 o2 cut, ora o1 x g1 = Ok (o2, gamma', (cut, true)).
Proof.
  intros Hc Htot Ho HP Hxc HB Hmax. unfold cutting_plane_optim.
  set (link := fun (ga : num RNum) (xb : option (Arr RNum)) =>
    match xb with None => ga = gamma | Some x => exists o1 g1 o2 cut, ora o1 x g1 = Ok (o2, ga, (cut, true)) end).
  set (all := fun ga : num RNum => forall y, ball n z r y -> beats y ga).
  set (Q := fun '((_, _, ga, (xb, _)) : O * Ell RNum * num RNum * (option (Arr RNum) * nat)) => ~ all ga /\ link ga xb).
  match goal with |- context [loop_range 0 ?k ?body ?st] =>
    destruct (loop_range_inv (fun i '((o, s, ga, xb) : O * Ell RNum * num RNum * option (Arr RNum)) => InvL o ga /\ (ell_wf n s /\ vecn n (e_xc s)) /\ link ga xb /\
       (all ga -> proper n s /\ vol2 n s <= rate n ^ i * vol2 n e /\ forall x, ball n z r x -> pts n s x))
      Q 0 k body st) as [L|L] end.
  - lia.
  - split; auto. split; [split; [apply valid_wf, HP|exact Hxc]|]. split; [reflexivity|]. intros _. cbn [pow]. split; auto. split; [lra|]. apply HB.
  - intros i [[[o1 s1] ga1] xb1] Hi (HI & [Hwf HX] & Hlink & Hall).
    destruct (Htot o1 s1 ga1 HI Hwf HX) as (o2 & ga2 & g & c0 & sh & Ea & Hgm).
    destruct (Hc _ _ _ _ _ _ _ _ HI HX Ea) as (HI' & Hvg & Hd & Hsame & Hmono & Hsat).
    change (sp_xc (ell_space (N := RNum) ct) s1) with (e_xc s1). rewrite Ea. cbn [bind].
    set (m := if sh then Central else Bias) in *.
    destruct (apply_cut_ok (N := RNum) ct m n s1 g c0 Hwf Hvg) as (s2 & st & E2 & Hwf2 & _).
    set (xb2 := if sh then Some (e_xc s1) else xb1).
    assert (Hlink2 : link ga2 xb2).
    { unfold xb2. destruct sh; [exists o1, ga1, o2, (g, c0); exact Ea|]. rewrite (Hsame eq_refl). exact Hlink. }
    match goal with |- context [bind ?u _] => assert (EU : u = Ok (xb2, (s2, st))) end.
    { unfold xb2, m in *. destruct sh; cbn [apply_cut] in E2; [change (sp_update_central_cut (ell_space (N := RNum) ct)) with (ell_update_central (N := RNum) ct)
        |change (sp_update_bias_cut (ell_space (N := RNum) ct)) with (ell_update_bias (N := RNum) ct)]; rewrite E2; reflexivity. }
    rewrite EU. cbn [bind]. change (sp_tsq (ell_space (N := RNum) ct) s2) with (e_tsq s2).
    assert (Hstp : all ga2 -> st = Success /\ proper n s2 /\ tolerance opt <= e_tsq s2 /\ vol2 n s2 <= rate n * (rate n ^ i * vol2 n e) /\ forall x, ball n z r x -> pts n s2 x).
    { intros Ha. assert (Ha1 : all ga1) by (intros y Hy; apply Hmono, Ha; auto). destruct (Hall Ha1) as (HPs & Hvol & HBs).
      destruct (Hgm Ha HPs HBs) as [Hgg Hgt].
      destruct (ball_step m s1 g c0) as (s3 & E3 & P1 & P2 & P3 & P4); auto.
      { unfold m. destruct sh; auto. }
      rewrite E2 in E3. inversion E3; subst s3 st. split; auto. split; auto. split; [rewrite P2; exact Hgt|]. split; auto.
      eapply Rle_trans; [exact P3|]. apply Rmult_le_compat_l; auto. left. apply rate_pos. }
    destruct (negb (is_success st) || (e_tsq s2 <?! tolerance opt)) eqn:B.
    + right. eexists. split; [reflexivity|]. split; auto. intros Ha. destruct (Hstp Ha) as (-> & _ & P2 & _). cbn [is_success negb orb] in B.
      cbn in B. apply Rlt_bool_iff in B. lra.
    + left. eexists. split; [reflexivity|]. split; auto. split; [split; [exact Hwf2|split; [apply Hwf2|rewrite (cols_kept ct m n s1 g c0 s2 st Hwf Hvg E2); apply HX]]|]. split; auto. intros Ha. destruct (Hstp Ha) as (_ & P1 & _ & P3 & P4).
      split; auto. split; auto. cbn [pow]. rewrite Rmult_assoc. exact P3.
  - destruct L as ([[[o1 s1] ga1] xb1] & E & HI & [Hwf HX] & Hlink & Hall). rewrite E. cbn [bind].
    assert (Hna : ~ all ga1).
    { intros Ha. destruct (Hall Ha) as (HPs & Hvol & HBs). pose proof HPs as (Vs & _ & _).
      pose proof (rate_bound e s1 _ HP Hvol (ball_volume s1 Vs HBs)). lra. }
    destruct xb1 as [x|]; [exists o1, s1, ga1, x, (max_iters opt); auto|].
    exfalso. apply Hna. rewrite Hlink. intros y Hy. apply HB; auto.
  - destruct L as ([[[o1 s1] ga1] [xb1 k]] & E & Hna & Hlink). rewrite E. cbn [bind].
    destruct xb1 as [x|]; [exists o1, s1, ga1, x, k; auto|].
    exfalso. apply Hna. rewrite Hlink. intros y Hy. apply HB; auto.
Qed.
Lemma optim_bound (gmin : R) beats (ora : OracleOptim RNum (Arr RNum) C O) (opt : Options RNum) o (e : Ell RNum) (gamma : R) :
  optim_cuts sat deep n InvL beats ora -> optim_total n InvL gmin ora -> 0 < gmin -> InvL o gamma -> proper n e -> vecn n (e_xc e) ->
  (forall y, ball n z r y -> beats y gamma /\ pts n e y) -> tolerance opt <= (r * gmin) * (r * gmin) ->
  (INR n + 1) * ln (vol2 n e / (r * r) ^ n) < INR (max_iters opt) ->
  exists o' e' gamma' x k, cutting_plane_optim ora (ell_space (N := RNum) ct) opt o e gamma = Ok (o', e', gamma', (Some x, k)) /\
    ~ (forall y, ball n z r y -> beats y gamma') /\
    exists o1 g1 o2 cut, ora o1 x g1 = Ok (o2, gamma', (cut, true)).
Proof.
  intros Hc Htot Hg Ho HP Hxc HB Ht Hmax. apply (optim_gen beats); auto. intros o1 e1 ga1 H1 H2 HX.
  destruct (Htot o1 (e_xc e1) ga1 H1 HX) as (o2 & ga2 & g & c & sh & Ea & Hgm). exists o2, ga2, g, c, sh. split; auto. intros _ H3 H4.
  destruct (wide_norm e1 g gmin H3 H4 Hg Hgm). split; auto. lra.
Qed.
Lemma optim_bound_margin (rho : R) beats (ora : OracleOptim RNum (Arr RNum) C O) (opt : Options RNum) o (e : Ell RNum) (gamma : R) :
  optim_cuts sat deep n InvL beats ora -> optim_margin n InvL z r beats rho ora -> 0 < rho -> InvL o gamma -> proper n e -> vecn n (e_xc e) ->
  (forall y, ball n z r y -> beats y gamma /\ pts n e y) -> tolerance opt <= rho * rho ->
  (INR n + 1) * ln (vol2 n e / (r * r) ^ n) < INR (max_iters opt) ->
  exists o' e' gamma' x k, cutting_plane_optim ora (ell_space (N := RNum) ct) opt o e gamma = Ok (o', e', gamma', (Some x, k)) /\
    ~ (forall y, ball n z r y -> beats y gamma') /\
    exists o1 g1 o2 cut, ora o1 x g1 = Ok (o2, gamma', (cut, true)).
Proof.
  intros Hc Htot Hg Ho HP Hxc HB Ht Hmax. apply (optim_gen beats); auto. intros o1 e1 ga1 H1 H2 HX.
  destruct (Htot o1 (e_xc e1) ga1 H1 HX) as (o2 & ga2 & g & c & sh & Ea & Hgm). exists o2, ga2, g, c, sh. split; auto. intros Hb H3 H4.
  destruct (wide_margin e1 g rho H3 H4 Hg (Hgm Hb)). split; auto. lra.
Qed.
End Run.
