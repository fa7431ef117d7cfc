(** Whole runs of cutting_plane_optim_q: nothing is lost. *)
From Coq Require Import Reals List Arith Lia Lra Psatz Bool ZArith.
From Verif Require Import Num Res Arr CuttingPlane EllCalc Ell EllRun ArrLemmas EllLemmas Spec RealLin CutScalar EllSpec EllReal EllCuts EllMore
  DriverSpec DriverProofs2 RunSpec RunQSpec RunProofs.
Import ListNotations.
Open Scope R_scope.

Definition q_ok {C} (ct : CutType RNum C) (sat : mode -> C -> R -> Prop) : Prop :=
  forall n e g c, (2 <= n)%nat -> valid n e -> vecn n g -> 0 < width2 n e g ->
  exists e' st, uq ct e (g, c) = Ok (e', st) /\
    (valid n e' \/ forall x, pts n e x -> ~ sat Bias c (along n (coords g) x (centre e))) /\
    (forall x, pts n e x -> sat Bias c (along n (coords g) x (centre e)) -> pts n e' x) /\
    (st = NoSoln -> forall x, pts n e x -> ~ sat Bias c (along n (coords g) x (centre e))) /\ st <> Unknown.

Lemma q_known {C} (ct : CutType RNum C) : (forall c h t, fst (call_q ct h c t) <> Unknown) ->
  forall n (e : Ell RNum) g c e' st, ell_wf n e -> vecn n g -> uq ct e (g, c) = Ok (e', st) -> st <> Unknown.
Proof.
  intros H n e g c e' st Hw Hg E. change (uq ct e (g, c)) with (apply_cut (N := RNum) ct Quantised e (g, c)) in E. rewrite apply_cut_core in E.
  destruct (ell_update_core_ok (N := RNum) n e g (cut_core (N := RNum) ct Quantised e c) Hw Hg) as (e2 & st2 & rho & sigma & delta & Es & E2 & _).
  rewrite E2 in E. inversion E; subst. intros ->. apply (H c (e_helper e) (e_kappa e * omega e g n)). cbn in Es |- *. now rewrite Es.
Qed.
Lemma single_q_known : forall c h t, fst (call_q single h c t) <> Unknown.
Proof. intros [b] h t. cbn. unfold calc_bias_cut_q. cbv zeta. repeat match goal with |- context [if ?b then _ else _] => destruct b end; discriminate. Qed.
Lemma parallel_q_known : forall c h t, fst (call_q parallel h c t) <> Unknown.
Proof.
  intros [b [b1|]] h t; [|apply (single_q_known (SC b) h t)]. cbn. unfold calc_parallel_q, calc_bias_cut_q. cbv zeta.
  repeat match goal with |- context [if ?b then _ else _] => destruct b end; discriminate.
Qed.

Lemma par_delta_nonneg m t b0 b1 : 1 < m -> 0 < t -> b1 * b1 <= t ->
  0 <= (t - b0 * b0 + (t - b1 * b1)) / 2 + sqrt ((t - b0 * b0) * (t - b1 * b1) + m / 2 * (b1 * b1 - b0 * b0) * (m / 2 * (b1 * b1 - b0 * b0))) / m.
Proof.
  intros Hm Ht H1. set (z0 := t - b0 * b0). set (z1 := t - b1 * b1).
  replace (b1 * b1 - b0 * b0) with (z0 - z1) by (unfold z0, z1; ring).
  assert (Hz1 : 0 <= z1) by (unfold z1; lra). clearbody z0 z1.
  set (rad := z0 * z1 + m / 2 * (z0 - z1) * (m / 2 * (z0 - z1))).
  pose proof (sqrt_pos rad) as Hs.
  destruct (Rle_dec 0 (z0 + z1)) as [H|H].
  - assert (0 <= sqrt rad / m) by (apply Rmult_le_pos; [auto|left; apply Rinv_0_lt_compat; lra]). lra.
  - assert (Hr : m / 2 * (- (z0 + z1)) <= sqrt rad).
    { rewrite <- (sqrt_square (m / 2 * (- (z0 + z1)))) by (apply Rmult_le_pos; lra). apply sqrt_le_1_alt. unfold rad.
      assert (z0 * z1 <= 0) by nra. assert (0 <= (1 - m * m) * (z0 * z1)) by (assert (1 - m * m <= 0) by nra; nra).
      apply Rminus_le. match goal with |- ?a <= 0 => replace a with (- ((1 - m * m) * (z0 * z1))) by field end. lra. }
    assert (E : sqrt rad / m - (- (z0 + z1) / 2) = (sqrt rad - m / 2 * (- (z0 + z1))) / m) by (field; lra).
    assert (0 <= (sqrt rad - m / 2 * (- (z0 + z1))) / m) by (apply Rmult_le_pos; [lra|left; apply Rinv_0_lt_compat; lra]). lra.
Qed.

Lemma single_q_ok : q_ok single single_sat.
Proof.
  intros n e g [beta] Hn V Hg Hw. unfold single_sat. cbn [sc_beta offset].
  destruct (q_single_sound n e g beta Hn V Hg Hw) as (e' & st & E & Hv & K & L & _).
  exists e', st. split; [exact E|]. split; [now left|]. split; [exact K|]. split.
  - intros Hs x Hx Hc. specialize (L Hs x Hx). lra.
  - exact (q_known single single_q_known n e g (SC beta) e' st (valid_wf _ _ V) Hg E).
Qed.
Lemma parallel_q_valid n e g b0 b1 e' st : (2 <= n)%nat -> valid n e -> vecn n g -> 0 < width2 n e g -> - sqrt (width2 n e g) <= b1 ->
  uq parallel e (g, PC b0 (Some b1)) = Ok (e', st) -> (st <> Success -> e' = with_tsq e (width2 n e g)) -> valid n e'.
Proof.
  intros Hn V Hg Hw Hnear E N.
  pose proof (INR_two n Hn) as Hm. pose proof (sqrt_lt_R0 _ Hw) as Hs.
  assert (Hss : sqrt (width2 n e g) * sqrt (width2 n e g) = width2 n e g) by (apply sqrt_sqrt; lra).
  pose proof (valid_width _ _ _ V Hg Hw) as [_ Ho].
  set (str := fun tsq => call_q parallel (e_helper e) (PC b0 (Some b1)) tsq) in *.
  assert (Estr : str (width2 n e g) = calc_parallel_q (N := RNum) (calc_new n) b0 b1 (width2 n e g))
    by (unfold str; rewrite (v_calc _ _ V); reflexivity).
  rewrite calc_par_q_eq in Estr.
  assert (Hno : st <> Success -> valid n e') by (intros H; rewrite (N H); now apply valid_with_tsq).
  destruct (Raux.Rlt_bool b1 b0) eqn:B1.
  { destruct (core_run n e g str _ _ _ _ V Hg Estr) as (e2 & E2 & _). change (ell_update_core e g str = Ok (e', st)) in E. rewrite E2 in E. inversion E; subst. apply Hno; discriminate. }
  apply Rlt_bool_no in B1.
  destruct (Raux.Rlt_bool 0 b1 && Raux.Rle_bool (width2 n e g) (b1 * b1)) eqn:B2; cbn [orb] in Estr.
  { rewrite calc_bias_q_eq in Estr.
    destruct (Raux.Rlt_bool (sqrt (width2 n e g)) b0) eqn:B3; [|destruct (Raux.Rlt_bool _ 0) eqn:B4].
    - destruct (core_run n e g str _ _ _ _ V Hg Estr) as (e2 & E2 & _). change (ell_update_core e g str = Ok (e', st)) in E. rewrite E2 in E. inversion E; subst. apply Hno; discriminate.
    - destruct (core_run n e g str _ _ _ _ V Hg Estr) as (e2 & E2 & _). change (ell_update_core e g str = Ok (e', st)) in E. rewrite E2 in E. inversion E; subst. apply Hno; discriminate.
    - apply Rlt_bool_no in B3. apply Rlt_bool_no in B4.
      destruct (core_deep n e g str b0 Hn V Hg Hw B4 B3 Estr) as (e2 & E2 & Hv & _).
      change (ell_update_core e g str = Ok (e', st)) in E. rewrite E2 in E. inversion E; subst. exact Hv. }
  destruct (Raux.Rle_bool _ 0) eqn:B3.
  { destruct (core_run n e g str _ _ _ _ V Hg Estr) as (e2 & E2 & _). change (ell_update_core e g str = Ok (e', st)) in E. rewrite E2 in E. inversion E; subst. apply Hno; discriminate. }
  apply Rle_bool_no in B3.
  destruct (core_par n e g str b0 b1 Hn V Hg Hw B1 (Rlt_le _ _ B3) Estr) as (e2 & rho & sigma & delta & Ep & E2 & Hst & _).
  change (ell_update_core e g str = Ok (e', st)) in E. rewrite E2 in E. inversion E; subst e2 st. clear E.
  unfold par3 in Ep. inversion Ep; subst rho sigma delta. clear Ep.
  assert (Hb : b1 * b1 <= width2 n e g).
  { apply andb_false_iff in B2 as [B2|B2]; [apply Rlt_bool_no in B2; nra|apply Rle_bool_no in B2; lra]. }
  eapply stepped_valid; [exact V|exact Hg|exact Ho| | |exact Hst].
  - apply (par_sigma_le (INR n)); auto; lra.
  - unfold Rdiv at 1. apply Rmult_le_pos; [|left; now apply Rinv_0_lt_compat]. apply Rmult_le_pos.
    + apply Rmult_le_pos; [nra|left; apply Rinv_0_lt_compat; nra].
    + apply par_delta_nonneg; auto; lra.
Qed.
Lemma parallel_q_ok : q_ok parallel parallel_sat.
Proof.
  intros n e g [b0 [b1|]] Hn V Hg Hw; unfold parallel_sat; cbn [pc_beta0 pc_beta1 offset].
  2:{ destruct (single_q_ok n e g (SC b0) Hn V Hg Hw) as (e' & st & E & Hv & K & L & Hk).
      exists e', st. unfold single_sat in *. cbn [sc_beta offset] in *. split; [exact E|].
      split; [destruct Hv as [Hv|Hv]; [now left|right; intros x Hx [Hc _]; exact (Hv x Hx Hc)]|]. split; [intros x Hx [Hc _]; exact (K x Hx Hc)|]. split; [intros Hs x Hx [Hc _]; exact (L Hs x Hx Hc)|auto]. }
  pose proof (INR_two n Hn) as Hm. pose proof (sqrt_lt_R0 _ Hw) as Hs.
  assert (Hss : sqrt (width2 n e g) * sqrt (width2 n e g) = width2 n e g) by (apply sqrt_sqrt; lra).
  pose proof (valid_width _ _ _ V Hg Hw) as [_ Ho].
  destruct (q_par_sound n e g b0 b1 Hn V Hg Hw) as (e' & st & E & K & L & N).
  exists e', st. split; [exact E|]. split; [|split; [intros x Hx Hc; apply K; split; [exact Hx|lra]|split; [intros Hst x Hx Hc; apply (L Hst x); split; [exact Hx|lra]|
    exact (q_known parallel parallel_q_known n e g (PC b0 (Some b1)) e' st (valid_wf _ _ V) Hg E)]]].
  destruct (Rlt_dec b1 (- sqrt (width2 n e g))) as [Hfar|Hnear].
  { right. intros x Hx [_ Hc]. pose proof (pts_range n e g x V Hx). lra. }
  left. exact (parallel_q_valid n e g b0 b1 e' st Hn V Hg Hw (Rnot_lt_le _ _ Hnear) E N).
Qed.

Section RunQ.
Context {C O : Type} (ct : CutType RNum C) (sat : mode -> C -> R -> Prop).
Hypothesis Hstep : q_ok ct sat.
Variables (n : nat) (Inv : O -> R -> Prop).
Hypothesis Hn : (2 <= n)%nat.

Lemma q_update n0 (s : Ell RNum) g c s2 st : ell_wf n0 s -> vecn n0 (e_xc s) -> vecn n0 g -> uq ct s (g, c) = Ok (s2, st) ->
  ell_wf n0 s2 /\ vecn n0 (e_xc s2).
Proof.
  intros Hw Hx Hg E. change (uq ct s (g, c)) with (apply_cut (N := RNum) ct Quantised s (g, c)) in E. rewrite apply_cut_core in E.
  destruct (ell_update_core_ok (N := RNum) n0 s g (cut_core (N := RNum) ct Quantised s c) Hw Hg) as (e2 & st2 & rho & sigma & delta & _ & E2 & Hw2 & _ & _ & _ & _ & Hc & _).
  rewrite E2 in E. inversion E; subst. split; auto. split; [apply Hw2|]. rewrite Hc. apply Hx.
Qed.

Lemma optim_q_keeps beats (ora : OracleOptimQ RNum (Arr RNum) C O) (opt : Options RNum) o (e : Ell RNum) (gamma : R) o' e' (gamma' : R) ans k :
  optim_q_cuts sat n Inv beats ora -> Inv o gamma -> valid n e -> vecn n (e_xc e) -> 0 < tolerance opt ->
  cutting_plane_optim_q ora (ell_space (N := RNum) ct) opt o e gamma = Ok (o', e', gamma', (ans, k)) ->
  (e_tsq e' <> 0 \/ e' = e -> forall y, beats y gamma' -> pts n e y -> pts n e' y) /\
  (always_more ora -> (k < max_iters opt)%nat -> tolerance opt <= e_tsq e' -> forall y, pts n e y -> ~ beats y gamma').
Proof.
  intros Hc Ho V Hxc Ht E. rewrite optim_q_unfold in E. apply bind_inv in E as (c & E & Ek).
  set (Good := fun (s : Ell RNum) (ga : R) => (valid n s /\ forall y, beats y ga -> pts n e y -> pts n s y) \/ (forall y, pts n e y -> ~ beats y ga)).
  match type of E with loop_up ?k ?lo ?body ?st = _ => pose proof (loop_part (fun _ '((o, s, ga, _, _) : O * Ell RNum * num RNum * option (Arr RNum) * bool) =>
      Inv o ga /\ ell_wf n s /\ vecn n (e_xc s) /\ Good s ga)
    (fun '((_, s, ga, _) : O * Ell RNum * num RNum * (option (Arr RNum) * nat)) =>
       (e_tsq s <> 0 \/ s = e -> forall y, beats y ga -> pts n e y -> pts n s y) /\
       (always_more ora -> tolerance opt <= e_tsq s -> forall y, pts n e y -> ~ beats y ga))
    body k lo st) as L end.
  rewrite E in L. clear E.
  (* one step *)
  assert (U : forall o1 s1 (ga1 : R) r1 o2 s2 (ga2 : R) sh xq st more,
    Inv o1 ga1 /\ ell_wf n s1 /\ vecn n (e_xc s1) /\ Good s1 ga1 ->
    qtrans ora (ell_space (N := RNum) ct) o1 s1 ga1 r1 o2 s2 ga2 sh xq st more ->
    Inv o2 ga2 /\ ell_wf n s2 /\ vecn n (e_xc s2) /\ (always_more ora -> more = true) /\
    ((forall y, pts n e y -> ~ beats y ga2) \/ e_tsq s2 = 0 \/
     (Good s2 ga2 /\ st <> Unknown /\ (forall y, beats y ga2 -> pts n e y -> pts n s2 y) /\ (st = NoSoln -> forall y, pts n e y -> ~ beats y ga2)))).
  { intros o1 s1 ga1 r1 o2 s2 ga2 sh xq st more (HI & Hw1 & HX & HG) ([g c0] & Ea & Eu).
    destruct (Hc _ _ _ _ _ _ _ _ _ _ _ HI HX Ea) as (HI' & Hg & Hmono & Hsat).
    change (uq ct s1 (g, c0) = Ok (s2, st)) in Eu.
    destruct (q_update n s1 g c0 s2 st Hw1 HX Hg Eu) as [Hw2 HX2].
    split; [exact HI'|]. split; [exact Hw2|]. split; [exact HX2|]. split; [intros HA; exact (HA _ _ _ _ _ _ _ _ _ _ Ea)|].
    destruct HG as [[HV HK]|HNone]; [|left; intros y Hp Hb; exact (HNone y Hp (Hmono y Hb))].
    right. pose proof (tsq_is_width ct Quantised n s1 g c0 s2 st HV Hg Eu) as Et.
    pose proof (tsq_nonneg n s1 g HV) as H0. destruct (Rle_lt_or_eq_dec _ _ H0) as [Hw|Hw]; [right|left; lra].
    destruct (Hstep n s1 g c0 Hn HV Hg Hw) as (e2 & st2 & E2 & Hv2 & K2 & L2 & N2). rewrite Eu in E2. inversion E2; subst e2 st2. clear E2.
    assert (HK2 : forall y, beats y ga2 -> pts n e y -> pts n s2 y) by (intros y Hb Hp; apply K2; [apply HK; auto|apply Hsat; auto]).
    split; [|split; [exact N2|split; [exact HK2|intros Hst y Hp Hb; apply (L2 Hst y (HK y (Hmono y Hb) Hp)); apply Hsat; auto]]].
    destruct Hv2 as [Hv2|Hnone]; [left; auto|right]. intros y Hp Hb. apply (Hnone y (HK y (Hmono y Hb) Hp)). apply Hsat; auto. }
  match type of L with ?A -> ?B -> ?D -> _ => assert (A1 : A); [|specialize (L A1); assert (B1 : B); [|specialize (L B1); assert (D1 : D)]] end.
  - split; [exact Ho|]. split; [now apply valid_wf|]. split; [exact Hxc|]. left. auto.
  - intros i [[[[o1 s1] ga1] b1] r1] [[[[o2 s2] ga2] b2] r2] _ HP EB.
    apply q_next_iff in EB as (sh & xq & st & more & HT & _ & Htol & _).
    destruct (U _ _ _ _ _ _ _ _ _ _ _ HP HT) as (HI & Hw & HX & _ & HU).
    cbn in Htol. apply Rlt_bool_no in Htol.
    split; [exact HI|]. split; [exact Hw|]. split; [exact HX|].
    destruct HU as [HU|[HU|[HU _]]]; [right; exact HU|lra|exact HU].
  - intros i [[[[o1 s1] ga1] b1] r1] [[[o2 s2] ga2] [b2 kk]] _ HP EB.
    apply q_done_iff in EB as (sh & xq & st & more & HT & Hstop & _ & _).
    destruct (U _ _ _ _ _ _ _ _ _ _ _ HP HT) as (HI & Hw & HX & HM & HU). split.
    + intros [Hne|He] y Hb Hp; [|now subst].
      destruct HU as [HU|[HU|(_ & _ & HU & _)]]; [destruct (HU y Hp Hb)|contradiction|auto].
    + intros HA Ht2 y Hp Hb. specialize (HM HA). subst more.
      destruct HU as [HU|[HU|(_ & _ & _ & HU)]]; [exact (HU y Hp Hb)|cbn in Ht, Ht2; lra|].
      destruct Hstop as [[-> | [_ HF]]|Hs]; [exact (HU eq_refl y Hp Hb)|discriminate|]. cbn in Hs. apply Rlt_bool_iff in Hs. cbn in Ht2. lra.
  - specialize (L D1). destruct c as [[[[[o1 s1] ga1] b1] r1]|[[[o1 s1] ga1] [b1 kk]]]; inversion Ek; subst.
    + split; [|lia]. intros _ y Hb Hp. destruct L as (_ & _ & _ & [[_ L]|L]); [auto|destruct (L y Hp Hb)].
    + destruct L as [L1 L2]. split; auto.
Qed.
End RunQ.
