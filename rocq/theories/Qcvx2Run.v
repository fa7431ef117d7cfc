(** The oracle of tests/quasicvx2_tests.rs: its answers, and whole runs of the optimiser. *)
From Coq Require Import ZArith Reals List Bool Arith Lia Lra Psatz.
From Flocq Require Import Core.
From Verif Require Import Num Res Arr CuttingPlane EllCalc Ell EllRun ArrLemmas EllLemmas DriverSpec DriverProofs DriverBest Spec RealLin EllSpec EllReal EllCuts EllMore
  LmiSpec Det DetLemmas VolScalar VolProofs RunSpec RunProofs Examples ExSpec ExProofs ExRun Profit ProfitSpec ProfitProofs ProfitWitness ExConv ProfitTest QcvxRun
  StepRunSpec StepRun CalcAgree Qcvx2 Qcvx2Spec.
Import ListNotations.
Open Scope R_scope.

(** ** Decisions, any number type *)
Section Any.
Context {N : Num}.
Open Scope nat_scope.
Lemma qc2_decides idx (xc : Arr N) gamma x y : (-1 <= idx < 3)%Z -> a_idx xc 0 = Ok x -> a_idx xc 1 = Ok y ->
  exists idx' gamma' g beta b, qc2_assess idx xc gamma = Ok (idx', gamma', ((g, mkSingle beta), b)) /\ (-1 <= idx' < 3)%Z /\
    decides [nexp x -! y; -! y; -! x; -! nsqrt x +! gamma *! y] (nsqrt x /! y) gamma gamma' beta b.
Proof.
  intros Hi Hx Hy. unfold qc2_assess. rewrite Hx, Hy. cbn [bind]. unfold round_robin, loop_range.
  idx_cases Hi; cbn -[nadd nsub nopp nmul ndiv nexp nsqrt nZ n0 n1 n2 nltb nhalf];
  repeat match goal with |- context [if nltb ?a ?b then _ else _] => destruct (nltb a b) eqn:?; try discriminate; cbn -[nadd nsub nopp nmul ndiv nexp nsqrt nZ n0 n1 n2 nltb nhalf] end;
  do 5 eexists; (split; [reflexivity|]); (split; [lia|]);
  unfold decides; repeat split; intros;
  try discriminate; try congruence; auto;
  try (repeat (apply none_positive_cons; split; auto); apply none_positive_nil);
  try (repeat match goal with H : none_positive (_ :: _) |- _ => apply none_positive_cons in H; destruct H end; congruence);
  try (cbn; tauto).
Qed.
Context {S : Type}.
Variables (sp : SearchSpace N (Arr N) (SingleCut N) S) (opt : Options N).
Lemma qc2_best idx s gamma o' s' gamma' x k : (-1 <= idx < 3)%Z ->
  cutting_plane_optim qc2_assess sp opt idx s gamma = Ok (o', s', gamma', (Some x, k)) ->
  let a := nth 0 (adata x) n0 in let b := nth 1 (adata x) n0 in
  2 <= length (adata x) /\ gamma' = nsqrt a /! b /\ none_positive [nexp a -! b; -! b; -! a].
Proof.
  intros Hi E. cbv zeta.
  refine (_ (optim_best qc2_assess sp opt (fun i => (-1 <= i < 3)%Z) (fun _ => True)
    (fun x => let a := nth 0 (adata x) n0 in let b := nth 1 (adata x) n0 in
       2 <= length (adata x) /\ none_positive [nexp a -! b; -! b; -! a])
    (fun x => nsqrt (nth 0 (adata x) n0) /! nth 1 (adata x) n0) _ idx s gamma o' s' gamma' _ k Hi I E)).
  - intros (_ & _ & H & H1 & H2). auto.
  - intros i y g i' g' [gr c] sh Hi' _ K.
    pose proof (bind_idx _ _ _ K) as L. destruct (idx2 y L) as (u & v & Hu & Hv & Eu & Ev).
    destruct (qc2_decides i y g u v Hi' Hu Hv) as (i2 & g2 & gr2 & b2 & sh2 & K2 & R2 & D1 & D2 & D3).
    rewrite K in K2. inversion K2; subst i2 g2 gr2 c sh2. rewrite <- Eu, <- Ev. split; auto. split; auto.
    destruct sh.
    + split; [apply D2; auto|]. cbv zeta. split; auto. pose proof (proj1 D1 eq_refl) as Q.
      apply none_positive_cons in Q as [Q1 Q]. apply none_positive_cons in Q as [Q2 Q]. apply none_positive_cons in Q as [Q3 Q].
      repeat (apply none_positive_cons; split; auto). apply none_positive_nil.
    + apply D3. auto.
Qed.
End Any.

(** ** Answers over the reals *)
Lemma half_is : @nhalf RNum = 1 / 2.
Proof. rewrite CalcAgree.half_R. lra. Qed.
(** what the oracle answers, case by case *)
Inductive qc2_answer (a b gamma : R) : R -> Arr RNum -> R -> bool -> Prop :=
| qc2_exp : 0 < exp a - b -> qc2_answer a b gamma gamma (rv (exp a) (-1)) (exp a - b) false
| qc2_y : 0 < - b -> qc2_answer a b gamma gamma (rv 0 (-1)) (- b) false
| qc2_x : 0 < - a -> qc2_answer a b gamma gamma (rv (-1) 0) (- a) false
| qc2_low : prob2 a b -> 0 < - sqrt a + gamma * b -> qc2_answer a b gamma gamma (rv (- (1 / 2) / sqrt a) gamma) (- sqrt a + gamma * b) false
| qc2_hit : prob2 a b -> - sqrt a + gamma * b <= 0 -> qc2_answer a b gamma (sqrt a / b) (rv (- (1 / 2) / sqrt a) (sqrt a / b)) 0 true.
Lemma qc2_cases idx (xc : Arr RNum) (gamma : R) : (-1 <= idx < 3)%Z -> (2 <= length (adata xc))%nat ->
  exists idx' gamma' g beta b, qc2_assess (N := RNum) idx xc gamma = Ok (idx', gamma', ((g, mkSingle (N := RNum) beta), b)) /\ (-1 <= idx' < 3)%Z /\
    qc2_answer (coords xc 0%nat) (coords xc 1%nat) gamma gamma' g beta b.
Proof.
  intros Hi H. destruct (idx2 (N := RNum) xc H) as (x & y & Hx & Hy & Ex & Ey).
  unfold qc2_assess. rewrite Hx, Hy. cbn [bind].
  change (x = coords xc 0%nat) in Ex. change (y = coords xc 1%nat) in Ey. subst x y. set (a := coords xc 0%nat). set (b := coords xc 1%nat). clearbody a b. clear Hx Hy H xc.
  unfold round_robin, loop_range.
  idx_cases Hi; cbn -[Rplus Rminus Ropp Rmult Rdiv exp sqrt Rlt_bool nhalf IZR];
  repeat match goal with |- context [if Rlt_bool ?a ?b then _ else _] => destruct (Rlt_bool a b) eqn:?; try discriminate; cbn -[Rplus Rminus Ropp Rmult Rdiv exp sqrt Rlt_bool nhalf IZR] end;
  do 5 eexists; (split; [reflexivity|]); (split; [lia|]);
  unfold nm1, n1, n0; cbn -[Rplus Rminus Ropp Rmult Rdiv exp sqrt Rlt_bool nhalf IZR]; rewrite ?half_is;
  repeat match goal with
  | H : Rlt_bool _ _ = true |- _ => apply Rlt_bool_iff in H
  | H : Rlt_bool _ _ = false |- _ => apply Rlt_bool_no in H end;
  change (vec2 (N := RNum)) with rv; change (- (1)) with (-1);
  first [now apply qc2_exp | now apply qc2_y | now apply qc2_x
        | apply qc2_low; [split; lra|assumption] | apply qc2_hit; [split; lra|assumption]].
Qed.
Lemma obj2_le t a b : 0 < b -> (t <= obj2 a b <-> - sqrt a + t * b <= 0).
Proof.
  intros Hb. unfold obj2. split; intros K.
  - apply (Rmult_le_compat_r b) in K; [|lra]. replace (sqrt a / b * b) with (sqrt a) in K by (field; lra). lra.
  - apply (Rmult_le_reg_r b); [lra|]. replace (sqrt a / b * b) with (sqrt a) by (field; lra). lra.
Qed.
Lemma prob2_pos a b : prob2 a b -> 0 < b.
Proof. intros [H _]. pose proof (exp_pos a). lra. Qed.
(** the tangent of the square root lies above it *)
Lemma sqrt_below a u : 0 < a -> 0 <= u -> sqrt u <= sqrt a + 1 / 2 / sqrt a * (u - a).
Proof.
  intros Ha Hu. pose proof (sqrt_lt_R0 a Ha) as Hs. pose proof (sqrt_sqrt a ltac:(lra)) as E1. pose proof (sqrt_sqrt u Hu) as E2.
  set (s := sqrt a) in *. set (v := sqrt u) in *. apply Rmult_le_reg_r with s; auto.
  replace ((s + 1 / 2 / s * (u - a)) * s) with (s * s + 1 / 2 * (u - a)) by (field; lra). rewrite <- E1, <- E2. pose proof (Rle_0_sqr (s - v)). unfold Rsqr in *. lra.
Qed.
Lemma tangent a b t u0 u1 : 0 < a -> 0 <= u0 -> - (1 / 2) / sqrt a * (u0 - a) + t * (u1 - b) + (- sqrt a + t * b) <= - sqrt u0 + t * u1.
Proof. intros Ha Hu. pose proof (sqrt_below a u0 Ha Hu). unfold Rdiv in *. lra. Qed.
Lemma answer_good a b (gamma gamma' : R) g beta sh : a <> 0 -> qc2_answer a b gamma gamma' g beta sh -> good_answer prob2 obj2 (point2 a b) gamma gamma' g beta sh.
Proof.
  intros Ha A. inversion A; subst; clear A.
  - split; [split; reflexivity|split; [discriminate|intros [[K _] _]; cbn in K; lra]|discriminate|auto|].
    apply valid_cut_2. cbn. intros u [[Hu _] _]. pose proof (exp_above a (u 0%nat)) as E. lra.
  - split; [split; reflexivity|split; [discriminate|intros [K _]; apply prob2_pos in K; cbn in K; lra]|discriminate|auto|].
    apply valid_cut_2. cbn. intros u [Hu _]. apply prob2_pos in Hu. lra.
  - split; [split; reflexivity|split; [discriminate|intros [[_ K] _]; cbn in K; lra]|discriminate|auto|].
    apply valid_cut_2. cbn. intros u [[_ Hu] _]. lra.
  - pose proof (prob2_pos _ _ H) as Hb. pose proof (proj2 H) as Ha0.
    split; [split; reflexivity|split; [discriminate|intros [_ K]; cbn in K; apply obj2_le in K; lra]|discriminate|auto|].
    apply valid_cut_2. cbn. intros u [Hu K]. apply obj2_le in K; [|apply (prob2_pos _ _ Hu)]. pose proof (tangent a b gamma' (u 0%nat) (u 1%nat) ltac:(lra) (proj2 Hu)). lra.
  - pose proof (prob2_pos _ _ H) as Hb. pose proof (proj2 H) as Ha0.
    split; [split; reflexivity|split; [intros _; split; [exact H|cbn; apply obj2_le; auto]|auto]|auto|discriminate|].
    apply valid_cut_2. cbn. intros u [Hu K]. fold (obj2 a b) in *. apply obj2_le in K; [|apply (prob2_pos _ _ Hu)].
    pose proof (tangent a b (obj2 a b) (u 0%nat) (u 1%nat) ltac:(lra) (proj2 Hu)) as T. assert (E : - sqrt a + obj2 a b * b = 0) by (unfold obj2; field; lra). lra.
Qed.
Lemma qc2_good idx (xc : Arr RNum) (gamma : R) : (-1 <= idx < 3)%Z -> (2 <= length (adata xc))%nat -> coords xc 0%nat <> 0 ->
  exists idx' gamma' g beta b, qc2_assess (N := RNum) idx xc gamma = Ok (idx', gamma', ((g, mkSingle (N := RNum) beta), b)) /\ (-1 <= idx' < 3)%Z /\
    good_answer prob2 obj2 (coords xc) gamma gamma' g beta b.
Proof.
  intros Hi H H0. destruct (qc2_cases idx xc gamma Hi H) as (i' & ga & g & beta & b & E & Hi' & A). exists i', ga, g, beta, b. split; auto. split; auto.
  apply answer_good in A; auto. destruct A as [A1 A2 A3 A4 A5]. split; auto.
Qed.

(** ** The best value *)
Lemma obj2_top a b : prob2 a b -> obj2 a b <= top.
Proof.
  intros H. pose proof (prob2_pos _ _ H) as Hb. destruct H as [H1 H2]. pose proof (sqrt_sqrt a H2) as E.
  assert (Q : probq (sqrt a) a) by (unfold probq; lra). apply objq_peak in Q. change peak with top in Q. unfold objq in Q. pose proof (exp_pos a).
  apply Rle_trans with (sqrt a / exp a); auto. unfold obj2, Rdiv. apply Rmult_le_compat_l; [apply sqrt_pos|]. apply Rinv_le_contravar; auto.
Qed.
Lemma qc2_too_high {S : Type} (sp : SearchSpace RNum (Arr RNum) (SingleCut RNum) S) (opt : Options RNum) idx s (gamma : R) o' s' gamma' ans k :
  (-1 <= idx < 3)%Z -> top < gamma ->
  cutting_plane_optim (qc2_assess (N := RNum)) sp opt idx s gamma = Ok (o', s', gamma', (ans, k)) -> ans = None /\ gamma' = gamma.
Proof.
  intros Hi Hg E.
  refine (_ (optim_best2 (qc2_assess (N := RNum)) sp opt (fun i => (-1 <= i < 3)%Z) (fun g : R => top < g) (fun _ _ => False) _ idx s gamma o' s' gamma' ans k Hi Hg E)).
  - intros (_ & _ & H). destruct ans; [destruct H|]. auto.
  - intros i y g i' g' [gr c] sh Hi' Hg' K. pose proof (bind_idx (N := RNum) _ _ _ K) as L.
    destruct (qc2_cases i y g Hi' L) as (i2 & g2 & gr2 & b2 & sh2 & K2 & R2 & A).
    rewrite K in K2. inversion K2; subst i2 g2 gr2 c sh2. split; auto. inversion A; subst; auto.
    exfalso. match goal with H : prob2 _ _ |- _ => pose proof (obj2_top _ _ H) as T; apply prob2_pos in H end.
    match goal with H : _ <= 0 |- _ => apply obj2_le in H; auto end. lra.
Qed.

(** ** Two oracles that agree wherever the run asks *)
Lemma loop_same {St Rt} (P : nat -> St -> Prop) (b1 b2 : nat -> St -> res (ctl St Rt)) k : forall i s,
  P i s -> (forall j t, (i <= j < i + k)%nat -> P j t -> b1 j t = b2 j t) -> (forall j t t', (i <= j < i + k)%nat -> P j t -> b1 j t = Ok (Next t') -> P (S j) t') ->
  loop_up k i b1 s = loop_up k i b2 s.
Proof.
  induction k as [|k IH]; intros i s H0 He Hn; [reflexivity|]. cbn [loop_up]. rewrite <- (He i s) by (auto; lia).
  destruct (b1 i s) as [[t|r]|] eqn:E; cbn [bind]; auto. apply IH; [apply (Hn i s); auto; lia| |]; intros; [apply He|eapply Hn]; eauto; lia.
Qed.
Section Same.
Context {N : Num} {C O : Type} (ct : CutType N C).
Lemma optim_same (ora ora' : OracleOptim N (Arr N) C O) opt o (e : Ell N) ga :
  (forall l o1 e1 ga1 xb1, (length l < max_iters opt)%nat -> asked_opt ct (tolerance opt) ora o e ga None l o1 e1 ga1 xb1 -> ora o1 (e_xc e1) ga1 = ora' o1 (e_xc e1) ga1) ->
  cutting_plane_optim ora (ell_space ct) opt o e ga = cutting_plane_optim ora' (ell_space ct) opt o e ga.
Proof.
  unfold cutting_plane_optim, loop_range. rewrite Nat.sub_0_r. generalize (max_iters opt). intros K0 H.
  f_equal.
  match goal with |- loop_up K0 0 ?b _ = loop_up K0 0 ?b' _ => set (body := b); set (body' := b') end.
  apply (loop_same (fun i t => let '(o1, e1, ga1, xb1) := t in exists l, asked_opt ct (tolerance opt) ora o e ga None l o1 e1 ga1 xb1 /\ length l = i)).
  - exists []. split; [constructor|reflexivity].
  - intros j [[[o1 e1] ga1] xb1] Hj (l & A & B). unfold body, body'. cbn [sp_xc ell_space]. rewrite (H l o1 e1 ga1 xb1 ltac:(lia) A). reflexivity.
  - intros j [[[o1 e1] ga1] xb1] t' Hj (l & A & B) E. unfold body in E. cbn [sp_xc ell_space] in E.
    destruct (ora o1 (e_xc e1) ga1) as [[[o2 ga2] [cut sh]]|] eqn:E1; cbn in E; [|discriminate].
    assert (Q : exists e2 st, apply_cut ct (cut_mode sh) e1 cut = Ok (e2, st) /\ (negb (is_success st) || (e_tsq e2 <?! tolerance opt)) = false /\ t' = (o2, e2, ga2, if sh then Some (e_xc e1) else xb1)).
    { destruct sh.
      - destruct (ell_update_central ct e1 cut) as [[e2 st]|] eqn:E2; cbn in E; [|discriminate]. exists e2, st. split; [exact E2|]. destruct (_ || _); [discriminate|]. split; congruence.
      - destruct (ell_update_bias ct e1 cut) as [[e2 st]|] eqn:E2; cbn in E; [|discriminate]. exists e2, st. split; [exact E2|]. destruct (_ || _); [discriminate|]. split; congruence. }
    destruct Q as (e2 & st & E2 & E3 & ->). apply goes_test in E3. exists (l ++ [(cut_mode sh, cut)]). split; [eapply asked_opt_snoc; eauto|]. rewrite app_length, B. cbn. lia.
Qed.
End Same.

(** ** Whole runs *)
(** the same oracle, except that it answers with a harmless cut where the first coordinate is 0 *)
Definition qc2_safe : OracleOptim RNum (Arr RNum) (SingleCut RNum) Z := fun i xc (gamma : R) =>
  if Req_EM_T (coords xc 0%nat) 0 then Ok (i, gamma, ((rv (-1) 0, mkSingle (N := RNum) 0), false)) else qc2_assess (N := RNum) i xc gamma.
Definition inv2 (i : Z) (_ : R) : Prop := (-1 <= i < 3)%Z.
Lemma safe_cuts : optim_cuts single_sat single_deep 2 inv2 (at_least prob2 obj2) qc2_safe.
Proof.
  intros o x gamma o' gamma' g c sh HI [Hl _] E. unfold qc2_safe in E. destruct (Req_EM_T (coords x 0%nat) 0) as [Z|Z].
  - inversion E; subst. split; auto. split; [split; reflexivity|]. split; [unfold single_deep; cbn; lra|]. split; auto. split; auto.
    intros y [[_ H] _]. unfold single_sat, along, dot. cbn. rewrite Z. lra.
  - destruct (qc2_good o x gamma HI ltac:(lia) Z) as (o2 & ga2 & g2 & beta & b & E2 & HI2 & G).
    rewrite E in E2. inversion E2; subst o2 ga2 g2 c b. destruct G as [[G1 G1'] G2 G3 G4 G5].
    split; auto. split; [split; auto|]. split; [|split; [|split]].
    + unfold single_deep. cbn. destruct sh; [destruct (G3 eq_refl) as [_ ->]; lra|destruct (G4 eq_refl); lra].
    + intros ->. apply G4. auto.
    + intros y [H1 H2]. split; auto. destruct sh; [|destruct (G4 eq_refl); lra].
      destruct (G3 eq_refl) as [E' _]. destruct (proj1 G2 eq_refl) as [_ H3]. lra.
    + intros y Hy. specialize (G5 y Hy). unfold single_sat. cbn [sc_beta]. unfold along.
      change (coords g) with (xvec g) in *. change (coords x) with (xvec x) in *. destruct sh; cbn [offset]; auto.
      destruct (G3 eq_refl) as [_ E']. lra.
Qed.
(** a ball of radius r near the best point, hardly worse *)
Definition best2 : vec := point2 (1 / 2) (exp (1 / 2)).
Definition mid2 (r : R) : vec := point2 (1 / 2 + r) (exp (1 / 2) + 5 * r).
Lemma best2_value : prob2 (best2 0%nat) (best2 1%nat) /\ obj2 (best2 0%nat) (best2 1%nat) = top.
Proof. unfold best2, prob2, point2. split; [split; lra|reflexivity]. Qed.
Lemma room2 r y : 0 < r <= 1 / 100 -> ball 2 (mid2 r) r y -> at_least prob2 obj2 y (top - 2 * r) /\ ball 2 best2 (7 * r) y.
Proof.
  intros Hr Hb. apply ball2 in Hb as (a & b & H & Ey0 & Ey1). destruct (in_unit a b r ltac:(lra) H) as [Ha Hb].
  pose proof half_exp_b as HE. pose proof half_root_b as Hh. pose proof peak_mult as PM. pose proof peak_b as PB. change peak with top in PM, PB. unfold at_least. rewrite Ey0, Ey1. set (E := exp (1 / 2)) in *.
  split; [split|].
  - split; [|lra]. replace (1 / 2 + r + a) with (1 / 2 + (r + a)) by ring. rewrite exp_plus. fold E. set (t := r + a). assert (Ht : 0 <= t <= 2 * r) by (unfold t; lra).
    pose proof (exp_ineq1_le (- t)) as K. rewrite exp_Ropp in K. pose proof (exp_pos t) as Hp. set (w := exp t) in *.
    assert (Hw : w * (1 - t) <= 1). { apply Rmult_le_reg_l with (/ w); [now apply Rinv_0_lt_compat|]. rewrite <- Rmult_assoc, Rinv_l, Rmult_1_l, Rmult_1_r by lra. lra. }
    assert (W2 : w <= 1 + 21 / 10 * r). { apply Rnot_lt_le. intros C. assert ((1 + 21 / 10 * r) * (1 - t) < w * (1 - t)) by (apply Rmult_lt_compat_r; lra). assert (0 <= (1 + 21 / 10 * r) * (2 * r - t)) by (apply Rmult_le_pos; lra). assert (r * r <= r * (1 / 100)) by (apply Rmult_le_compat_l; lra). nra. }
    assert (E * w <= E * (1 + 21 / 10 * r)) by (apply Rmult_le_compat_l; lra). assert (E * r <= 166 / 100 * r) by (apply Rmult_le_compat_r; lra). lra.
  - apply obj2_le; [lra|]. assert (S : sqrt (1 / 2) <= sqrt (1 / 2 + r + a)) by (apply sqrt_le_1; lra). set (h := sqrt (1 / 2)) in *.
    assert (T : (top - 2 * r) * (E + 5 * r + b) <= (top - 2 * r) * (E + 6 * r)) by (apply Rmult_le_compat_l; lra).
    assert (T2 : (top - 2 * r) * (E + 6 * r) <= h). { rewrite <- PM. assert (top * r <= 432 / 1000 * r) by (apply Rmult_le_compat_r; lra). assert (164 / 100 * r <= E * r) by (apply Rmult_le_compat_r; lra). assert (0 <= r * r) by apply Rle_0_sqr. lra. }
    lra.
  - unfold ball, dot. cbn. fold E. rewrite Ey0, Ey1. nra.
Qed.
Lemma safe_margin r : 0 < r <= 1 / 100 -> optim_margin 2 inv2 (mid2 r) r (at_least prob2 obj2) (r / 2) qc2_safe.
Proof.
  intros Hr o x gamma HI [Hl _].
  assert (D : forall t, (forall y, ball 2 (mid2 r) r y -> at_least prob2 obj2 y t) ->
    exp (1 / 2 + r) - (exp (1 / 2) + 5 * r) <= - r /\ - sqrt (1 / 2 + r) + t * (exp (1 / 2) + 5 * r) <= - (r / 2)).
  { intros t HB. set (E := exp (1 / 2)). split.
    - assert (B : ball 2 (mid2 r) r (point2 (1 / 2 + r) (E + 5 * r - r))) by (unfold ball, dot; cbn; fold E; nra).
      destruct (HB _ B) as [[K _] _]. cbn in K. lra.
    - assert (B : ball 2 (mid2 r) r (point2 (1 / 2) (E + 5 * r))) by (unfold ball, dot; cbn; fold E; nra).
      destruct (HB _ B) as [K1 K]. cbn in K1, K. apply obj2_le in K; [|apply (prob2_pos _ _ K1)].
      assert (S : sqrt (1 / 2) + r / 2 <= sqrt (1 / 2 + r)); [|lra].
      pose proof half_root as HR. pose proof half_root_b as Hh. pose proof (sqrt_sqrt (1 / 2 + r) ltac:(lra)) as H2. pose proof (sqrt_lt_R0 (1 / 2 + r) ltac:(lra)) as H3.
      set (h := sqrt (1 / 2)) in *. set (s := sqrt (1 / 2 + r)) in *. apply Rnot_lt_le. intros C. assert (s * s < (h + r / 2) * (h + r / 2)) by (apply Rmult_le_0_lt_compat; lra).
      assert (h * r <= 7072 / 10000 * r) by (apply Rmult_le_compat_r; lra). assert (r * r <= r * (1 / 100)) by (apply Rmult_le_compat_l; lra). lra. }
  unfold qc2_safe. destruct (Req_EM_T (coords x 0%nat) 0) as [Z|Z].
  - do 5 eexists. split; [reflexivity|]. intros _. unfold along, dot. cbn. rewrite Z. lra.
  - destruct (qc2_cases o x gamma HI ltac:(lia)) as (o2 & ga2 & g2 & beta & b & E2 & HI2 & A). exists o2, ga2, g2, (mkSingle (N := RNum) beta), b. split; auto.
    intros HB. destruct (D _ HB) as [D1 D2]. unfold along, dot. cbn [Rsum]. cbn [mid2 point2].
    pose proof half_exp_b as HE. pose proof (exp_pos (1 / 2)).
    set (p := coords x 0%nat) in *. set (q := coords x 1%nat) in *.
    inversion A; subst; unfold coords; cbn.
    + pose proof (exp_above p (1 / 2 + r)) as K. lra.
    + lra.
    + lra.
    + match goal with H : prob2 p q |- _ => destruct H end. pose proof (tangent p q ga2 (1 / 2 + r) (exp (1 / 2) + 5 * r) ltac:(lra) ltac:(lra)). lra.
    + match goal with H : prob2 p q |- _ => pose proof (prob2_pos _ _ H); destruct H end. pose proof (tangent p q (sqrt p / q) (1 / 2 + r) (exp (1 / 2) + 5 * r) ltac:(lra) ltac:(lra)) as T.
      assert (E : - sqrt p + sqrt p / q * q = 0) by (field; lra). lra.
Qed.
Lemma real_answer {S} (sp : SearchSpace RNum (Arr RNum) (SingleCut RNum) S) idx (opt : Options RNum) e (gamma : R) i' e' (gamma' : R) x k : (-1 <= idx < 3)%Z ->
  cutting_plane_optim (qc2_assess (N := RNum)) sp opt idx e gamma = Ok (i', e', gamma', (Some x, k)) ->
  prob2 (coords x 0%nat) (coords x 1%nat) /\ gamma' = obj2 (coords x 0%nat) (coords x 1%nat).
Proof.
  intros Hi E. destruct (qc2_best (N := RNum) sp opt idx e gamma i' e' gamma' x k Hi E) as (Hl & Hga & Hn).
  pose proof (none_pos_le _ _ Hn (or_introl eq_refl)) as H1. pose proof (none_pos_le _ _ Hn (or_intror (or_intror (or_introl eq_refl)))) as H2. unfold n0 in *. cbn in H1, H2. unfold prob2, obj2, coords. cbn. split; [split; lra|exact Hga].
Qed.
(** either the run meets 0, or it is a run of the safe oracle *)
Lemma zero_or_safe (opt : Options RNum) idx (e : Ell RNum) (gamma : R) : meets_zero (qc2_assess (N := RNum)) opt idx e gamma \/
  cutting_plane_optim (qc2_assess (N := RNum)) (ell_space (N := RNum) single) opt idx e gamma = cutting_plane_optim qc2_safe (ell_space (N := RNum) single) opt idx e gamma.
Proof.
  destruct (Classical_Prop.classic (meets_zero (qc2_assess (N := RNum)) opt idx e gamma)) as [M|M]; [left; auto|right].
  apply optim_same. intros l o1 e1 ga1 xb1 Hl A. unfold qc2_safe. destruct (Req_EM_T (coords (e_xc e1) 0%nat) 0) as [Z|Z]; [|reflexivity].
  exfalso. apply M. exists l, o1, e1, ga1, xb1. auto.
Qed.
Lemma qc2_near_best (opt : Options RNum) idx (e : Ell RNum) (gamma : R) r : (-1 <= idx < 3)%Z -> proper 2 e -> vecn 2 (e_xc e) ->
  0 < r <= 1 / 100 -> gamma + 2 * r <= top -> (forall y, ball 2 best2 (7 * r) y -> pts 2 e y) ->
  tolerance opt <= r / 2 * (r / 2) -> (INR 2 + 1) * ln (vol2 2 e / (r * r) ^ 2) < INR (max_iters opt) ->
  meets_zero (qc2_assess (N := RNum)) opt idx e gamma \/
  exists i' e' gamma' x k, cutting_plane_optim (qc2_assess (N := RNum)) (ell_space (N := RNum) single) opt idx e gamma = Ok (i', e', gamma', (Some x, k)) /\
    prob2 (coords x 0%nat) (coords x 1%nat) /\ gamma' = obj2 (coords x 0%nat) (coords x 1%nat) /\ top - 2 * r < gamma' <= top.
Proof.
  intros Hi HP Hxc Hr Hv Hin Ht Hm. destruct (zero_or_safe opt idx e gamma) as [M|R]; [left; auto|right].
  destruct (optim_bound_margin single single_sat single_deep 2 inv2 ltac:(lia) (mid2 r) r ltac:(lra) single_shrink (r / 2) (at_least prob2 obj2) qc2_safe opt idx e gamma)
    as (o' & e' & ga & x & k & E & Hna & Hl); auto.
  - exact safe_cuts.
  - apply safe_margin. auto.
  - lra.
  - intros y Hy. destruct (room2 r y Hr Hy) as [[H1 H2] H3]. split; [split; [auto|lra]|auto].
  - rewrite <- R in E. exists o', e', ga, x, k. split; auto. destruct (real_answer _ idx opt e gamma o' e' ga x k Hi E) as [A1 A2]. split; auto. split; auto.
    split; [|rewrite A2; now apply obj2_top].
    apply Rnot_le_lt. intros Hle. apply Hna. intros y Hy. destruct (room2 r y Hr Hy) as [[H1 H2] H3]. split; [auto|lra].
Qed.
Lemma qc2_certificate (opt : Options RNum) idx (e : Ell RNum) (gamma : R) i' e' (gamma' : R) ans k : (-1 <= idx < 3)%Z ->
  valid 2 e -> vecn 2 (e_xc e) -> 0 < tolerance opt ->
  cutting_plane_optim (qc2_assess (N := RNum)) (ell_space (N := RNum) single) opt idx e gamma = Ok (i', e', gamma', (ans, k)) ->
  (k < max_iters opt)%nat -> tolerance opt <= e_tsq e' ->
  meets_zero (qc2_assess (N := RNum)) opt idx e gamma \/ forall u, pts 2 e u -> prob2 (u 0%nat) (u 1%nat) -> obj2 (u 0%nat) (u 1%nat) < gamma'.
Proof.
  intros Hi HV Hx Ht E Hk Hts. destruct (zero_or_safe opt idx e gamma) as [M|R]; [left; auto|right]. rewrite R in E. intros u Hu Hf.
  pose proof (proj2 (optim_keeps single single_sat single_deep single_step 2 inv2 ltac:(lia) (at_least prob2 obj2) qc2_safe opt idx e gamma i' e' gamma' ans k safe_cuts Hi HV Hx Ht E) Hk Hts u Hu) as K.
  apply Rnot_le_lt. intros Hle. apply K. split; auto.
Qed.

(** ** The problem of the crate's tests *)
Lemma near_top2 a b r : 0 <= r <= 1 / 10000 -> prob2 a b -> top - 2 * r <= obj2 a b -> (sqrt a - sqrt (1 / 2)) * (sqrt a - sqrt (1 / 2)) <= 16 * r.
Proof.
  intros Hr H K. pose proof (prob2_pos _ _ H) as Hb. destruct H as [H1 H2]. pose proof (sqrt_sqrt a H2) as E.
  assert (Q : probq (sqrt a) a) by (unfold probq; lra). replace (16 * r) with (32 * (r / 2)) by lra. apply near_best_near with a; auto; [lra|].
  change peak with top. replace (4 * (r / 2)) with (2 * r) by lra. apply Rle_trans with (obj2 a b); auto. unfold objq, obj2, Rdiv. apply Rmult_le_compat_l; [apply sqrt_pos|]. apply Rinv_le_contravar; auto. apply exp_pos.
Qed.
Lemma best2_inside r (val : R) y : 1 <= val -> 0 < r <= 1 / 1000 -> ball 2 best2 (7 * r) y -> (y 0%nat - 1) * (y 0%nat - 1) + (y 1%nat - 1) * (y 1%nat - 1) <= val.
Proof.
  intros Hv Hr H. pose proof half_exp_b as He. apply ball2 in H as (a & b & H & -> & ->).
  destruct (in_unit a b (7 * r) ltac:(lra) H) as [Ha Hb]. set (E := exp (1 / 2)) in *.
  assert (A1 : (1 / 2 + a - 1) * (1 / 2 + a - 1) <= 51 / 100 * (51 / 100)) by nra.
  assert (A2 : (E + b - 1) * (E + b - 1) <= 67 / 100 * (67 / 100)) by (apply Rmult_le_compat; lra). lra.
Qed.
Lemma qc2_solves (opt : Options RNum) (val gamma r : R) : 1 <= val <= 10 ^ 20 -> gamma <= 42 / 100 -> / 10 ^ 10 <= r <= 1 / 10000 ->
  tolerance opt <= r / 2 * (r / 2) -> (2000 <= max_iters opt)%nat ->
  exists e, ell_new_with_scalar (N := RNum) val (rv 1 1) = Ok e /\
  (meets_zero (qc2_assess (N := RNum)) opt (-1)%Z e gamma \/
  exists i' e' gamma' x k, cutting_plane_optim (qc2_assess (N := RNum)) (ell_space (N := RNum) single) opt (-1)%Z e gamma = Ok (i', e', gamma', (Some x, k)) /\
    prob2 (coords x 0%nat) (coords x 1%nat) /\ gamma' = obj2 (coords x 0%nat) (coords x 1%nat) /\ top - 2 * r < gamma' <= top /\
    (sqrt (coords x 0%nat) - sqrt (1 / 2)) * (sqrt (coords x 0%nat) - sqrt (1 / 2)) <= 16 * r).
Proof.
  intros Hv Hg Hr Ht Hm.
  assert (Hr0 : 0 < / 10 ^ 10) by (apply Rinv_0_lt_compat, pow_lt; lra).
  destruct (new_scalar_real 2 val (rv 1 1) ltac:(lia) ltac:(lra) eq_refl) as (e & E & HP & Hin).
  pose proof (new_scalar_vol 2 val (rv 1 1) e ltac:(lia) eq_refl E) as Hvol. pose proof (new_scalar_xc val (rv 1 1) e E) as Hxc.
  exists e. split; auto.
  destruct (qc2_near_best opt (-1)%Z e gamma r) as [M|(i' & e' & ga & x & k & R & A1 & A2 & A3)]; auto; try lra; try lia.
  - rewrite Hxc. split; reflexivity.
  - pose proof peak_b as P. change peak with top in P. lra.
  - intros y Hy. apply Hin. cbn. pose proof (best2_inside r val y ltac:(lra) ltac:(lra) Hy). lra.
  - rewrite Hvol. apply Rlt_le_trans with (INR 2000); [|apply le_INR; exact Hm]. apply iters_enough; [lra| |].
    { replace (10 ^ 40) with (10 ^ 20 * 10 ^ 20) by (rewrite <- pow_add; reflexivity). apply Rmult_le_compat; lra. }
    assert (S1 : / 10 ^ 10 * / 10 ^ 10 <= r * r) by (apply Rmult_le_compat; lra).
    pose proof r10_four as F. unfold r10 in F. rewrite <- F. apply Rle_ge, Rmult_le_compat_l; [apply pow_le; lra|]. assert (0 <= / 10 ^ 10 * / 10 ^ 10) by (apply Rmult_le_pos; lra). apply Rmult_le_compat; lra.
  - right. exists i', e', ga, x, k. split; auto. split; auto. split; auto. split; auto. apply near_top2 with (coords x 1%nat); auto; lra.
Qed.
Lemma qc2_default (val gamma : R) : 1 <= val <= 10 ^ 20 -> gamma <= 42 / 100 ->
  exists e, ell_new_with_scalar (N := RNum) val (rv 1 1) = Ok e /\
  (meets_zero (qc2_assess (N := RNum)) options_default (-1)%Z e gamma \/
  exists i' e' gamma' x k, cutting_plane_optim (qc2_assess (N := RNum)) (ell_space (N := RNum) single) options_default (-1)%Z e gamma = Ok (i', e', gamma', (Some x, k)) /\
    prob2 (coords x 0%nat) (coords x 1%nat) /\ gamma' = obj2 (coords x 0%nat) (coords x 1%nat) /\ top - 4 / 10 ^ 10 < gamma' <= top /\
    499 / 1000 <= coords x 0%nat <= 501 / 1000 /\ 163 / 100 <= coords x 1%nat <= 167 / 100).
Proof.
  intros Hv Hg. pose proof r10_small as S1. pose proof r10_pos as S0.
  assert (S2 : r10 <= 1 / 100000000).
  { unfold r10. assert (H : / 10 ^ 10 <= / 10 ^ 8) by (apply Rinv_le_contravar; [apply pow_lt; lra|apply Rle_pow; [lra|lia]]). replace (10 ^ 8) with 100000000 in H by lra. lra. }
  destruct (qc2_solves options_default val gamma (2 * r10) Hv Hg) as (e & E & [M|(i' & e' & ga & x & k & R & A1 & A2 & A3 & A4)]).
  - fold r10. split; lra.
  - replace (2 * r10 / 2) with r10 by lra. exact default_tol.
  - exact (Nat.le_refl _).
  - exists e. split; auto.
  - exists e. split; auto. right. exists i', e', ga, x, k. split; auto. split; auto. split; auto.
    replace (4 / 10 ^ 10) with (2 * (2 * r10)) by (unfold r10; unfold Rdiv; ring). split; [lra|].
    pose proof half_root_b as Hh. pose proof half_root as HR. pose proof half_exp_b as He. pose proof peak_b as PB. change peak with top in PB.
    destruct A1 as [B1 B2]. set (a := coords x 0%nat) in *. set (b := coords x 1%nat) in *. pose proof (sqrt_sqrt a B2) as Es. pose proof (exp_above (1 / 2) a) as Ea.
    pose proof (prob2_pos a b (conj B1 B2)) as Hb. pose proof (proj1 (obj2_le ga a b Hb)) as K. rewrite A2 in K at 1. specialize (K (Rle_refl _)).
    set (h := sqrt (1 / 2)) in *. set (s := sqrt a) in *.
    assert (S3 : - (6 / 10000) <= s - h <= 6 / 10000) by (split; nra).
    assert (S4 : 499 / 1000 <= a <= 501 / 1000) by (rewrite <- Es; split; nra). split; auto. split.
    + apply Rle_trans with (164 / 100 * (1 + (499 / 1000 - 1 / 2))); [lra|]. apply Rle_trans with (exp (1 / 2) * (1 + (a - 1 / 2))); [apply Rmult_le_compat; lra|lra].
    + assert (424 / 1000 * b <= ga * b) by (apply Rmult_le_compat_r; lra). lra.
Qed.
