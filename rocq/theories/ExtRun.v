(** Whole runs over the extended reals follow the runs over the reals. *)
From Coq Require Import Reals List Arith Lia Lra Psatz Bool ZArith.
From Flocq Require Import Core.Raux.
From Verif Require Import Num Res Arr CuttingPlane EllCalc Ell EllRun ArrLemmas EllLemmas Spec RealLin CutScalar EllSpec EllReal EllCuts EllMore
  DriverSpec DriverProofs2 Det RunSpec RunQSpec RunProofs RunQ ExtSpec ExtDefined ExtRunSpec.
Import ListNotations.
Local Open Scope R_scope.

(** two loops in step *)
Lemma loop_sim {S SE R RE} (P : S -> SE -> Prop) (Q : nat -> R -> RE -> Prop) (body : nat -> S -> res (ctl S R)) (bodyE : nat -> SE -> res (ctl SE RE)) k : forall lo s sE,
  P s sE ->
  (forall i t tE, (lo <= i < lo + k)%nat -> P t tE -> match body i t with
     | Ok (Next t') => exists tE', bodyE i tE = Ok (Next tE') /\ P t' tE'
     | Ok (Done r) => exists rE, bodyE i tE = Ok (Done rE) /\ Q i r rE
     | Panic => True end) ->
  match loop_up k lo body s with
  | Ok (Next s') => exists sE', loop_up k lo bodyE sE = Ok (Next sE') /\ P s' sE'
  | Ok (Done r) => exists i rE, (lo <= i < lo + k)%nat /\ loop_up k lo bodyE sE = Ok (Done rE) /\ Q i r rE
  | Panic => True end.
Proof.
  induction k as [|k IH]; intros lo s sE H0 H; simpl.
  - exists sE. auto.
  - pose proof (H lo s sE ltac:(lia) H0) as Hb. destruct (body lo s) as [[t|r]|]; simpl; auto.
    + destruct Hb as (tE & -> & Ht). simpl. specialize (IH (Datatypes.S lo) t tE Ht).
      assert (H' : forall i t tE, (Datatypes.S lo <= i < Datatypes.S lo + k)%nat -> P t tE -> match body i t with
        | Ok (Next t') => exists tE', bodyE i tE = Ok (Next tE') /\ P t' tE'
        | Ok (Done r) => exists rE, bodyE i tE = Ok (Done rE) /\ Q i r rE
        | Panic => True end) by (intros i u uE Hi; apply H; lia).
      specialize (IH H'). destruct (loop_up k (Datatypes.S lo) body t) as [[s'|r]|]; auto.
      destruct IH as (i & rE & Hi & E & HQ). exists i, rE. split; [lia|auto].
    + destruct Hb as (rE & -> & HQ). simpl. exists lo, rE. split; [lia|auto].
Qed.

(** ** One step *)
Definition defined_ok {C CE} (ct : CutType RNum C) (ctE : CutType ENum CE) (finc : C -> CE) (m : mode) (deep : C -> Prop) : Prop :=
  forall n e g c, (2 <= n)%nat -> valid n e -> vecn n g -> 0 < width2 n e g -> deep c ->
  exists e' st, apply_cut (N := RNum) ct m e (g, c) = Ok (e', st) /\ valid n e' /\
    apply_cut (N := ENum) ctE m (fin_ell e) (fin_arr g, finc c) = Ok (fin_ell e', st).

Lemma single_defined_ok m : m = Bias \/ m = Central -> defined_ok single_cut single_cut fin_single m single_deep.
Proof.
  intros Hm n e g c Hn V Hg Hw Hd. destruct (single_step m n e g c Hm Hn V Hg Hw Hd) as (e' & st & E & V' & _).
  destruct (single_defined m n e g c Hn V Hg Hw) as (e2 & st2 & E2 & E3).
  - destruct Hm as [-> | ->]; [|exact I]. simpl. unfold single_deep in Hd. pose proof (sqrt_lt_R0 _ Hw). cbn [num RNum] in *. lra.
  - change (apply_cut (N := RNum) single m e (g, c) = Ok (e2, st2)) in E2. rewrite E in E2. inversion E2; subst. exists e2, st2. auto.
Qed.
Lemma parallel_defined_ok m : m = Bias \/ m = Central -> defined_ok parallel_cut parallel_cut fin_parallel m parallel_deep.
Proof.
  intros Hm n e g c Hn V Hg Hw Hd. destruct (parallel_step m n e g c Hm Hn V Hg Hw Hd) as (e' & st & E & V' & _).
  destruct (parallel_defined m n e g c Hn V Hg Hw) as (e2 & st2 & E2 & E3).
  - destruct Hm as [-> | ->]; [|exact I]. destruct c as [b0 [b1|]]; unfold parallel_deep in Hd; cbn in *.
    + intros H. assert (0 <= INR n * (b0 * b1)) by (apply Rmult_le_pos; [apply pos_INR|apply Rmult_le_pos; lra]). lra.
    + pose proof (sqrt_lt_R0 _ Hw). lra.
  - change (apply_cut (N := RNum) parallel m e (g, c) = Ok (e2, st2)) in E2. rewrite E in E2. inversion E2; subst. exists e2, st2. auto.
Qed.
Lemma single_defined_q : defined_ok single_cut single_cut fin_single Quantised (fun _ => True).
Proof.
  intros n e g [b] Hn V Hg Hw _. destruct (q_single_sound n e g b Hn V Hg Hw) as (e' & st & E & V' & _).
  destruct (single_defined Quantised n e g (mkSingle (N := RNum) b) Hn V Hg Hw I) as (e2 & st2 & E2 & E3).
  change (uq single e (g, SC b) = Ok (e2, st2)) in E2. rewrite E in E2. inversion E2; subst. exists e2, st2. auto.
Qed.
Lemma parallel_defined_q : defined_ok parallel_cut parallel_cut fin_parallel Quantised parallel_near.
Proof.
  intros n e g [b0 [b1|]] Hn V Hg Hw Hd; unfold parallel_near in Hd; cbn in Hd.
  - destruct (q_par_sound n e g b0 b1 Hn V Hg Hw) as (e' & st & E & _ & _ & Hk).
    destruct (parallel_defined Quantised n e g (PC b0 (Some b1)) Hn V Hg Hw I) as (e2 & st2 & E2 & E3).
    change (uq parallel e (g, PC b0 (Some b1)) = Ok (e2, st2)) in E2. pose proof E2 as E2'. rewrite E in E2. inversion E2; subst e2 st2. exists e', st. split; [exact E|]. split; [|exact E3].
    pose proof (sqrt_lt_R0 _ Hw) as Hs. destruct (Rlt_dec b1 b0) as [Hlt|Hge].
    + rewrite Hk; [apply valid_with_tsq; exact V|].
      set (str := fun tsq => call_q parallel (e_helper e) (PC b0 (Some b1)) tsq).
      assert (Estr : str (width2 n e g) = calc_parallel_q (N := RNum) (calc_new n) b0 b1 (width2 n e g)) by (unfold str; rewrite (v_calc _ _ V); reflexivity).
      rewrite calc_par_q_eq in Estr. rewrite (proj2 (Rlt_bool_iff b1 b0) Hlt) in Estr.
      destruct (core_run n e g str _ _ _ _ V Hg Estr) as (e2 & E4 & _). change (ell_update_core e g str = Ok (e', st)) in E. rewrite E4 in E. inversion E; subst. discriminate.
    + apply (parallel_q_valid n e g b0 b1 e' st Hn V Hg Hw); auto. apply Rnot_lt_le in Hge. specialize (Hd Hge). lra.
  - exact (single_defined_q n e g (SC b0) Hn V Hg Hw I).
Qed.

(** a step of width zero: visible in tsq, whatever the other numbers are *)
Lemma zero_step {CE} (ctE : CutType ENum CE) m n (e : Ell RNum) g (c : CE) : valid n e -> vecn n g -> width2 n e g = 0 ->
  exists eE st, apply_cut (N := ENum) ctE m (fin_ell e) (fin_arr g, c) = Ok (eE, st) /\ e_tsq eE = Fin 0.
Proof.
  intros V Hg H0. rewrite apply_cut_core.
  destruct (ell_update_core_ok (N := ENum) n (fin_ell e) (fin_arr g) (cut_core (N := ENum) ctE m (fin_ell e) c) (fin_wf n e (valid_wf _ _ V)) (fin_vec n g Hg))
    as (e' & st & r & s & d & _ & E & _ & Ht & _).
  exists e', st. split; [exact E|]. rewrite Ht, omega_fin.
  assert (Ew : e_kappa e * omega (N := RNum) e g n = width2 n e g).
  { destruct (ell_core n e g (fun _ => (NoSoln, z3 (N := RNum))) (valid_wf _ _ V) (v_sym _ _ V) Hg) as (e2 & s2 & r2 & sg & d2 & Es & E2 & H1 & H2).
    destruct (ell_update_core_ok (N := RNum) n e g (fun _ => (NoSoln, z3 (N := RNum))) (valid_wf _ _ V) Hg) as (e3 & st3 & r3 & s3 & d3 & Es3 & E3 & _ & Ht3 & _).
    assert (E4 := eq_trans (eq_sym E2) E3). inversion E4; subst e3 st3. inversion Es; subst. cbn in Ht3. rewrite <- Ht3, H1 by discriminate. reflexivity. }
  cbn in Ew |- *. now rewrite Ew, H0.
Qed.

(** cutting_plane_optim's loop body (cutting_plane.rs 262-301), split after the oracle's answer *)
Definition opt_after {N : Num} {C O} (ct : CutType N C) (opt : Options N) (i : nat) (o : O) (s : Ell N) (gamma : N) (xb : option (Arr N)) (cut : Arr N * C) (sh : bool) :=
  '(x_best, (s, status)) <- (if sh then r <- apply_cut (N := N) ct Central s cut ;; Ok (Some (e_xc s), r) else r <- apply_cut (N := N) ct Bias s cut ;; Ok (xb, r)) ;;
  if negb (is_success status) || (e_tsq s <?! tolerance opt) then Ok (Done (o, s, gamma, (x_best, i))) else Ok (Next (o, s, gamma, x_best)).
Definition opt_body {N : Num} {C O} (ora : OracleOptim N (Arr N) C O) (ct : CutType N C) (opt : Options N) (i : nat) (st : O * Ell N * N * option (Arr N)) :=
  let '(o, s, gamma, xb) := st in
  '(o, gamma, (cut, sh)) <- ora o (e_xc s) gamma ;; opt_after ct opt i o s gamma xb cut sh.
Lemma optim_body {N : Num} {C O} (ora : OracleOptim N (Arr N) C O) (ct : CutType N C) (opt : Options N) o (s : Ell N) (gamma : N) :
  cutting_plane_optim ora (ell_space ct) opt o s gamma =
  (c <- loop_up (max_iters opt) 0 (opt_body ora ct opt) (o, s, gamma, None) ;;
   match c with Done r => Ok r | Next (o, s, gamma, x_best) => Ok (o, s, gamma, (x_best, max_iters opt)) end).
Proof.
  unfold cutting_plane_optim, loop_range. rewrite Nat.sub_0_r. reflexivity.
Qed.

Section Run.
Context {C CE O OE : Type} (ct : CutType RNum C) (ctE : CutType ENum CE) (finc : C -> CE) (deep : C -> Prop).
Variables (n : nat) (rel : OE -> O -> Prop) (lev : ext -> R -> Prop).
Hypothesis Hn : (2 <= n)%nat.

(** what one update gives: in step, or stopped by width zero *)
Lemma step_sim m (e : Ell RNum) g c e' st : defined_ok ct ctE finc m deep -> valid n e -> vecn n (e_xc e) -> vecn n g -> deep c ->
  apply_cut (N := RNum) ct m e (g, c) = Ok (e', st) ->
  (valid n e' /\ vecn n (e_xc e') /\ apply_cut (N := ENum) ctE m (fin_ell e) (fin_arr g, finc c) = Ok (fin_ell e', st)) \/
  (e_tsq e' = 0 /\ exists eE stE, apply_cut (N := ENum) ctE m (fin_ell e) (fin_arr g, finc c) = Ok (eE, stE) /\ e_tsq eE = Fin 0).
Proof.
  intros Hdef V HX Hg Hd E. pose proof (tsq_is_width ct m n e g c e' st V Hg E) as Et. pose proof (tsq_nonneg n e g V) as H0.
  destruct (Rle_lt_or_eq_dec _ _ H0) as [Hw|Hw].
  - left. destruct (Hdef n e g c Hn V Hg Hw Hd) as (e2 & st2 & E2 & V2 & E3). rewrite E in E2. inversion E2; subst e2 st2.
    split; [exact V2|]. split; [|exact E3]. split; [apply (v_xc _ _ V2)|]. rewrite (cols_kept ct m n e g c e' st (valid_wf _ _ V) Hg E). apply HX.
  - right. split; [lra|]. exact (zero_step ctE m n e g (finc c) V Hg (eq_sym Hw)).
Qed.

Lemma lt_fin (a b : R) : nltb (n := ENum) (Fin a) (Fin b) = Rlt_bool a b. Proof. reflexivity. Qed.

Lemma feas_follows Inv (oraE : OracleFeas ENum (Arr ENum) CE OE) (ora : OracleFeas RNum (Arr RNum) C O) (opt : Options RNum) oE o (e : Ell RNum) o' e' ans k :
  defined_ok ct ctE finc Bias deep -> feas_sim finc n rel Inv oraE ora -> feas_deep n deep Inv ora -> rel oE o -> Inv o -> valid n e -> vecn n (e_xc e) -> 0 < tolerance opt ->
  cutting_plane_feas ora (ell_space (N := RNum) ct) opt o e = Ok (o', e', (ans, k)) ->
  exists oE' eE, cutting_plane_feas oraE (ell_space (N := ENum) ctE) (fin_options opt) oE (fin_ell e) = Ok (oE', eE, (option_map fin_arr ans, k)) /\ rel oE' o' /\
    (e_tsq e' <> 0 \/ ans <> None \/ k = max_iters opt -> eE = fin_ell e').
Proof.
  intros Hdef Hsim Hdeep Hrel HI V HX Ht E. unfold cutting_plane_feas in E. apply bind_inv in E as (c & E & Ek).
  unfold cutting_plane_feas. unfold loop_range in *. cbn [max_iters fin_options] in *.
  match goal with |- context [loop_up ?kk ?l ?bodyE ?stE] => match type of E with loop_up _ _ ?body ?st = _ =>
    pose proof (loop_sim (fun '((o, s) : O * Ell RNum) '((oE, sE) : OE * Ell ENum) => rel oE o /\ Inv o /\ valid n s /\ vecn n (e_xc s) /\ sE = fin_ell s)
      (fun i '((o, s, (an, q)) : O * Ell RNum * (option (Arr RNum) * nat)) '((oE, sE, (anE, qE)) : OE * Ell ENum * (option (Arr ENum) * nat)) =>
         rel oE o /\ anE = option_map fin_arr an /\ qE = q /\ q = i /\ (e_tsq s <> 0 \/ an <> None -> sE = fin_ell s)) body bodyE kk l st stE) as L end end.
  rewrite E in L. clear E.
  match type of L with ?A -> ?B -> _ => assert (A1 : A); [|specialize (L A1); assert (B1 : B); [|specialize (L B1)]] end.
  - auto.
  - intros i [o1 s1] [oE1 sE1] _ (HR & HI1 & V1 & HX1 & ->).
    destruct (of_assess ora o1 (sp_xc (ell_space (N := RNum) ct) s1)) as [[o2 an]|] eqn:Ea; [|exact I]. cbn [bind].
    destruct (Hsim oE1 o1 (e_xc s1) o2 an HR HI1 HX1 Ea) as (oE2 & EaE & HR2).
    change (sp_xc (ell_space (N := ENum) ctE) (fin_ell s1)) with (fin_arr (e_xc s1)). rewrite EaE. cbn [bind].
    destruct (Hdeep o1 (e_xc s1) o2 an HI1 HX1 Ea) as [HI2 Hd].
    destruct an as [[g c0]|]; cbn [option_map fst snd].
    + destruct (Hd g c0 eq_refl) as [Hg Hd0].
      change (sp_update_bias_cut (ell_space (N := RNum) ct) s1 (g, c0)) with (apply_cut (N := RNum) ct Bias s1 (g, c0)).
      change (sp_update_bias_cut (ell_space (N := ENum) ctE) (fin_ell s1) (fin_arr g, finc c0)) with (apply_cut (N := ENum) ctE Bias (fin_ell s1) (fin_arr g, finc c0)).
      destruct (apply_cut (N := RNum) ct Bias s1 (g, c0)) as [[s2 st]|] eqn:Eu; [|exact I]. cbn [bind].
      destruct (step_sim Bias s1 g c0 s2 st Hdef V1 HX1 Hg Hd0 Eu) as [(V2 & HX2 & EE)|(H0 & eE & stE & EE & HE)]; rewrite EE; cbn [bind].
      * change (sp_tsq (ell_space (N := ENum) ctE) (fin_ell s2)) with (Fin (e_tsq s2)). cbn [tolerance fin_options]. change (nltb (n := ENum) (Fin (e_tsq s2)) (Fin (tolerance opt))) with (Rlt_bool (e_tsq s2) (tolerance opt)).
        change (nltb (n := RNum) (sp_tsq (ell_space (N := RNum) ct) s2) (tolerance opt)) with (Rlt_bool (e_tsq s2) (tolerance opt)).
        destruct (negb (is_success st) || Rlt_bool (e_tsq s2) (tolerance opt)); eexists; (split; [reflexivity|]); cbv beta iota; repeat (split; [solve [auto]|]); auto.
      * change (sp_tsq (ell_space (N := ENum) ctE) eE) with (e_tsq eE). rewrite HE. cbn [tolerance fin_options]. change (nltb (n := ENum) (Fin 0) (Fin (tolerance opt))) with (Rlt_bool 0 (tolerance opt)).
        change (nltb (n := RNum) (sp_tsq (ell_space (N := RNum) ct) s2) (tolerance opt)) with (Rlt_bool (e_tsq s2) (tolerance opt)). cbn [num RNum] in *. rewrite H0.
        rewrite (Rlt_bool_true 0 (tolerance opt)) by exact Ht. rewrite !orb_true_r. eexists; split; [reflexivity|]. split; auto. do 3 (split; auto). intros [HH|HH]; congruence.
    + eexists; split; [reflexivity|]. cbv beta iota. repeat (split; [solve [auto]|]); auto.
  - destruct c as [[o1 s1]|[[o1 s1] [an q]]]; inversion Ek; subst; clear Ek.
    + destruct L as ([oE1 sE1] & LE & HR & _ & _ & _ & ->). exists oE1, (fin_ell e'). cbn in LE |- *. rewrite LE. cbn. auto.
    + destruct L as (i & [[oE1 sE1] [anE qE]] & Hi & LE & HR & -> & -> & -> & HH). exists oE1, sE1. cbn in LE |- *. rewrite LE. cbn. split; [reflexivity|]. split; [exact HR|].
      intros [H|[H|H]]; [apply HH; auto|apply HH; auto|lia].
Qed.

Lemma after_sim (opt : Options RNum) i o2 oE2 (s1 : Ell RNum) (ga2 : R) (gaE2 : ext) xb g c (sh : bool) :
  defined_ok ct ctE finc Bias deep -> defined_ok ct ctE finc Central deep -> valid n s1 -> vecn n (e_xc s1) -> vecn n g -> deep c -> 0 < tolerance opt ->
  match opt_after (N := RNum) ct opt i (o2 : O) s1 ga2 xb (g, c) sh with
  | Ok (Next (o3, s3, ga3, xb3)) => o3 = o2 /\ ga3 = ga2 /\ xb3 = (if sh then Some (e_xc s1) else xb) /\ valid n s3 /\ vecn n (e_xc s3) /\
      opt_after (N := ENum) ctE (fin_options opt) i (oE2 : OE) (fin_ell s1) gaE2 (option_map fin_arr xb) (fin_arr g, finc c) sh = Ok (Next (oE2, fin_ell s3, gaE2, option_map fin_arr xb3))
  | Ok (Done (o3, s3, ga3, (an, q))) => o3 = o2 /\ ga3 = ga2 /\ an = (if sh then Some (e_xc s1) else xb) /\ q = i /\
      exists sE, opt_after (N := ENum) ctE (fin_options opt) i oE2 (fin_ell s1) gaE2 (option_map fin_arr xb) (fin_arr g, finc c) sh = Ok (Done (oE2, sE, gaE2, (option_map fin_arr an, i))) /\ (e_tsq s3 <> 0 -> sE = fin_ell s3)
  | Panic => True end.
Proof.
  intros Hdef HdefC V1 HX1 Hg Hd0 Ht. unfold opt_after.
  set (m := if sh then Central else Bias).
  assert (Hdm : defined_ok ct ctE finc m deep) by (unfold m; destruct sh; auto).
  set (xb' := if sh then Some (e_xc s1) else xb).
  match goal with |- context [bind (if sh then ?a else ?b) _] => 
    assert (X : (if sh then a else b) = (r <- apply_cut (N := RNum) ct m s1 (g, c) ;; Ok (xb', r))) by (unfold m, xb'; destruct sh; reflexivity); rewrite X; clear X end.
  match goal with |- context [bind (if sh then ?a else ?b) _] => 
    assert (X : (if sh then a else b) = (r <- apply_cut (N := ENum) ctE m (fin_ell s1) (fin_arr g, finc c) ;; Ok (option_map fin_arr xb', r))) by (unfold m, xb'; destruct sh; reflexivity); rewrite X; clear X end.
  destruct (apply_cut (N := RNum) ct m s1 (g, c)) as [[s2 st]|] eqn:Eu; [|exact I]. cbn [bind].
  destruct (step_sim m s1 g c s2 st Hdm V1 HX1 Hg Hd0 Eu) as [(V2 & HX2 & EE)|(H0 & eE & stE & EE & HE)]; rewrite EE; cbn [bind].
  - change (e_tsq (fin_ell s2)) with (Fin (e_tsq s2)). cbn [tolerance fin_options]. 
    change (nltb (n := ENum) (Fin (e_tsq s2)) (Fin (tolerance opt))) with (Rlt_bool (e_tsq s2) (tolerance opt)).
    change (nltb (n := RNum) (e_tsq s2) (tolerance opt)) with (Rlt_bool (e_tsq s2) (tolerance opt)).
    destruct (negb (is_success st) || Rlt_bool (e_tsq s2) (tolerance opt)); auto 10. repeat (split; [reflexivity|]). eexists. split; [reflexivity|auto].
  - rewrite HE. cbn [tolerance fin_options].
    change (nltb (n := ENum) (Fin 0) (Fin (tolerance opt))) with (Rlt_bool 0 (tolerance opt)).
    change (nltb (n := RNum) (e_tsq s2) (tolerance opt)) with (Rlt_bool (e_tsq s2) (tolerance opt)). cbn [num RNum] in *. rewrite H0.
    rewrite (Rlt_bool_true 0 (tolerance opt)) by exact Ht. rewrite !orb_true_r. repeat (split; [reflexivity|]). eexists. split; [reflexivity|]. intros HH; congruence.
Qed.
Section Loop.
Variables (Inv : O -> R -> Prop) (oraE : OracleOptim ENum (Arr ENum) CE OE) (ora : OracleOptim RNum (Arr RNum) C O) (opt : Options RNum).
Hypotheses (Hdef : defined_ok ct ctE finc Bias deep) (HdefC : defined_ok ct ctE finc Central deep).
Hypotheses (Hsim : optim_sim finc n rel lev Inv oraE ora) (Hdeep : optim_deep n deep Inv ora) (Ht : 0 < tolerance opt).
Lemma optim_loop k lo o s (ga : R) xb oE gaE : rel oE o -> lev gaE ga -> Inv o ga -> valid n s -> vecn n (e_xc s) ->
  match loop_up k lo (opt_body (N := RNum) ora ct opt) (o, s, ga, xb) with
  | Ok (Next (o', s', ga', xb')) => exists oE' gaE', loop_up k lo (opt_body (N := ENum) oraE ctE (fin_options opt)) (oE, fin_ell s, gaE, option_map fin_arr xb) = Ok (Next (oE', fin_ell s', gaE', option_map fin_arr xb')) /\ rel oE' o' /\ lev gaE' ga'
  | Ok (Done (o', s', ga', (an, q))) => exists oE' sE gaE', loop_up k lo (opt_body (N := ENum) oraE ctE (fin_options opt)) (oE, fin_ell s, gaE, option_map fin_arr xb) = Ok (Done (oE', sE, gaE', (option_map fin_arr an, q))) /\
      rel oE' o' /\ lev gaE' ga' /\ (lo <= q < lo + k)%nat /\ (e_tsq s' <> 0 -> sE = fin_ell s')
  | Panic => True end.
Proof.
  revert lo o s ga xb oE gaE. induction k as [|k IH]; intros lo o s ga xb oE gaE HR HL HI V HX; cbn [loop_up].
  - exists oE, gaE. auto.
  - unfold opt_body at 1 3. cbn [bind]. destruct (ora o (e_xc s) ga) as [[[o2 ga2] [[g c0] sh]]|] eqn:Ea; [|exact I]. cbn [bind].
    destruct (Hsim oE o (e_xc s) gaE ga o2 ga2 g c0 sh HR HL HI HX Ea) as (oE2 & gaE2 & EaE & HR2 & HL2).
    change (e_xc (fin_ell s)) with (fin_arr (e_xc s)). 
    destruct (Hdeep o (e_xc s) ga o2 ga2 g c0 sh HI HX Ea) as (HI2 & Hg & Hd0).
    pose proof (after_sim opt lo o2 oE2 s ga2 gaE2 xb g c0 sh Hdef HdefC V HX Hg Hd0 Ht) as A.
    destruct (opt_after (N := RNum) ct opt lo o2 s ga2 xb (g, c0) sh) as [[[[[o3 s3] ga3] xb3]|[[[o3 s3] ga3] [an q]]]|]; [| |exact I]; cbn [bind].
    + destruct A as (-> & -> & -> & V3 & HX3 & EA). specialize (IH (S lo) o2 s3 ga2 (if sh then Some (e_xc s) else xb) oE2 gaE2 HR2 HL2 HI2 V3 HX3).
      match type of IH with match ?u with _ => _ end => match goal with |- match ?v with _ => _ end => change v with u; destruct u as [[[[[o4 s4] ga4] xb4]|[[[o4 s4] ga4] [an q]]]|] end end; [| |exact I].
      * destruct IH as (oE' & gaE' & E & H). exists oE', gaE'. split; [|exact H]. unfold opt_body at 1. cbn [num ENum] in *. change (e_xc (fin_ell s)) with (fin_arr (e_xc s)). rewrite EaE. cbn [bind]. rewrite EA. cbn [bind]. exact E.
      * destruct IH as (oE' & sE & gaE' & E & H1 & H2 & H3 & H4). exists oE', sE, gaE'. split; [|split; [exact H1|split; [exact H2|split; [lia|exact H4]]]].
        unfold opt_body at 1. cbn [num ENum] in *. change (e_xc (fin_ell s)) with (fin_arr (e_xc s)). rewrite EaE. cbn [bind]. rewrite EA. cbn [bind]. exact E.
    + destruct A as (-> & -> & -> & -> & sE & EA & HsE). exists oE2, sE, gaE2. split; [|split; [exact HR2|split; [exact HL2|split; [lia|exact HsE]]]].
      unfold opt_body at 1. cbn [num ENum] in *. change (e_xc (fin_ell s)) with (fin_arr (e_xc s)). rewrite EaE. cbn [bind]. rewrite EA. reflexivity.
Qed.
End Loop.
Lemma optim_follows Inv (oraE : OracleOptim ENum (Arr ENum) CE OE) (ora : OracleOptim RNum (Arr RNum) C O) (opt : Options RNum) oE o (e : Ell RNum) gE (gamma : R) o' e' (gamma' : R) ans k :
  defined_ok ct ctE finc Bias deep -> defined_ok ct ctE finc Central deep -> optim_sim finc n rel lev Inv oraE ora -> optim_deep n deep Inv ora -> rel oE o -> lev gE gamma -> Inv o gamma -> valid n e -> vecn n (e_xc e) -> 0 < tolerance opt ->
  cutting_plane_optim ora (ell_space (N := RNum) ct) opt o e gamma = Ok (o', e', gamma', (ans, k)) ->
  exists oE' eE gE', cutting_plane_optim oraE (ell_space (N := ENum) ctE) (fin_options opt) oE (fin_ell e) gE = Ok (oE', eE, gE', (option_map fin_arr ans, k)) /\ rel oE' o' /\ lev gE' gamma' /\
    (e_tsq e' <> 0 \/ k = max_iters opt -> eE = fin_ell e').
Proof.
  intros Hdef HdefC Hsim Hdeep Hrel Hlev HI V HX Ht E. rewrite (optim_body (N := RNum)) in E. rewrite (optim_body (N := ENum)).
  pose proof (optim_loop Inv oraE ora opt Hdef HdefC Hsim Hdeep Ht (max_iters opt) 0 o e gamma None oE gE Hrel Hlev HI V HX) as L.
  apply bind_inv in E as (cc & El & Ek). match type of L with match ?u with _ => _ end => assert (El' : u = Ok cc) by exact El end. rewrite El' in L. clear El'.
  destruct cc as [[[[o4 s4] ga4] xb4]|[[[o4 s4] ga4] [an q]]]; inversion Ek; subst; clear Ek El.
  - destruct L as (oE' & gaE' & E & H1 & H2). exists oE', (fin_ell e'), gaE'. split; [exact (f_equal (fun r => bind r _) E)|auto].
  - destruct L as (oE' & sE & gaE' & E & H1 & H2 & H3 & H4). exists oE', sE, gaE'. split; [exact (f_equal (fun r => bind r _) E)|]. split; [exact H1|]. split; [exact H2|]. intros [H|H]; [auto|lia].
Qed.

Lemma optim_q_follows Inv (oraE : OracleOptimQ ENum (Arr ENum) CE OE) (ora : OracleOptimQ RNum (Arr RNum) C O) (opt : Options RNum) oE o (e : Ell RNum) gE (gamma : R) o' e' (gamma' : R) ans k :
  defined_ok ct ctE finc Quantised deep -> optim_q_sim finc n rel lev Inv oraE ora -> optim_q_deep n deep Inv ora -> rel oE o -> lev gE gamma -> Inv o gamma -> valid n e -> vecn n (e_xc e) -> 0 < tolerance opt ->
  cutting_plane_optim_q ora (ell_space (N := RNum) ct) opt o e gamma = Ok (o', e', gamma', (ans, k)) ->
  exists oE' eE gE', cutting_plane_optim_q oraE (ell_space (N := ENum) ctE) (fin_options opt) oE (fin_ell e) gE = Ok (oE', eE, gE', (option_map fin_arr ans, k)) /\ rel oE' o' /\ lev gE' gamma' /\
    (e_tsq e' <> 0 \/ k = max_iters opt -> eE = fin_ell e').
Proof.
  intros Hdef Hsim Hdeep Hrel Hlev HI V HX Ht E. unfold cutting_plane_optim_q in E. apply bind_inv in E as (c & E & Ek).
  unfold cutting_plane_optim_q. unfold loop_range in *. cbn [max_iters fin_options] in *.
  match goal with |- context [loop_up ?kk ?l ?bodyE ?stE] => match type of E with loop_up _ _ ?body ?st = _ =>
    pose proof (loop_sim (fun '((o, s, ga, xb, r) : O * Ell RNum * num RNum * option (Arr RNum) * bool) '((oE, sE, gaE, xbE, rE) : OE * Ell ENum * num ENum * option (Arr ENum) * bool) =>
        rel oE o /\ Inv o ga /\ valid n s /\ vecn n (e_xc s) /\ sE = fin_ell s /\ lev gaE ga /\ xbE = option_map fin_arr xb /\ rE = r)
      (fun i '((o, s, ga, (an, q)) : O * Ell RNum * num RNum * (option (Arr RNum) * nat)) '((oE, sE, gaE, (anE, qE)) : OE * Ell ENum * num ENum * (option (Arr ENum) * nat)) =>
         rel oE o /\ lev gaE ga /\ anE = option_map fin_arr an /\ qE = q /\ q = i /\ (e_tsq s <> 0 -> sE = fin_ell s)) body bodyE kk l st stE) as L end end.
  cbn [num RNum ENum] in *. rewrite E in L. clear E.
  match type of L with ?A -> ?B -> _ => assert (A1 : A); [|specialize (L A1); assert (B1 : B); [|specialize (L B1)]] end.
  - auto 10.
  - intros i [[[[o1 s1] ga1] xb1] r1] [[[[oE1 sE1] gaE1] xbE1] rE1] _ (HR & HI1 & V1 & HX1 & -> & HL1 & -> & ->).
    destruct (ora o1 (sp_xc (ell_space (N := RNum) ct) s1) ga1 r1) as [[[o2 ga2] [[[[g c0] sh] xq] more]]|] eqn:Ea; [|exact I]. cbn [bind].
    destruct (Hsim oE1 o1 (e_xc s1) gaE1 ga1 r1 o2 ga2 g c0 sh xq more HR HL1 HI1 HX1 Ea) as (oE2 & gaE2 & EaE & HR2 & HL2).
    change (sp_xc (ell_space (N := ENum) ctE) (fin_ell s1)) with (fin_arr (e_xc s1)). rewrite EaE. cbn [bind].
    destruct (Hdeep o1 (e_xc s1) ga1 r1 o2 ga2 g c0 sh xq more HI1 HX1 Ea) as (HI2 & Hg & Hd0).
    set (xb := if sh then Some xq else xb1). set (r2 := if sh then false else r1).
    replace (if sh then (Some xq, false) else (xb1, r1)) with (xb, r2) by (unfold xb, r2; destruct sh; reflexivity).
    replace (if sh then (Some (fin_arr xq), false) else (option_map fin_arr xb1, r1)) with (option_map fin_arr xb, r2) by (unfold xb, r2; destruct sh; reflexivity).
    change (sp_update_q (ell_space (N := RNum) ct) s1 (g, c0)) with (apply_cut (N := RNum) ct Quantised s1 (g, c0)).
    change (sp_update_q (ell_space (N := ENum) ctE) (fin_ell s1) (fin_arr g, finc c0)) with (apply_cut (N := ENum) ctE Quantised (fin_ell s1) (fin_arr g, finc c0)).
    destruct (apply_cut (N := RNum) ct Quantised s1 (g, c0)) as [[s2 st]|] eqn:Eu; [|exact I]. cbn [bind].
    destruct (step_sim Quantised s1 g c0 s2 st Hdef V1 HX1 Hg Hd0 Eu) as [(V2 & HX2 & EE)|(H0 & eE & stE & EE & HE)]; rewrite EE; cbn [bind]; cbv zeta.
    + change (sp_tsq (ell_space (N := ENum) ctE) (fin_ell s2)) with (Fin (e_tsq s2)). cbn [tolerance fin_options]. 
      change (nltb (n := ENum) (Fin (e_tsq s2)) (Fin (tolerance opt))) with (Rlt_bool (e_tsq s2) (tolerance opt)).
      change (nltb (n := RNum) (sp_tsq (ell_space (N := RNum) ct) s2) (tolerance opt)) with (Rlt_bool (e_tsq s2) (tolerance opt)).
      destruct st, more, (Rlt_bool (e_tsq s2) (tolerance opt)); cbn [negb]; eexists; (split; [reflexivity|]); cbv beta iota; repeat (split; [solve [auto]|]); auto.
    + change (sp_tsq (ell_space (N := ENum) ctE) eE) with (e_tsq eE). rewrite HE. cbn [tolerance fin_options].
      change (nltb (n := ENum) (Fin 0) (Fin (tolerance opt))) with (Rlt_bool 0 (tolerance opt)).
      change (nltb (n := RNum) (sp_tsq (ell_space (N := RNum) ct) s2) (tolerance opt)) with (Rlt_bool (e_tsq s2) (tolerance opt)). cbn [num RNum] in *. rewrite H0.
      rewrite (Rlt_bool_true 0 (tolerance opt)) by exact Ht.
      destruct st, stE, more; cbn [negb]; eexists; (split; [reflexivity|]); cbv beta iota; repeat (split; [solve [auto]|]); intros HH; congruence.
  - destruct c as [[[[[o1 s1] ga1] xb1] r1]|[[[o1 s1] ga1] [an q]]]; inversion Ek; subst; clear Ek.
    + destruct L as ([[[[oE1 sE1] gaE1] xbE1] rE1] & LE & HR & _ & _ & _ & -> & HL & -> & _). exists oE1, (fin_ell e'), gaE1. cbn in LE |- *. rewrite LE. cbn. auto.
    + destruct L as (i & [[[oE1 sE1] gaE1] [anE qE]] & Hi & LE & HR & HL & -> & -> & -> & HH). exists oE1, sE1, gaE1. cbn in LE |- *. rewrite LE. cbn. split; [reflexivity|]. split; [exact HR|]. split; [exact HL|].
      intros [H|H]; [apply HH; auto|lia].
Qed.
End Run.

(** ** Binary search *)
Lemma bsearch_follows {B BE : Type} (relB : BE -> B -> Prop) (oraE : OracleBS ENum BE) (ora : OracleBS RNum B) (opt : Options RNum) bE b (l u : R) b' iv ans :
  (forall bE b ga b' a, relB bE b -> ora b ga = Ok (b', a) -> exists bE', oraE bE (Fin ga) = Ok (bE', a) /\ relB bE' b') ->
  relB bE b -> bsearch ora opt b (l, u) = Ok (b', iv, ans) ->
  exists bE', bsearch oraE (fin_options opt) bE (Fin l, Fin u) = Ok (bE', (Fin l, Fin u), ans) /\ relB bE' b'.
Proof.
  intros Hs HR E. unfold bsearch in *. change (nleb (n := ENum) (Fin l) (Fin u)) with (Rle_bool l u). change (nleb (n := RNum) l u) with (Rle_bool l u) in E.
  destruct (Rle_bool l u); [|discriminate]. cbn [assert] in *. apply bind_inv in E as (c & E & Ek).
  unfold loop_range in *. cbn [max_iters fin_options] in *.
  match goal with |- context [loop_up ?kk ?l ?bodyE ?stE] => match type of E with loop_up _ _ ?body ?st = _ =>
    pose proof (loop_sim (fun '((b, lo, hi) : B * num RNum * num RNum) '((bE, loE, hiE) : BE * num ENum * num ENum) => relB bE b /\ loE = Fin lo /\ hiE = Fin hi)
      (fun _ '((b, r) : B * (bool * nat)) '((bE, rE) : BE * (bool * nat)) => relB bE b /\ rE = r) body bodyE kk l st stE) as L end end.
  cbn [num RNum ENum] in *. rewrite E in L. clear E.
  match type of L with ?A -> ?B -> _ => assert (A1 : A); [|specialize (L A1); assert (B1 : B); [|specialize (L B1)]] end.
  - auto.
  - intros i [[b1 lo] hi] [[bE1 loE] hiE] _ (HR1 & -> & ->). cbv zeta. cbn [tolerance fin_options].
    assert (Et : ndiv (n := ENum) (nsub (n := ENum) (Fin hi) (Fin lo)) n2 = Fin ((hi - lo) / 2)).
    { change (ext_div (ext_sub (Fin hi) (Fin lo)) (Fin 2) = Fin ((hi - lo) / 2)). rewrite ext_sub_fin. apply ext_div_fin. lra. }
    cbn [num ENum RNum] in Et |- *. rewrite Et.
    change (ndiv (n := RNum) (nsub (n := RNum) hi lo) n2) with ((hi - lo) / 2).
    change (nltb (n := ENum) (Fin ((hi - lo) / 2)) (Fin (tolerance opt))) with (Rlt_bool ((hi - lo) / 2) (tolerance opt)).
    change (nltb (n := RNum) ((hi - lo) / 2) (tolerance opt)) with (Rlt_bool ((hi - lo) / 2) (tolerance opt)).
    destruct (Rlt_bool ((hi - lo) / 2) (tolerance opt)).
    + eexists. split; [reflexivity|]. split; [exact HR1|reflexivity].
    + change (nadd (n := ENum) (Fin lo) (Fin ((hi - lo) / 2))) with (Fin (lo + (hi - lo) / 2)).
      change (nadd (n := RNum) lo ((hi - lo) / 2)) with (lo + (hi - lo) / 2).
      destruct (ora b1 (lo + (hi - lo) / 2)) as [[b2 a]|] eqn:Eo; [|exact I]. cbn [bind].
      destruct (Hs bE1 b1 _ b2 a HR1 Eo) as (bE2 & EE & HR2). rewrite EE. cbn [bind]. destruct a; eexists; (split; [reflexivity|]); (split; [exact HR2|split; reflexivity]).
  - destruct c as [[[b1 lo] hi]|[b1 r]]; inversion Ek; subst; clear Ek.
    + destruct L as ([[bE1 loE] hiE] & LE & HR1 & -> & ->). exists bE1. rewrite LE. cbn [bind]. split; [reflexivity|exact HR1].
    + destruct L as (i & [bE1 rE] & Hi & LE & HR1 & ->). exists bE1. rewrite LE. cbn. auto.
Qed.

Section Adaptor.
Context {C CE O OE : Type} (ct : CutType RNum C) (ctE : CutType ENum CE) (finc : C -> CE) (deep : C -> Prop).
Variables (n : nat) (rel : OE -> O -> Prop) (Inv : O -> Prop) (opt : Options RNum).
Hypothesis Hn : (2 <= n)%nat.

(** adaptors over the same ellipsoid, with related oracles *)
Definition ad_rel (bE : BSearchAdaptor ENum OE (Ell ENum)) (b : BSearchAdaptor RNum O (Ell RNum)) : Prop :=
  rel (ba_omega bE) (ba_omega b) /\ Inv (ba_omega b) /\ valid n (ba_space b) /\ vecn n (e_xc (ba_space b)) /\ ba_space bE = fin_ell (ba_space b) /\
  ba_options b = opt /\ ba_options bE = fin_options opt.

Lemma feas_stays (ora : OracleFeas RNum (Arr RNum) C O) o (e : Ell RNum) o' e' ans k :
  defined_ok ct ctE finc Bias deep -> feas_deep n deep Inv ora -> Inv o -> valid n e -> vecn n (e_xc e) -> 0 < tolerance opt ->
  cutting_plane_feas ora (ell_space (N := RNum) ct) opt o e = Ok (o', e', (ans, k)) -> Inv o' /\ forall x, ans = Some x -> vecn n x.
Proof.
  intros Hdef Hdeep HI V HX Ht E. unfold cutting_plane_feas in E. apply bind_inv in E as (c & E & Ek). unfold loop_range in E.
  match type of E with loop_up ?kk ?l ?body ?st = _ =>
    pose proof (loop_part (fun _ '((o, s) : O * Ell RNum) => Inv o /\ valid n s /\ vecn n (e_xc s))
      (fun '((o, _, (an, _)) : O * Ell RNum * (option (Arr RNum) * nat)) => Inv o /\ forall x, an = Some x -> vecn n x) body kk l st) as L end.
  rewrite E in L. clear E.
  match type of L with ?A -> ?B -> ?D -> _ => assert (A1 : A); [|specialize (L A1); assert (B1 : B); [|specialize (L B1); assert (D1 : D); [|specialize (L D1)]]] end.
  - auto.
  - intros i [o1 s1] [o2 s2] _ (HI1 & V1 & HX1) EB. apply bind_inv in EB as ([o3 an] & Ea & EB).
    destruct (Hdeep _ _ _ _ HI1 HX1 Ea) as [HI2 Hd]. destruct an as [[g c0]|]; [|discriminate]. destruct (Hd g c0 eq_refl) as [Hg Hd0].
    apply bind_inv in EB as ([s3 st] & Eu & EB). destruct (negb (is_success st) || _) eqn:B; [discriminate|]. inversion EB; subst o3 s3.
    apply orb_false_iff in B as [_ B]. cbn in B. apply Rlt_bool_no in B.
    destruct (step_sim ct ctE finc deep n Hn Bias s1 g c0 s2 st Hdef V1 HX1 Hg Hd0 Eu) as [(V2 & HX2 & _)|(H0 & _)]; [auto|cbn [num RNum] in *; lra].
  - intros i [o1 s1] [[o2 s2] [an' kk]] _ (HI1 & V1 & HX1) EB. apply bind_inv in EB as ([o3 an] & Ea & EB).
    destruct (Hdeep _ _ _ _ HI1 HX1 Ea) as [HI2 Hd]. destruct an as [[g c0]|].
    + apply bind_inv in EB as ([s3 st] & Eu & EB). destruct (negb (is_success st) || _) eqn:B; [|discriminate]. inversion EB; subst. split; auto. discriminate.
    + inversion EB; subst. split; auto. intros x Ex. inversion Ex; subst. exact HX1.
  - destruct c as [[o1 s1]|[[o1 s1] [an' kk]]]; inversion Ek; subst; [|exact L]. split; [apply L|discriminate].
Qed.

Lemma adaptor_follows (oraE : OracleFeas ENum (Arr ENum) CE OE) (ora : OracleFeas RNum (Arr RNum) C O) bE b (ga : R) b' a :
  defined_ok ct ctE finc Bias deep -> feas_sim finc n rel Inv oraE ora -> feas_deep n deep Inv ora -> 0 < tolerance opt ->
  (forall oE o ga, rel oE o -> Inv o -> rel (of_update oraE oE (Fin ga)) (of_update ora o ga) /\ Inv (of_update ora o ga)) ->
  ad_rel bE b -> assess_bs ora (ell_space (N := RNum) ct) b ga = Ok (b', a) ->
  exists bE', assess_bs oraE (ell_space (N := ENum) ctE) bE (Fin ga) = Ok (bE', a) /\ ad_rel bE' b'.
Proof.
  intros Hdef Hsim Hdeep Ht Hup (HR & HI & V & HX & ES & EO & EOE) E. destruct (Hup (ba_omega bE) (ba_omega b) ga HR HI) as [HR' HI'].
  unfold assess_bs in *. apply bind_inv in E as ([[o1 s1] [xf k]] & Ef & E). rewrite EO in Ef.
  destruct (feas_follows ct ctE finc deep n rel Hn Inv oraE ora opt _ _ _ _ _ _ _ Hdef Hsim Hdeep HR' HI' V HX Ht Ef) as (oE1 & eE & EE & HR1 & _).
  destruct (feas_stays ora _ _ _ _ _ _ Hdef Hdeep HI' V HX Ht Ef) as [HI1 Hx].
  rewrite ES, EOE, EE. cbn [bind]. destruct xf as [x|]; inversion E; subst; cbn [option_map]; eexists; (split; [reflexivity|]).
  - split; [exact HR1|]. split; [exact HI1|]. cbn [ba_space ba_options ba_omega]. change (sp_set_xc (ell_space (N := RNum) ct) (ba_space b) x) with (ell_set_xc (ba_space b) x).
    pose proof (Hx x eq_refl) as Hv. split; [|split; [exact Hv|auto]]. destruct V. constructor; auto. apply Hv.
  - split; [exact HR1|]. split; [exact HI1|]. cbn [ba_space ba_options ba_omega]. auto.
Qed.
End Adaptor.

(** ** Starting from an infinitely bad level *)
Section Far.
Context {C CE O OE : Type} (ct : CutType RNum C) (ctE : CutType ENum CE) (finc : C -> CE) (deep : C -> Prop).
Variables (n : nat) (rel : OE -> O -> Prop).
Hypothesis Hn : (2 <= n)%nat.
Variables (worse : R -> R -> Prop) (bad : ext) (Inv : O -> Prop) (oraE : OracleOptim ENum (Arr ENum) CE OE) (ora : OracleOptim RNum (Arr RNum) C O) (opt : Options RNum).
Hypotheses (Hrefl : forall a, worse a a) (Hdir : forall a b : R, exists c, forall ga, worse ga c -> worse ga a /\ worse ga b).
Hypotheses (Hdef : defined_ok ct ctE finc Bias deep) (HdefC : defined_ok ct ctE finc Central deep).
Hypotheses (Hsim : optim_sim finc n rel same_level (fun o _ => Inv o) oraE ora) (Hfar : far_sim finc n rel worse bad Inv oraE ora).
Hypotheses (Hdeep : optim_deep n deep (fun o _ => Inv o) ora) (Ht : 0 < tolerance opt).
Notation loopR := (fun k lo st => loop_up k lo (opt_body (N := RNum) ora ct opt) st).
Notation loopE := (fun k lo st => loop_up k lo (opt_body (N := ENum) oraE ctE (fin_options opt)) st).
Lemma far_loop k : forall lo o s oE, rel oE o -> Inv o -> valid n s -> vecn n (e_xc s) ->
  exists T : R, forall ga : R, worse ga T ->
  match loopR k lo (o, s, ga, None) with
  | Ok (Next (o', s', ga', xb')) => exists oE' gaE', loopE k lo (oE, fin_ell s, bad, None) = Ok (Next (oE', fin_ell s', gaE', option_map fin_arr xb')) /\ rel oE' o' /\ ((xb' = None /\ gaE' = bad) \/ gaE' = Fin ga')
  | Ok (Done (o', s', ga', (an, q))) => exists oE' sE gaE', loopE k lo (oE, fin_ell s, bad, None) = Ok (Done (oE', sE, gaE', (option_map fin_arr an, q))) /\
      rel oE' o' /\ ((an = None /\ gaE' = bad) \/ gaE' = Fin ga') /\ (lo <= q < lo + k)%nat /\ (e_tsq s' <> 0 -> sE = fin_ell s')
  | Panic => True end.
Proof.
  induction k as [|k IH]; intros lo o s oE HR HI V HX; cbn [loop_up].
  - exists 0. intros ga _. exists oE, bad. auto.
  - destruct (Hfar oE o (e_xc s) HR HI HX) as (T & o2 & l & g & c & sh & oE2 & Ea & EaE & HR2).
    destruct (Hdeep o (e_xc s) T o2 (if sh then l else T) g c sh HI HX (Ea T (Hrefl T))) as (HI2 & Hg & Hd).
    destruct sh.
    + exists T. intros ga Hga. unfold opt_body at 1. rewrite (Ea ga Hga). cbn [bind].
      pose proof (after_sim ct ctE finc deep n Hn opt lo o2 oE2 s l (Fin l) None g c true Hdef HdefC V HX Hg Hd Ht) as A. cbn [option_map] in A.
      assert (B : opt_body (N := ENum) oraE ctE (fin_options opt) lo (oE, fin_ell s, bad, None) = opt_after (N := ENum) ctE (fin_options opt) lo oE2 (fin_ell s) (Fin l) None (fin_arr g, finc c) true)
        by (unfold opt_body; change (e_xc (fin_ell s)) with (fin_arr (e_xc s)); cbn [num ENum] in *; rewrite EaE; reflexivity).
      cbn [num ENum RNum] in *. rewrite B. clear B.
      match type of A with match ?u with _ => _ end => destruct u as [[[[[o3 s3] ga3] xb3]|[[[o3 s3] ga3] [an q]]]|] end; [| |exact I]; cbn [bind].
      * destruct A as (-> & -> & -> & V3 & HX3 & EA). rewrite EA. cbn [bind].
        pose proof (optim_loop ct ctE finc deep n rel same_level Hn (fun o _ => Inv o) oraE ora opt Hdef HdefC Hsim Hdeep Ht k (S lo) o2 s3 l (Some (e_xc s)) oE2 (Fin l) HR2 eq_refl HI2 V3 HX3) as L.
        cbn [num ENum RNum] in *. match type of L with match ?u with _ => _ end => destruct u as [[[[[o4 s4] ga4] xb4]|[[[o4 s4] ga4] [an q]]]|] end; [| |exact I].
        { destruct L as (oE' & gaE' & E & H1 & H2). exists oE', gaE'. split; [exact E|auto]. }
        { destruct L as (oE' & sE & gaE' & E & H1 & H2 & H3 & H4). exists oE', sE, gaE'. split; [exact E|]. split; [exact H1|]. split; [right; exact H2|]. split; [lia|exact H4]. }
      * destruct A as (-> & -> & -> & -> & sE & EA & HsE). rewrite EA. exists oE2, sE, (Fin l). split; [reflexivity|]. split; [exact HR2|]. split; [auto|]. split; [lia|exact HsE].
    + assert (B : opt_body (N := ENum) oraE ctE (fin_options opt) lo (oE, fin_ell s, bad, None) = opt_after (N := ENum) ctE (fin_options opt) lo oE2 (fin_ell s) bad None (fin_arr g, finc c) false)
        by (unfold opt_body; change (e_xc (fin_ell s)) with (fin_arr (e_xc s)); cbn [num ENum] in *; rewrite EaE; reflexivity).
      assert (A : forall ga : R, opt_after (N := RNum) ct opt lo o2 s ga None (g, c) false = match opt_after (N := RNum) ct opt lo o2 s T None (g, c) false with
        | Ok (Next (o3, s3, _, xb3)) => Ok (Next (o3, s3, ga, xb3)) | Ok (Done (o3, s3, _, aq)) => Ok (Done (o3, s3, ga, aq)) | Panic => Panic end).
      { intros ga. unfold opt_after. destruct (apply_cut (N := RNum) ct Bias s (g, c)) as [[s2 st]|]; [|reflexivity]. cbn [bind]. destruct (_ || _); reflexivity. }
      pose proof (after_sim ct ctE finc deep n Hn opt lo o2 oE2 s T bad None g c false Hdef HdefC V HX Hg Hd Ht) as A1. cbn [option_map] in A1. cbn [num ENum RNum] in *.
      match type of A1 with match ?u with _ => _ end => destruct u as [[[[[o3 s3] ga3] xb3]|[[[o3 s3] ga3] [an q]]]|] end.
      * destruct A1 as (-> & -> & -> & V3 & HX3 & EA). destruct (IH (S lo) o2 s3 oE2 HR2 HI2 V3 HX3) as (T' & IH'). destruct (Hdir T T') as (T2 & HT2).
        exists T2. intros ga Hga. destruct (HT2 ga Hga) as [Hg1 Hg2]. unfold opt_body at 1. rewrite (Ea ga Hg1). cbn [bind]. rewrite A. cbn [bind]. rewrite B, EA. cbn [bind option_map].
        specialize (IH' ga Hg2). cbn [num ENum RNum] in *. match type of IH' with match ?u with _ => _ end => destruct u as [[[[[o4 s4] ga4] xb4]|[[[o4 s4] ga4] [an q]]]|] end; [| |exact I]; auto.
        destruct IH' as (oE' & sE & gaE' & E & H1 & H2 & H3 & H4). exists oE', sE, gaE'. split; [exact E|]. split; [exact H1|]. split; [exact H2|]. split; [lia|exact H4].
      * destruct A1 as (-> & -> & -> & -> & sE & EA & HsE). exists T. intros ga Hga. unfold opt_body at 1. rewrite (Ea ga Hga). cbn [bind]. rewrite A. cbn [bind]. rewrite B, EA. 
        exists oE2, sE, bad. split; [reflexivity|]. split; [exact HR2|]. split; [auto|]. split; [lia|exact HsE].
      * exists T. intros ga Hga. unfold opt_body at 1. rewrite (Ea ga Hga). cbn [bind]. rewrite A. exact I.
Qed.
Lemma optim_far oE o (e : Ell RNum) : rel oE o -> Inv o -> valid n e -> vecn n (e_xc e) ->
  exists T : R, forall gamma : R, worse gamma T -> forall o' e' (gamma' : R) ans k, cutting_plane_optim ora (ell_space (N := RNum) ct) opt o e gamma = Ok (o', e', gamma', (ans, k)) ->
  exists oE' eE gE', cutting_plane_optim oraE (ell_space (N := ENum) ctE) (fin_options opt) oE (fin_ell e) bad = Ok (oE', eE, gE', (option_map fin_arr ans, k)) /\ rel oE' o' /\
    ((ans = None /\ gE' = bad) \/ gE' = Fin gamma') /\ (e_tsq e' <> 0 \/ k = max_iters opt -> eE = fin_ell e').
Proof.
  intros Hrel HI V HX. destruct (far_loop (max_iters opt) 0 o e oE Hrel HI V HX) as (T & L). exists T. intros gamma Hga o' e' gamma' ans k E. specialize (L gamma Hga). cbv beta in L.
  rewrite (optim_body (N := RNum)) in E. rewrite (optim_body (N := ENum)).
  apply bind_inv in E as (cc & El & Ek). match type of L with match ?u with _ => _ end => assert (El' : u = Ok cc) by exact El end. rewrite El' in L. clear El'.
  destruct cc as [[[[o4 s4] ga4] xb4]|[[[o4 s4] ga4] [an q]]]; inversion Ek; subst; clear Ek El.
  - destruct L as (oE' & gaE' & E & H1 & H2). exists oE', (fin_ell e'), gaE'. split; [exact (f_equal (fun r => bind r _) E)|auto].
  - destruct L as (oE' & sE & gaE' & E & H1 & H2 & H3 & H4). exists oE', sE, gaE'. split; [exact (f_equal (fun r => bind r _) E)|]. split; [exact H1|]. split; [exact H2|].
    intros [H|H]; [auto|lia].
Qed.
End Far.
