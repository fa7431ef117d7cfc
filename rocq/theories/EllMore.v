(** Invariants of Ell: shape, symmetry, definiteness, width, representation. *)
From Coq Require Import Reals List Arith Lia Lra Psatz Bool ZArith.
From Verif Require Import Num Res Arr CuttingPlane EllCalc Ell EllRun ArrLemmas EllLemmas Spec RealLin CutScalar EllSpec EllReal EllCuts.
Import ListNotations.

Open Scope nat_scope.
(** ** Any number type *)
Section Gen.
Context {N : Num} {C : Type} (ct : CutType N C).

Definition cut_core (m : mode) (e : Ell N) (c : C) : N -> cutres N :=
  match m with
  | Bias => call_bias ct (e_helper e) c
  | Central => call_central ct (e_helper e) c
  | Quantised => call_q ct (e_helper e) c
  end.
Lemma apply_cut_core m e g c : apply_cut ct m e (g, c) = ell_update_core e g (cut_core m e c).
Proof. destruct m; reflexivity. Qed.

Lemma rejected_unchanged m e g c e' st : apply_cut ct m e (g, c) = Ok (e', st) -> st <> Success ->
  e_mq e' = e_mq e /\ e_xc e' = e_xc e /\ e_kappa e' = e_kappa e /\ e_no_defer e' = e_no_defer e /\
  exists gt om, a_dot_mv (e_mq e) g = Ok gt /\ a_dot g gt = Ok om /\ e_tsq e' = (e_kappa e *! om).
Proof.
  rewrite apply_cut_core. intros E Hs. apply ell_update_core_rejected in E as (E & gt & om & rsd & E1 & E2 & E3 & _); auto.
  rewrite E. simpl. repeat split; auto. exists gt, om. auto.
Qed.

Definition bit_sym (n : nat) (e : Ell N) : Prop := forall i j, i < n -> j < n ->
  nth (i * n + j) (adata (e_mq e)) n0 = nth (j * n + i) (adata (e_mq e)) n0.

Lemma shrunk_sym (old : nat -> nat -> N) r g i j : shrunk old r g i j = shrunk old r g j i.
Proof.
  unfold shrunk. destruct (Nat.leb_spec j i), (Nat.leb_spec i j); auto; try lia.
  now replace j with i by lia.
Qed.

Lemma apply_cut_ok m n e g c : ell_wf n e -> is_vec n g ->
  exists e' st, apply_cut ct m e (g, c) = Ok (e', st) /\ ell_wf n e' /\ e_helper e' = e_helper e /\
    e_no_defer e' = e_no_defer e /\ (st = Success -> bit_sym n e') /\ (st <> Success -> e_mq e' = e_mq e).
Proof.
  intros Hw Hg. rewrite apply_cut_core.
  destruct (ell_update_core_ok n e g (cut_core m e c) Hw Hg)
    as (e' & st & rho & sigma & delta & E1 & E2 & Hw' & Ht & Hh & Hn & _ & _ & H1 & H2).
  exists e', st. split; auto. split; auto. split; auto. split; auto. split.
  - intros Hs i j Hi Hj. destruct (H2 Hs) as (_ & _ & Hm).
    pose proof (Hm i j Hi Hj) as Ha. pose proof (Hm j i Hj Hi) as Hb. cbv zeta in Ha, Hb.
    unfold mget in Ha, Hb at 1. rewrite Ha, Hb. now rewrite (shrunk_sym _ _ _ j i).
  - intros Hs. rewrite H1; auto.
Qed.

Lemma run_cuts_ok n cuts : forall e, ell_wf n e -> Forall (fun mc => is_vec n (fst (snd mc))) cuts ->
  exists e' tr, run_cuts ct e cuts = Ok (e', tr) /\ ell_wf n e' /\
    ((bit_sym n e \/ Exists (fun s => fst (fst s) = Success) tr) -> bit_sym n e').
Proof.
  induction cuts as [|[m [g c]] rest IH]; intros e Hw HF.
  - exists e, []. split; [reflexivity|]. split; auto. intros [H|H]; auto. inversion H.
  - inversion HF as [|? ? Hg HF']; subst. simpl in Hg.
    destruct (apply_cut_ok m n e g c Hw Hg) as (e1 & st & E1 & Hw1 & _ & _ & Hs & Hr).
    destruct (IH e1 Hw1 HF') as (e2 & tr & E2 & Hw2 & Hb).
    exists e2, ((st, e_tsq e1, e_xc e1) :: tr). cbn [run_cuts]. rewrite E1. cbn [bind fst snd]. rewrite E2. cbn [bind fst snd].
    split; auto. split; auto. intros H. apply Hb.
    assert (Hdec : st = Success \/ st <> Success) by (destruct st; auto; right; discriminate).
    destruct Hdec as [Hst|Hst].
    + left. auto.
    + destruct H as [H|H].
      * left. intros i j Hi Hj. rewrite (Hr Hst). apply H; auto.
      * right. inversion H; subst; auto. simpl in *. congruence.
Qed.
End Gen.

Lemma ell_new_with_scalar_ok {N : Num} n (val : N) xc : 0 < n -> length (adata xc) = n ->
  exists e, ell_new_with_scalar val xc = Ok e /\ ell_wf n e /\ e_kappa e = val /\ e_xc e = xc /\
    e_helper e = calc_new n /\ e_no_defer e = false /\
    forall i j, i < n -> j < n -> nth (i * n + j) (adata (e_mq e)) n0 = if i =? j then n1 else n0.
Proof.
  intros Hn Hl. unfold ell_new_with_scalar, a_len. rewrite Hl.
  destruct (a_eye_ok (N := N) n) as (d & E & Ld & Hd). rewrite E. simpl.
  eexists. split; [reflexivity|]. unfold ell_new_with_matrix, a_len. rewrite Hl. simpl.
  split; [split; auto; split; [split|]; auto|]. repeat split; auto.
Qed.
Lemma ell_new_ok {N : Num} n (val xc : Arr N) : 0 < n -> is_vec n val -> length (adata xc) = n ->
  exists e, ell_new val xc = Ok e /\ ell_wf n e /\ e_kappa e = n1 /\ e_xc e = xc /\
    e_helper e = calc_new n /\ e_no_defer e = false /\
    forall i j, i < n -> j < n -> nth (i * n + j) (adata (e_mq e)) n0 = if i =? j then nth i (adata val) n0 else n0.
Proof.
  intros Hn Hv Hl. unfold ell_new.
  destruct (a_from_diag_ok (N := N) n val Hv) as (d & E & Ld & Hd). rewrite E. simpl.
  eexists. split; [reflexivity|]. unfold ell_new_with_matrix, a_len. rewrite Hl. simpl.
  split; [split; auto; split; [split|]; auto|]. repeat split; auto.
Qed.

Open Scope R_scope.
(** ** Diagonal starts over the reals *)
Definition diag (d : vec) : mtx := fun i j => if Nat.eqb i j then d i else 0.
Lemma diag_mv n d y i : (i < n)%nat -> mulmv n (diag d) y i = d i * y i.
Proof.
  intros Hi. unfold mulmv, diag. rewrite (Rsum_one n i); auto.
  - now rewrite Nat.eqb_refl.
  - intros j Hj Hne. destruct (Nat.eqb_spec i j); [lia|ring].
Qed.
Lemma diag_quad n d y : quad n (diag d) y = Rsum n (fun i => d i * (y i * y i)).
Proof. unfold quad, dot. apply Rsum_ext. intros i Hi. rewrite diag_mv by auto. ring. Qed.
Lemma diag_sym n d : sym n (diag d).
Proof.
  intros i j Hi Hj. unfold diag. destruct (Nat.eqb_spec i j), (Nat.eqb_spec j i); subst; auto; congruence.
Qed.
Lemma diag_psd n d : (forall i, (i < n)%nat -> 0 <= d i) -> psd n (diag d).
Proof. intros H y. rewrite diag_quad. apply Rsum_nonneg. intros. apply Rmult_le_pos; auto. nra. Qed.
Lemma diag_pd n d : (forall i, (i < n)%nat -> 0 < d i) -> pd n (diag d).
Proof.
  intros H y (k & Hk & Hy). rewrite diag_quad.
  apply Rlt_le_trans with (d k * (y k * y k)).
  - apply Rmult_lt_0_compat; auto. nra.
  - apply (Rsum_pos_one n k (fun i => d i * (y i * y i))); auto. intros. pose proof (H i H0). nra.
Qed.
Lemma sym_ext n M M' : (forall i j, (i < n)%nat -> (j < n)%nat -> M i j = M' i j) -> sym n M -> sym n M'.
Proof. intros E H i j Hi Hj. rewrite <- !E; auto. Qed.
Lemma psd_ext n M M' : (forall i j, (i < n)%nat -> (j < n)%nat -> M i j = M' i j) -> psd n M -> psd n M'.
Proof. intros E H y. rewrite <- (quad_ext n M M' y y); auto. Qed.
Lemma pd_ext n M M' : (forall i j, (i < n)%nat -> (j < n)%nat -> M i j = M' i j) -> pd n M -> pd n M'.
Proof. intros E H y Hy. rewrite <- (quad_ext n M M' y y); auto. Qed.

Definition proper (n : nat) (e : Ell RNum) : Prop := valid n e /\ pd n (shape n e) /\ 0 < kap e.

Lemma new_scalar_real n (val : R) (xc : Arr RNum) : (0 < n)%nat -> 0 < val -> length (adata xc) = n ->
  exists e, ell_new_with_scalar (N := RNum) val xc = Ok e /\ proper n e /\
    forall x, pts n e x <-> Rsum n (fun i => (x i - coords xc i) * (x i - coords xc i)) <= val.
Proof.
  intros Hn Hv Hl. destruct (ell_new_with_scalar_ok (N := RNum) n val xc Hn Hl) as (e & E & Hw & Hk & Hx & Hh & _ & Hd).
  exists e. split; auto.
  assert (HE : forall i j, (i < n)%nat -> (j < n)%nat -> diag (fun _ => 1) i j = shape n e i j).
  { intros i j Hi Hj. symmetry. apply Hd; auto. }
  apply ell_wf_iff in Hw as (w1 & w2 & w3 & w4 & w5).
  split.
  - split; [|split].
    + constructor; auto; try apply V.
      * eapply sym_ext; [exact HE|]. apply diag_sym.
      * eapply psd_ext; [exact HE|]. apply diag_psd. intros; lra.
      * unfold kap. rewrite Hk. lra.
    + eapply pd_ext; [exact HE|]. apply diag_pd. intros; lra.
    + unfold kap. rewrite Hk. auto.
  - intros x. unfold pts, centre, kap. rewrite Hx, Hk. split.
    + intros (y & H1 & H2). rewrite <- (quad_ext n _ _ y y HE), diag_quad in H2 by auto.
      eapply Rle_trans; [|exact H2]. right. apply Rsum_ext. intros i Hi.
      rewrite H1 by auto. rewrite <- (mulmv_ext n (diag (fun _ => 1)) _ y y) by auto. rewrite diag_mv by auto. ring.
    + intros H. exists (fun i => x i - coords xc i). split.
      * intros i Hi. rewrite <- (mulmv_ext n (diag (fun _ => 1)) (shape n e) (fun i => x i - coords xc i) _ i (fun j Hj => HE i j Hi Hj) (fun _ _ => eq_refl)).
        rewrite diag_mv by auto. ring.
      * rewrite <- (quad_ext n _ _ (fun i => x i - coords xc i) _ HE (fun _ _ => eq_refl)), diag_quad.
        eapply Rle_trans; [|exact H]. right. apply Rsum_ext. intros; ring.
Qed.
Lemma new_diag_real n (val xc : Arr RNum) : (0 < n)%nat -> vecn n val -> (forall i, (i < n)%nat -> 0 < coords val i) ->
  length (adata xc) = n ->
  exists e, ell_new (N := RNum) val xc = Ok e /\ proper n e /\
    forall x, pts n e x <-> Rsum n (fun i => (x i - coords xc i) * (x i - coords xc i) / coords val i) <= 1.
Proof.
  intros Hn Hvv Hv Hl. destruct (ell_new_ok (N := RNum) n val xc Hn Hvv Hl) as (e & E & Hw & Hk & Hx & Hh & _ & Hd).
  exists e. split; auto.
  assert (HE : forall i j, (i < n)%nat -> (j < n)%nat -> diag (coords val) i j = shape n e i j).
  { intros i j Hi Hj. symmetry. apply Hd; auto. }
  apply ell_wf_iff in Hw as (w1 & w2 & w3 & w4 & w5).
  split.
  - split; [|split].
    + constructor; auto.
      * eapply sym_ext; [exact HE|]. apply diag_sym.
      * eapply psd_ext; [exact HE|]. apply diag_psd. intros; left; auto.
      * unfold kap. rewrite Hk. unfold n1. simpl. lra.
    + eapply pd_ext; [exact HE|]. apply diag_pd. auto.
    + unfold kap. rewrite Hk. unfold n1. simpl. lra.
  - intros x. unfold pts, centre, kap. rewrite Hx, Hk. change (@n1 RNum) with 1. split.
    + intros (y & H1 & H2). rewrite <- (quad_ext n _ _ y y HE), diag_quad in H2 by auto.
      eapply Rle_trans; [|exact H2]. right. apply Rsum_ext. intros i Hi.
      rewrite H1 by auto. rewrite <- (mulmv_ext n (diag (coords val)) _ y y) by auto. rewrite diag_mv by auto.
      field. apply Rgt_not_eq. now apply Hv.
    + intros H. exists (fun i => (x i - coords xc i) / coords val i). split.
      * intros i Hi. rewrite <- (mulmv_ext n (diag (coords val)) (shape n e) (fun i => (x i - coords xc i) / coords val i) _ i (fun j Hj => HE i j Hi Hj) (fun _ _ => eq_refl)).
        rewrite diag_mv by auto. field. apply Rgt_not_eq. now apply Hv.
      * rewrite <- (quad_ext n _ _ (fun i => (x i - coords xc i) / coords val i) _ HE (fun _ _ => eq_refl)), diag_quad.
        eapply Rle_trans; [|exact H]. right. apply Rsum_ext. intros. field. apply Rgt_not_eq. now apply Hv.
Qed.

(** ** Definiteness *)
Lemma stepped_proper n e g rho sigma delta e' : proper n e -> vecn n g -> 0 < quad n (shape n e) (coords g) ->
  sigma < 1 -> 0 < delta -> stepped n e g rho sigma delta e' -> proper n e'.
Proof.
  intros (V & HP & Hk) Hg Ho Hs Hd H. split; [eapply stepped_valid; eauto; lra|].
  pose proof (rank1_pd n _ (coords g) sigma (v_sym _ _ V) HP Ho Hs) as HP1.
  destruct H as (_ & _ & _ & _ & _ & H).
  assert (Hkd : 0 < kap e * delta) by now apply Rmult_lt_0_compat.
  destruct (e_no_defer e); destruct H as [Ek HM]; rewrite Ek; split; auto; try lra.
  - intros y Hy. rewrite (quad_ext n _ _ y y HM) by auto. rewrite quad_smul. apply Rmult_lt_0_compat; auto.
  - eapply pd_ext; [|exact HP1]. intros. symmetry. auto.
Qed.

Lemma proper_width n e g : proper n e -> vecn n g -> (exists i, (i < n)%nat /\ coords g i <> 0) -> 0 < width2 n e g.
Proof. intros (V & HP & Hk) _ H. apply Rmult_lt_0_compat; auto. Qed.

(** The cuts for which definiteness is kept; [t] is the half-width. *)
Definition good_single (m : mode) (n : nat) (t beta : R) : Prop :=
  match m with
  | Bias => - t / INR n <= beta < t
  | Central => True
  | Quantised => beta < t
  end.
Lemma single_proper m n e g beta : (2 <= n)%nat -> proper n e -> vecn n g -> (exists i, (i < n)%nat /\ coords g i <> 0) ->
  good_single m n (sqrt (width2 n e g)) beta ->
  exists e' st, apply_cut (N := RNum) single m e (g, SC beta) = Ok (e', st) /\ proper n e'.
Proof.
  intros Hn HPr Hg Hnz Hgood. pose proof (proper_width _ _ _ HPr Hg Hnz) as Hw. pose proof HPr as (V & HP & Hk).
  pose proof (INR_two n Hn) as Hm. pose proof (sqrt_lt_R0 _ Hw) as Hs. pose proof (valid_width _ _ _ V Hg Hw) as [_ Ho].
  assert (Hss : sqrt (width2 n e g) * sqrt (width2 n e g) = width2 n e g) by (apply sqrt_sqrt; lra).
  rewrite apply_cut_core.
  assert (Hdeep : forall b, 0 <= sqrt (width2 n e g) + INR n * b -> b < sqrt (width2 n e g) ->
     cut_core (N := RNum) single m e (SC beta) (width2 n e g) = (Success, deep3 (INR n) (sqrt (width2 n e g)) b) ->
     exists e' st, ell_update_core (N := RNum) e g (cut_core (N := RNum) single m e (SC beta)) = Ok (e', st) /\ proper n e').
  { intros b H1 H2 E. unfold deep3 in E.
    destruct (core_run n e g _ _ _ _ _ V Hg E) as (e' & Er & _ & Hst).
    exists e', Success. split; auto. eapply stepped_proper; [exact HPr|exact Hg|exact Ho| | |exact (Hst eq_refl)].
    - apply deep_sigma_lt; auto; lra.
    - apply deep_delta_pos; auto; lra. }
  destruct m; simpl in Hgood.
  - destruct Hgood as [Hlo Hhi].
    assert (Hlo' : 0 <= sqrt (width2 n e g) + INR n * beta).
    { apply (Rmult_le_compat_r (INR n)) in Hlo; [|lra].
      replace (- sqrt (width2 n e g) / INR n * INR n) with (- sqrt (width2 n e g)) in Hlo by (field; lra). lra. }
    apply (Hdeep beta Hlo' Hhi). simpl. rewrite (v_calc _ _ V), calc_bias_eq.
    destruct (Raux.Rlt_bool _ _) eqn:B; auto. apply Rlt_bool_iff in B. exfalso.
    pose proof (deep_sum_pos (INR n) _ _ ltac:(lra) Hs Hlo'). nra.
  - apply (Hdeep 0); try lra. simpl. rewrite (v_calc _ _ V), calc_central_eq, central_deep by (auto; lia). reflexivity.
  - destruct (Raux.Rlt_bool (sqrt (width2 n e g) + INR n * beta) 0) eqn:B.
    + destruct (core_run n e g (cut_core (N := RNum) single Quantised e (SC beta)) NoEffect 0 0 1 V Hg) as (e' & Er & H & _).
      * simpl. rewrite (v_calc _ _ V), calc_bias_q_eq, B.
        destruct (Raux.Rlt_bool _ beta) eqn:B2; auto. apply Rlt_bool_iff in B2. lra.
      * exists e', NoEffect. split; auto. rewrite H by discriminate. split; [destruct V; constructor; auto|]. split; auto.
    + apply Rlt_bool_no in B as B'. apply (Hdeep beta B' Hgood). simpl. rewrite (v_calc _ _ V), calc_bias_q_eq, B.
      destruct (Raux.Rlt_bool _ beta) eqn:B2; auto. apply Rlt_bool_iff in B2. lra.
Qed.

Lemma par_q_proper n e g b0 b1 : (2 <= n)%nat -> proper n e -> vecn n g -> (exists i, (i < n)%nat /\ coords g i <> 0) ->
  b0 < b1 -> - sqrt (width2 n e g) < b1 -> b0 < sqrt (width2 n e g) ->
  exists e' st, uq parallel e (g, PC b0 (Some b1)) = Ok (e', st) /\ proper n e'.
Proof.
  intros Hn HPr Hg Hnz H01 Hb1 Hb0. pose proof (proper_width _ _ _ HPr Hg Hnz) as Hw. pose proof HPr as (V & HP & Hk).
  pose proof (INR_two n Hn) as Hm. pose proof (sqrt_lt_R0 _ Hw) as Hs. pose proof (valid_width _ _ _ V Hg Hw) as [_ Ho].
  assert (Hss : sqrt (width2 n e g) * sqrt (width2 n e g) = width2 n e g) by (apply sqrt_sqrt; lra).
  set (str := fun tsq => call_q parallel (e_helper e) (PC b0 (Some b1)) tsq).
  assert (Estr : str (width2 n e g) = calc_parallel_q (N := RNum) (calc_new n) b0 b1 (width2 n e g))
    by (unfold str; rewrite (v_calc _ _ V); reflexivity).
  rewrite calc_par_q_eq in Estr.
  destruct (Raux.Rlt_bool b1 b0) eqn:B1; [apply Rlt_bool_iff in B1; lra|].
  assert (Hpt : proper n (with_tsq e (width2 n e g))) by (split; [destruct V; constructor; auto|split; auto]).
  destruct (Raux.Rlt_bool 0 b1 && Raux.Rle_bool (width2 n e g) (b1 * b1)) eqn:B2; cbn [orb] in Estr.
  - rewrite calc_bias_q_eq in Estr.
    destruct (Raux.Rlt_bool (sqrt (width2 n e g)) b0) eqn:B3; [apply Rlt_bool_iff in B3; lra|].
    destruct (Raux.Rlt_bool _ 0) eqn:B4.
    + destruct (core_run n e g str _ _ _ _ V Hg Estr) as (e' & E & H & _).
      exists e', NoEffect. split; [exact E|]. now rewrite H by discriminate.
    + apply Rlt_bool_no in B4. unfold deep3 in Estr.
      destruct (core_run n e g str _ _ _ _ V Hg Estr) as (e' & E & _ & H).
      exists e', Success. split; [exact E|].
      eapply stepped_proper; [exact HPr|exact Hg|exact Ho| | |exact (H eq_refl)].
      * apply deep_sigma_lt; auto; lra.
      * apply deep_delta_pos; auto; lra.
  - destruct (Raux.Rle_bool _ 0) eqn:B3.
    + destruct (core_run n e g str _ _ _ _ V Hg Estr) as (e' & E & H & _).
      exists e', NoEffect. split; [exact E|]. now rewrite H by discriminate.
    + apply Rle_bool_no in B3. unfold par3 in Estr.
      destruct (core_run n e g str _ _ _ _ V Hg Estr) as (e' & E & _ & H).
      exists e', Success. split; [exact E|].
      assert (Hb1' : b1 < sqrt (width2 n e g)).
      { apply andb_false_iff in B2 as [B2|B2].
        - apply Rlt_bool_no in B2. lra.
        - apply Rle_bool_no in B2. destruct (Rle_dec b1 0); [lra|]. nra. }
      eapply stepped_proper; [exact HPr|exact Hg|exact Ho| | |exact (H eq_refl)].
      * apply par_sigma_lt; auto; try lra.
      * apply par_delta_pos; auto; try lra.
Qed.

(** ** Width *)
Lemma tsq_is_width {C} (ct : CutType RNum C) m n e g c e' st : valid n e -> vecn n g ->
  apply_cut (N := RNum) ct m e (g, c) = Ok (e', st) -> e_tsq e' = width2 n e g.
Proof.
  intros V Hg E. rewrite apply_cut_core in E.
  destruct (ell_core n e g (cut_core (N := RNum) ct m e c) (valid_wf _ _ V) (v_sym _ _ V) Hg)
    as (e2 & s2 & r & sg & d & _ & E2 & H1 & H2).
  rewrite E2 in E. inversion E; subst.
  assert (Hdec : st = Success \/ st <> Success) by (destruct st; auto; right; discriminate).
  destruct Hdec as [Hst|Hst]; [apply (H2 Hst)|]. now rewrite (H1 Hst).
Qed.
Lemma width_sup n e g : valid n e -> vecn n g ->
  (forall x, pts n e x -> along n (coords g) x (centre e) <= sqrt (width2 n e g)) /\
  (exists x, pts n e x /\ along n (coords g) x (centre e) = sqrt (width2 n e g)).
Proof.
  intros V Hg. split.
  - intros x Hx. apply (pts_range n e g x V Hx).
  - pose proof (v_psd _ _ V (coords g)) as Hq. destruct (Rle_lt_or_eq_dec _ _ Hq) as [Ho|Ho].
    + destruct (width_attained n _ (kap e) (centre e) (coords g) (v_sym _ _ V) (v_kap _ _ V) Ho 1 ltac:(ring)) as (x & Hx & E).
      exists x. split; auto. rewrite E. unfold width2. ring.
    + exists (centre e). split.
      * exists (fun _ => 0). split.
        -- intros i Hi. unfold mulmv. rewrite Rsum_zero; [ring|]. intros; ring.
        -- replace (quad n (shape n e) (fun _ => 0)) with 0; [apply V|]. symmetry. apply Rsum_zero. intros; ring.
      * unfold width2. rewrite <- Ho, Rmult_0_r, sqrt_0. unfold along, dot. apply Rsum_zero. intros; ring.
Qed.

(** ** no_defer_trick *)
Definition same_ell (n : nat) (e1 e2 : Ell RNum) : Prop :=
  ell_wf n e1 /\ ell_wf n e2 /\ sym n (shape n e1) /\ sym n (shape n e2) /\ e_helper e1 = e_helper e2 /\
  (forall i, (i < n)%nat -> centre e1 i = centre e2 i) /\
  (forall i j, (i < n)%nat -> (j < n)%nat -> kap e1 * shape n e1 i j = kap e2 * shape n e2 i j).

Lemma same_width n e1 e2 g : same_ell n e1 e2 -> width2 n e1 g = width2 n e2 g.
Proof.
  intros (_ & _ & _ & _ & _ & _ & H). unfold width2.
  rewrite <- (quad_smul n (kap e1)), <- (quad_smul n (kap e2)). apply quad_ext; auto.
  intros i j Hi Hj. rewrite (Rmult_comm _ (kap e1)), (Rmult_comm _ (kap e2)). auto.
Qed.
Lemma same_mv n e1 e2 g i : same_ell n e1 e2 -> (i < n)%nat ->
  kap e1 * mulmv n (shape n e1) (coords g) i = kap e2 * mulmv n (shape n e2) (coords g) i.
Proof.
  intros (_ & _ & _ & _ & _ & _ & H) Hi. rewrite <- !mulmv_smul. apply mulmv_ext; auto.
  intros j Hj. rewrite (Rmult_comm _ (kap e1)), (Rmult_comm _ (kap e2)). auto.
Qed.

Lemma stepped_sym n e g rho sigma delta e' : sym n (shape n e) -> stepped n e g rho sigma delta e' -> sym n (shape n e').
Proof.
  intros HS (_ & _ & _ & _ & _ & H).
  assert (HS1 := rank1_sym n _ (sigma / quad n (shape n e) (coords g)) (mulmv n (shape n e) (coords g)) HS).
  destruct (e_no_defer e); destruct H as [_ HM]; intros i j Hi Hj; rewrite !HM by auto.
  - f_equal. apply HS1; auto.
  - apply HS1; auto.
Qed.
Lemma stepped_product n e g rho sigma delta e' : stepped n e g rho sigma delta e' ->
  forall i j, (i < n)%nat -> (j < n)%nat -> kap e' * shape n e' i j =
    kap e * delta * rank1 (shape n e) (sigma / quad n (shape n e) (coords g)) (mulmv n (shape n e) (coords g)) i j.
Proof.
  intros (_ & _ & _ & _ & _ & H) i j Hi Hj. destruct (e_no_defer e); destruct H as [Ek HM]; rewrite Ek, HM by auto; ring.
Qed.

Lemma same_step {C} (ct : CutType RNum C) m n e1 e2 g c : same_ell n e1 e2 -> vecn n g -> width2 n e1 g <> 0 ->
  exists e1' e2' st, apply_cut (N := RNum) ct m e1 (g, c) = Ok (e1', st) /\ apply_cut (N := RNum) ct m e2 (g, c) = Ok (e2', st) /\
    e_tsq e1' = e_tsq e2' /\ same_ell n e1' e2' /\
    arows (e_xc e1') = arows (e_xc e1) /\ arows (e_xc e2') = arows (e_xc e2) /\
    acols (e_xc e1') = acols (e_xc e1) /\ acols (e_xc e2') = acols (e_xc e2).
Proof.
  intros H Hg Hw. pose proof (same_width n e1 e2 g H) as Ew.
  pose proof (fun i => same_mv n e1 e2 g i H) as Hmv.
  pose proof H as (w1 & w2 & s1 & s2 & Hh & Hc & Hk). rewrite !apply_cut_core.
  assert (Ecore : cut_core (N := RNum) ct m e1 c = cut_core (N := RNum) ct m e2 c) by (unfold cut_core; now rewrite Hh).
  rewrite Ecore.
  destruct (ell_core n e1 g (cut_core (N := RNum) ct m e2 c) w1 s1 Hg) as (e1' & st & rho & sigma & delta & F1 & F2 & F3 & F4).
  destruct (ell_core n e2 g (cut_core (N := RNum) ct m e2 c) w2 s2 Hg) as (e2' & st2 & rho2 & sigma2 & delta2 & G1 & G2 & G3 & G4).
  rewrite Ew, G1 in F1. inversion F1; subst st2 rho2 sigma2 delta2. clear F1.
  exists e1', e2', st. split; auto. split; auto.
  destruct (ell_update_core_ok (N := RNum) n e1 g (cut_core (N := RNum) ct m e2 c) w1 Hg)
    as (e1'' & ? & ? & ? & ? & _ & F5 & _ & _ & _ & _ & Ra & Ca & _). rewrite F2 in F5. inversion F5; subst e1''.
  destruct (ell_update_core_ok (N := RNum) n e2 g (cut_core (N := RNum) ct m e2 c) w2 Hg)
    as (e2'' & ? & ? & ? & ? & _ & G5 & _ & _ & _ & _ & Rb & Cb & _). rewrite G2 in G5. inversion G5; subst e2''.
  assert (Hdec : st = Success \/ st <> Success) by (destruct st; auto; right; discriminate).
  destruct Hdec as [Hst|Hst].
  - specialize (F4 Hst). specialize (G4 Hst).
    assert (Et : e_tsq e1' = e_tsq e2').
    { destruct F4 as (_ & _ & _ & -> & _). destruct G4 as (_ & _ & _ & -> & _). exact Ew. }
    split; [exact Et|]. split; [|auto].
    assert (Hq1 : kap e1 <> 0 /\ quad n (shape n e1) (coords g) <> 0).
    { unfold width2 in Hw. split; intros Z; apply Hw; rewrite Z; ring. }
    assert (Hq2 : kap e2 <> 0 /\ quad n (shape n e2) (coords g) <> 0).
    { rewrite Ew in Hw. unfold width2 in Hw. split; intros Z; apply Hw; rewrite Z; ring. }
    destruct Hq1 as [Hk1 Hq1], Hq2 as [Hk2 Hq2].
    unfold width2 in Ew.
    pose proof (stepped_product _ _ _ _ _ _ _ F4) as P1. pose proof (stepped_product _ _ _ _ _ _ _ G4) as P2.
    pose proof (stepped_sym _ _ _ _ _ _ _ s1 F4) as S1. pose proof (stepped_sym _ _ _ _ _ _ _ s2 G4) as S2.
    destruct F4 as (W1 & Hh1 & _ & _ & C1 & _). destruct G4 as (W2 & Hh2 & _ & _ & C2 & _).
    split; auto. split; auto. split; auto. split; auto. split; [congruence|].
    set (q1 := quad n (shape n e1) (coords g)) in *. set (q2 := quad n (shape n e2) (coords g)) in *.
    assert (Eq2 : q2 = kap e1 * q1 / kap e2) by (rewrite Ew; field; auto).
    assert (Hm2 : forall i, (i < n)%nat -> mulmv n (shape n e2) (coords g) i = kap e1 / kap e2 * mulmv n (shape n e1) (coords g) i).
    { intros i Hi. apply Rmult_eq_reg_l with (kap e2); auto. rewrite <- Hmv by auto. field. auto. }
    split.
    + intros i Hi. rewrite C1, C2 by auto. rewrite Hc by auto. rewrite Hm2, Eq2 by auto. field. auto.
    + intros i j Hi Hj. rewrite P1, P2 by auto. unfold rank1. rewrite !Hm2, Eq2 by auto.
      assert (Em : shape n e2 i j = kap e1 / kap e2 * shape n e1 i j).
      { apply Rmult_eq_reg_l with (kap e2); auto. rewrite <- Hk by auto. field. auto. }
      rewrite Em. field. auto.
  - rewrite (F3 Hst), (G3 Hst). simpl. split; [exact Ew|]. split; [exact H|]. auto.
Qed.

(** equal products give equal sets *)
Lemma same_pts n e1 e2 : valid n e1 -> valid n e2 -> same_ell n e1 e2 -> forall x, pts n e1 x <-> pts n e2 x.
Proof.
  intros V1 V2 (_ & _ & _ & _ & _ & Hc & Hk) x. unfold pts.
  rewrite <- (in_ell_scale0 n (shape n e1) (kap e1)) by apply V1.
  rewrite <- (in_ell_scale0 n (shape n e2) (kap e2)) by apply V2.
  split; apply in_ell_ext; intros; try (now apply Hc); try (symmetry; now apply Hc); simpl.
  - rewrite (Rmult_comm _ (kap e1)), (Rmult_comm _ (kap e2)). auto.
  - rewrite (Rmult_comm _ (kap e1)), (Rmult_comm _ (kap e2)). symmetry. auto.
Qed.

(** every cut of the sequence has nonzero width when it is applied *)
Fixpoint widths_nonzero {C} (ct : CutType RNum C) (n : nat) (e : Ell RNum) (cuts : list (mode * (Arr RNum * C))) : Prop :=
  match cuts with
  | [] => True
  | (m, cut) :: rest => width2 n e (fst cut) <> 0 /\
      forall e' st, apply_cut (N := RNum) ct m e cut = Ok (e', st) -> widths_nonzero ct n e' rest
  end.

Lemma arr_ext (a b : Arr RNum) n : length (adata a) = n -> length (adata b) = n -> arows a = arows b -> acols a = acols b ->
  (forall i, (i < n)%nat -> coords a i = coords b i) -> a = b.
Proof.
  intros La Lb R C H. destruct a as [da ra ca], b as [db rb cb]; simpl in *. subst rb cb. f_equal.
  apply nth_ext with 0 0; [congruence|]. intros i Hi. apply H. lia.
Qed.
Lemma same_xc n e1 e2 : same_ell n e1 e2 -> arows (e_xc e1) = arows (e_xc e2) -> acols (e_xc e1) = acols (e_xc e2) ->
  e_xc e1 = e_xc e2.
Proof.
  intros ((_ & _ & L1) & (_ & _ & L2) & _ & _ & _ & Hc & _) R C. apply arr_ext with n; auto.
Qed.

Lemma same_run {C} (ct : CutType RNum C) n cuts : forall e1 e2, same_ell n e1 e2 -> e_xc e1 = e_xc e2 ->
  Forall (fun mc => vecn n (fst (snd mc))) cuts -> widths_nonzero ct n e1 cuts ->
  exists e1' e2' tr, run_cuts (N := RNum) ct e1 cuts = Ok (e1', tr) /\ run_cuts (N := RNum) ct e2 cuts = Ok (e2', tr) /\
    same_ell n e1' e2'.
Proof.
  induction cuts as [|[m [g c]] rest IH]; intros e1 e2 H Hx HF HW.
  - exists e1, e2, []. auto.
  - inversion HF as [|? ? Hg HF']; subst. simpl in Hg, HW. destruct HW as [Hw HW].
    destruct (same_step ct m n e1 e2 g c H Hg Hw) as (e1' & e2' & st & E1 & E2 & Et & H' & Ra & Rb & Ca & Cb).
    assert (Hx' : e_xc e1' = e_xc e2') by (apply same_xc with n; auto; congruence).
    destruct (IH e1' e2' H' Hx' HF' (HW _ _ E1)) as (f1 & f2 & tr & F1 & F2 & HS).
    exists f1, f2, ((st, e_tsq e1', e_xc e1') :: tr). cbn [run_cuts]. rewrite E1, E2. cbn [bind fst snd].
    rewrite F1, F2. cbn [bind fst snd]. rewrite Et, Hx'. auto.
Qed.

Lemma same_flag n e : valid n e -> same_ell n e (mkEll (N := RNum) true (e_mq e) (e_xc e) (e_kappa e) (e_helper e) (e_tsq e)).
Proof.
  intros V. pose proof (valid_wf _ _ V) as W.
  split; [auto|]. split; [auto|]. split; [apply V|]. split; [apply V|]. auto.
Qed.
