(** EllStable: single cuts, runs of axis-aligned cuts, counterexamples. *)
From Coq Require Import Reals List Arith Lia Lra Psatz Bool ZArith.
From Verif Require Import Num Res Arr CuttingPlane EllCalc Ell EllStable EllRun ArrLemmas EllLemmas StableLemmas Spec RealLin CutScalar EllSpec EllReal EllCuts EllMore EllWitness StableSpec StableReal.
Import ListNotations.
Open Scope R_scope.

Lemma deep_sigma_pos m tau beta : 1 < m -> 0 < tau -> 0 < tau + m * beta -> 0 < 2 * ((tau + m * beta) / (m + 1)) / (tau + beta).
Proof.
  intros Hm Ht H. apply Rdiv_lt_0_compat; [|nra]. apply Rmult_lt_0_compat; [lra|]. apply Rdiv_lt_0_compat; lra.
Qed.

Lemma stable_single m n e g beta : (2 <= n)%nat -> svalid n e -> vecn n g -> (exists i, (i < n)%nat /\ coords g i <> 0) ->
  exists e' st, apply_stable (N := RNum) single m e (g, SC beta) = Ok (e', st) /\ 0 < s_tsq e' /\
    (in_single m n (sqrt (s_tsq e')) beta ->
      svalid n e' /\
      (st = Success -> exists rho sigma delta,
         calc_of single m (calc_new (N := RNum) n) (SC beta) (s_tsq e') = (Success, (rho, sigma, delta)) /\
         0 < sigma < 1 /\ s_kappa e' = s_kappa e * delta /\ Rprod n (fac_d n e') = (1 - sigma) * Rprod n (fac_d n e))).
Proof.
  intros Hn V Hg Hnz. rewrite apply_stable_core, (sv_calc _ _ V).
  destruct (stable_step n e g (calc_of single m (calc_new (N := RNum) n) (SC beta)) V Hg Hnz)
    as (e' & st & rho & sigma & delta & Er & Ht & Hstr & Hrej & Hsuc).
  exists e', st. split; auto. split; auto. intros Hin. pose proof (INR_two n Hn) as Hm. pose proof (sqrt_lt_R0 _ Ht) as Hs.
  set (tsq := s_tsq e') in *.
  assert (Hss : sqrt tsq * sqrt tsq = tsq) by (apply sqrt_sqrt; lra).
  assert (Hcase : st <> Success \/ exists b, 0 < sqrt tsq + INR n * b /\ b < sqrt tsq /\ (st, (rho, sigma, delta)) = (Success, deep3 (INR n) (sqrt tsq) b)).
  { rewrite <- Hstr.
    assert (Hlow : forall b, - sqrt tsq / INR n < b -> 0 < sqrt tsq + INR n * b).
    { intros b Hb. apply (Rmult_lt_compat_r (INR n)) in Hb; [|lra].
      replace (- sqrt tsq / INR n * INR n) with (- sqrt tsq) in Hb by (field; lra). lra. }
    destruct m; simpl in Hin.
    - destruct Hin as [Hlo Hhi]. pose proof (Hlow _ Hlo) as Hlo'. right. exists beta. split; auto. split; auto.
      simpl. rewrite calc_bias_eq. destruct (Raux.Rlt_bool _ _) eqn:B; auto. apply Rlt_bool_iff in B. exfalso.
      pose proof (deep_sum_pos (INR n) _ _ ltac:(lra) Hs (Rlt_le _ _ Hlo')). nra.
    - right. exists 0. split; [lra|]. split; [lra|]. simpl. rewrite calc_central_eq, central_deep by (auto; lia). reflexivity.
    - destruct Hin as [Hhi Hne]. simpl in Hstr. rewrite calc_bias_q_eq in Hstr. simpl. rewrite calc_bias_q_eq.
      destruct (Raux.Rlt_bool (sqrt tsq) beta) eqn:B1; [apply Rlt_bool_iff in B1; lra|].
      destruct (Raux.Rlt_bool (sqrt tsq + INR n * beta) 0) eqn:B2.
      + left. inversion Hstr. discriminate.
      + apply Rlt_bool_no in B2. right. exists beta. split; [|auto]. destruct B2 as [|B2]; auto. exfalso. apply Hne.
        apply (Rmult_eq_reg_r (INR n)); [|lra]. field_simplify; lra. }
  destruct Hcase as [Hne|(b & Hb1 & Hb2 & E)].
  - split; auto. intros; contradiction.
  - unfold deep3 in E. inversion E; subst st.
    assert (Hsg : 0 < sigma < 1). { subst sigma. split; [apply deep_sigma_pos; lra|]. apply deep_sigma_lt; lra. }
    assert (Hdl : 0 < delta). { subst delta. apply deep_delta_pos; lra. }
    destruct (Hsuc eq_refl Hsg Hdl) as (V' & Hk & Hp & _). split; auto. intros _.
    exists rho, sigma, delta. split; [exact Hstr|]. split; auto.
Qed.

(** ** runs of axis-aligned central cuts *)
Lemma central_sigma n c t rho sigma delta : (2 <= n)%nat -> 0 < t ->
  calc_of single Central (calc_new (N := RNum) n) c t = (Success, (rho, sigma, delta)) -> 0 < sigma < 1.
Proof.
  intros Hn Ht E. destruct c. simpl in E. rewrite calc_central_eq in E by (auto; lia). inversion E. pose proof (INR_two n Hn).
  split; [apply Rdiv_lt_0_compat; lra|]. apply Rmult_lt_reg_r with (INR n + 1); [lra|]. unfold Rdiv. rewrite Rmult_assoc, Rinv_l; lra.
Qed.
Lemma axis_run n cuts : (2 <= n)%nat -> forall e E, tracks n e E -> s_helper e = calc_new (N := RNum) n -> 0 < s_kappa e ->
  (forall i, (i < n)%nat -> 0 < fac_d n e i) ->
  Forall (fun mc => fst mc = Central /\ axis n (fst (snd mc))) cuts ->
  exists e' E' log, run_stable (N := RNum) single e cuts = Ok (e', log) /\ run_cuts (N := RNum) single E cuts = Ok (E', log).
Proof.
  intros Hn. induction cuts as [|[m [g c]] cuts IH]; intros e E T Hh Hk HD Hc.
  - eexists. eexists. eexists. split; reflexivity.
  - inversion Hc as [|? ? H1 H2]; subst. simpl in H1. destruct H1 as [-> [Hg (k & Hkn & Hgk & Hg0)]].
    destruct (tracks_step single Central n e E g c T Hg) as (e1 & E1 & st & R1 & R2 & Q1 & Q2 & Q3 & Q4).
    cbn [run_stable run_cuts]. rewrite R1, R2. cbn [bind fst snd].
    assert (Htsq : 0 < e_tsq E1).
    { rewrite <- Q1. rewrite apply_stable_core in R1.
      assert (V : svalid n e).
      { destruct (tk_wf _ _ _ T) as (W1 & (W2 & W3 & W4) & W5). constructor; auto. }
      destruct (stable_step n e g (calc_of single Central (s_helper e) c) V Hg) as (e2 & st2 & ? & ? & ? & R3 & P & _); [eauto|].
      rewrite R1 in R3. inversion R3; subst. exact P. }
    destruct Q4 as [T1 HD1].
    + exists k. repeat split; auto.
    + intros rho sigma delta. rewrite Hh. apply central_sigma; auto.
    + destruct (IH e1 E1 T1) as (e2 & E2 & log & -> & ->); auto.
      * rewrite apply_stable_core in R1.
        destruct (score n e g (calc_of single Central (s_helper e) c) (tk_wf _ _ _ T) Hg)
          as (e3 & st3 & ? & ? & ? & ? & ? & ? & ? & _ & _ & _ & _ & _ & R3 & _ & _ & Hh3 & _).
        rewrite R1 in R3. inversion R3; subst. now rewrite Hh3.
      * assert (V : svalid n e).
        { destruct (tk_wf _ _ _ T) as (W1 & (W2 & W3 & W4) & W5). constructor; auto. }
        destruct c as [b]. destruct (stable_single Central n e g b Hn V Hg) as (e3 & st3 & R3 & _ & H3); [eauto|].
        rewrite R1 in R3. inversion R3; subst. exact (sv_kap _ _ (proj1 (H3 I))).
      * cbn [bind fst snd]. eexists. eexists. eexists. split; [reflexivity|]. rewrite Q1, Q2. reflexivity.
Qed.
Lemma axis_run_scalar n val (xc : Arr RNum) cuts : (2 <= n)%nat -> 0 < val -> vecn n xc ->
  Forall (fun mc => fst mc = Central /\ axis n (fst (snd mc))) cuts ->
  exists e0 E0 e E log, stable_new_with_scalar (N := RNum) val xc = Ok e0 /\ ell_new_with_scalar (N := RNum) val xc = Ok E0 /\
    run_stable (N := RNum) single e0 cuts = Ok (e, log) /\ run_cuts (N := RNum) single E0 cuts = Ok (E, log).
Proof.
  intros Hn Hv [Lx Cx] Hc.
  destruct (stable_new_scalar_ok n val xc) as (e0 & E1 & W1 & F1 & X1 & K1 & H1 & D1); [lia|auto|].
  destruct (ell_new_with_scalar_ok (N := RNum) n val xc) as (E0 & E2 & W2 & K2 & X2 & H2 & N2 & D2); [lia|auto|].
  assert (T : tracks n e0 E0).
  { constructor; auto; try congruence. intros i j Hi Hj. unfold diag. rewrite D1 by auto. exact (D2 i j Hi Hj). }
  destruct (axis_run n cuts Hn e0 E0 T) as (e & E & log & R1 & R2); auto.
  - rewrite K1. exact Hv.
  - intros i Hi. rewrite D1 by auto. lra.
  - exists e0, E0, e, E, log. auto.
Qed.

(** ** the unit disc and the cut (3, 4): a kept point is lost *)
Definition sdisc : EllStable RNum := mkStable (N := RNum) (mkArr (N := RNum) [1; 0; 0; 1] 2 2) (vR [0; 0]) 1 (calc_new (N := RNum) 2) 0.
Definition g34 : Arr RNum := vR [3; 4].

Lemma spts2 e x : spts 2 e x <->
  let a := x 0%nat - scentre e 0%nat in let b := x 1%nat - scentre e 1%nat in
  (a + fac_u 2 e 0 1 * b) * (a + fac_u 2 e 0 1 * b) / fac_d 2 e 0 + b * b / fac_d 2 e 1 <= s_kappa e.
Proof.
  unfold spts, upper_mv. cbn [Rsum Nat.ltb Nat.leb]. cbv zeta.
  match goal with |- ?l <= _ <-> ?r <= _ => replace l with r; [reflexivity|] end.
  f_equal; [|f_equal; ring]. rewrite Rplus_0_l. f_equal. ring.
Qed.

Lemma sdisc_new : stable_new_with_scalar (N := RNum) 1 (vR [0; 0]) = Ok sdisc.
Proof. reflexivity. Qed.
Lemma sdisc_valid : svalid 2 sdisc.
Proof.
  constructor; try reflexivity; try lia.
  - intros i Hi. destruct i as [|[|i]]; try lia; unfold fac_d; simpl; lra.
  - simpl. lra.
Qed.
Lemma g34_vec : vecn 2 g34. Proof. split; reflexivity. Qed.
Lemma g34_nz : exists i, (i < 2)%nat /\ coords g34 i <> 0.
Proof. exists 0%nat. split; [lia|]. unfold coords. simpl. lra. Qed.

Lemma sdisc_step : exists e', apply_stable (N := RNum) single Central sdisc (g34, SC 0) = Ok (e', Success) /\
  @eq R (s_tsq e') 25 /\ @eq R (s_kappa e') (4 / 3) /\ scentre e' 0%nat = - 1 / 5 /\ scentre e' 1%nat = - 4 / 15 /\
  fac_u 2 e' 0 1 = 0 /\ fac_d 2 e' 0 = 25 / 43 /\ fac_d 2 e' 1 = 43 / 75.
Proof.
  rewrite apply_stable_core.
  destruct (score 2 sdisc g34 (calc_of single Central (s_helper sdisc) (SC 0)) (svalid_wf _ _ sdisc_valid) g34_vec)
    as (e' & st & rho & sigma & delta & w & z & q & om & Hw & Hz & Hom & Hq & Hstr & Er & Hwf & Et & Hh & _ & _ & _ & Hs).
  assert (w0 : w 0%nat = 3). { rewrite Hw by lia. unfold coords. simpl. ring. }
  assert (w1 : w 1%nat = 4). { rewrite Hw by lia. unfold coords, fac_u. simpl. ring. }
  assert (d0 : fac_d 2 sdisc 0 = 1) by reflexivity. assert (d1 : fac_d 2 sdisc 1 = 1) by reflexivity.
  assert (u01 : fac_u 2 sdisc 0 1 = 0) by reflexivity.
  assert (Eo : om = 25). { rewrite Hom. cbn [Rsum]. rewrite w0, w1, d0, d1. ring. }
  assert (q1 : q 1%nat = 4). { rewrite Hq by lia. rewrite Hz by lia. cbn [Rsum Nat.ltb Nat.leb]. rewrite w1, d1. ring. }
  assert (q0 : q 0%nat = 3). { rewrite Hq by lia. rewrite Hz by lia. cbn [Rsum Nat.ltb Nat.leb]. rewrite w0, d0, u01. ring. }
  assert (Ek : s_kappa sdisc * om = 25). { rewrite Eo. cbn [s_kappa sdisc]. ring. }
  rewrite Ek in Hstr, Et. cbn [calc_of single call_central s_helper sdisc] in Hstr. simpl in Hstr.
  rewrite calc_central_eq in Hstr by (lia || lra). replace (INR 2) with 2 in Hstr by (simpl; ring).
  replace (sqrt 25) with 5 in Hstr. 2:{ replace 25 with (5 * 5) by ring. symmetry. apply sqrt_square. lra. }
  inversion Hstr as [[Hst Hrho Hsig Hdel]]. subst st. exists e'. split; [exact Er|]. split; [exact Et|].
  destruct (Hs eq_refl) as (A1 & A2 & A3 & A4). cbv zeta in A3, A4.
  split. { rewrite A1, <- Hdel. cbn [s_kappa sdisc]. field. }
  split. { rewrite A2 by lia. rewrite <- Hrho, Eo, q0. unfold scentre, coords. simpl. field. }
  split. { rewrite A2 by lia. rewrite <- Hrho, Eo, q1. unfold scentre, coords. simpl. field. }
  split. { rewrite A4 by lia. rewrite u01. ring. }
  split. { rewrite A3 by lia. cbn [Rsum]. rewrite d0, w0, Eo, <- Hsig. field. }
  rewrite A3 by lia. cbn [Rsum]. rewrite d0, d1, w0, w1, Eo, <- Hsig. field.
Qed.

Lemma stable_loses_point : exists e e' g x, stable_new_with_scalar (N := RNum) 1 (vR [0; 0]) = Ok e /\
  apply_stable (N := RNum) single Central e (g, SC 0) = Ok (e', Success) /\
  spts 2 e x /\ along 2 (coords g) x (scentre e) <= 0 /\ ~ spts 2 e' x.
Proof.
  destruct sdisc_step as (e' & Er & Et & Hk & C0 & C1 & U & D0 & D1).
  exists sdisc, e', g34, (fun i => if (i =? 0)%nat then 4 / 5 else - 3 / 5).
  split; [apply sdisc_new|]. split; auto. split; [|split].
  - apply spts2. unfold scentre, coords, fac_d, fac_u. simpl. lra.
  - rewrite along2. unfold scentre, coords. simpl. lra.
  - rewrite spts2. cbv zeta. rewrite C0, C1, U, D0, D1, Hk. cbn [Nat.eqb]. intros H.
    match type of H with ?l <= _ => replace l with (43 / 25 + 75 / 43 * (1 / 9)) in H by field end. lra.
Qed.

(** ** the back substitution with an off-diagonal factor: U = [[1,1],[0,1]], so
    the set is that of the shape matrix [[2,-1],[-1,1]] *)
Definition skew : EllStable RNum := mkStable (N := RNum) (mkArr (N := RNum) [1; 1; 0; 1] 2 2) (vR [0; 0]) 1 (calc_new (N := RNum) 2) 0.
Definition skewE : Ell RNum := mkEll (N := RNum) false (mkArr (N := RNum) [2; -1; -1; 1] 2 2) (vR [0; 0]) 1 (calc_new (N := RNum) 2) 0.
Definition g23 : Arr RNum := vR [2; 3].

Lemma skew_valid : svalid 2 skew.
Proof.
  constructor; try reflexivity; try lia.
  - intros i Hi. destruct i as [|[|i]]; try lia; unfold fac_d; simpl; lra.
  - simpl. lra.
Qed.
Lemma skewE_proper : proper 2 skewE.
Proof.
  assert (HQ : forall y, quad 2 (shape 2 skewE) y = y 0%nat * y 0%nat + (y 0%nat - y 1%nat) * (y 0%nat - y 1%nat)).
  { intros y. rewrite quad2. unfold shape. simpl. ring. }
  split; [|split].
  - constructor; try reflexivity; try lia; [ij2; reflexivity| |unfold kap; simpl; lra].
    intros y. rewrite HQ. nra.
  - intros y ([|[|i]] & Hi & Hy); try lia; rewrite HQ; apply Rsqr_pos_lt in Hy; unfold Rsqr in Hy; nra.
  - unfold kap. simpl. lra.
Qed.
Lemma skew_same x : spts 2 skew x <-> pts 2 skewE x.
Proof.
  unfold pts. rewrite (in_ell_inverse 2 (shape 2 skewE) (fun i j => if (i =? 0)%nat && (j =? 0)%nat then 1 else if (i =? 1)%nat && (j =? 1)%nat then 2 else 1)).
  - rewrite spts2, quad2. unfold scentre, centre, coords, fac_d, fac_u, kap. simpl.
    match goal with |- ?l <= _ <-> ?r <= _ => replace l with r; [reflexivity|field] end.
  - exact (v_sym _ _ (proj1 skewE_proper)).
  - ij2; unfold mulmm, mtx_one, shape; simpl; lra.
Qed.
Lemma backsubst_wrong : exists e E g e' E', (forall x, spts 2 e x <-> pts 2 E x) /\ svalid 2 e /\ proper 2 E /\
  apply_stable (N := RNum) single Central e (g, SC 0) = Ok (e', Success) /\
  apply_cut (N := RNum) single Central E (g, SC 0) = Ok (E', Success) /\
  s_tsq e' = e_tsq E' /\ scentre e' 0%nat = 0 /\ centre E' 0%nat = - sqrt 5 / 15.
Proof.
  assert (E5 : width2 2 skewE g23 = 5). { unfold width2, kap. rewrite quad2. unfold shape, coords. simpl. ring. }
  assert (G : vecn 2 g23) by (split; reflexivity).
  destruct (score 2 skew g23 (calc_of single Central (s_helper skew) (SC 0)) (svalid_wf _ _ skew_valid) G)
    as (e' & st & rho & sigma & delta & w & z & q & om & Hw & Hz & Hom & Hq & Hstr & Er & Hwf & Et & Hh & _ & _ & _ & Hs).
  assert (d0 : fac_d 2 skew 0 = 1) by reflexivity. assert (d1 : fac_d 2 skew 1 = 1) by reflexivity.
  assert (u01 : fac_u 2 skew 0 1 = 1) by reflexivity.
  assert (w0 : w 0%nat = 2). { rewrite Hw by lia. unfold coords. simpl. ring. }
  assert (w1 : w 1%nat = 1). { rewrite Hw by lia. cbn [Rsum]. rewrite u01, w0. unfold coords. simpl. ring. }
  assert (Eo : om = 5). { rewrite Hom. cbn [Rsum]. rewrite w0, w1, d0, d1. ring. }
  assert (q1 : q 1%nat = 1). { rewrite Hq by lia. rewrite Hz by lia. cbn [Rsum Nat.ltb Nat.leb]. rewrite w1, d1. ring. }
  assert (q0 : q 0%nat = 0). { rewrite Hq by lia. rewrite Hz by lia. cbn [Rsum Nat.ltb Nat.leb]. rewrite w0, d0, u01, q1. ring. }
  assert (Ek : s_kappa skew * om = 5). { rewrite Eo. cbn [s_kappa skew]. ring. }
  rewrite Ek in Hstr, Et. cbn [s_helper skew] in Hstr. simpl in Hstr. rewrite calc_central_eq in Hstr by (lia || lra).
  inversion Hstr as [[Hst Hrho Hsig Hdel]]. subst st.
  destruct (core_run 2 skewE g23 (cut_core (N := RNum) single Central skewE (SC 0)) Success (sqrt 5 / (INR 2 + 1)) (2 / (INR 2 + 1)) (INR 2 * INR 2 / (INR 2 * INR 2 - 1)) (proj1 skewE_proper) G)
    as (E' & ErE & _ & HsE).
  { rewrite E5. simpl. apply calc_central_eq; [lia|lra]. }
  destruct (HsE eq_refl) as (S1 & S2 & S3 & S4 & S5 & _).
  exists skew, skewE, g23, e', E'. split; [exact skew_same|]. split; [exact skew_valid|]. split; [exact skewE_proper|].
  split; [exact Er|]. split; [rewrite apply_cut_core; exact ErE|]. destruct (Hs eq_refl) as (_ & A2 & _).
  split. { rewrite Et. symmetry. etransitivity; [exact S4|exact E5]. }
  split. { rewrite A2 by lia. rewrite q0. unfold scentre, coords. simpl. ring. }
  rewrite S5 by lia. rewrite mv2.
  replace (quad 2 (shape 2 skewE) (coords g23)) with 5 by (rewrite quad2; unfold shape, coords; simpl; ring).
  unfold centre, coords, shape. simpl. field.
Qed.

(** ** new_with_matrix *)
Lemma diag_matrix_set n e E : tracks n e E -> (forall i, (i < n)%nat -> 0 < fac_d n e i) -> forall x, spts n e x <-> pts n E x.
Proof.
  intros T HD x.
  assert (Hs : spts n e x <-> Rsum n (fun i => (x i - scentre e i) * (x i - scentre e i) / fac_d n e i) <= s_kappa e).
  { unfold spts. cbv zeta. rewrite (Rsum_ext n _ (fun i => (x i - scentre e i) * (x i - scentre e i) / fac_d n e i)); [reflexivity|].
    intros i Hi. rewrite upper_id; auto. intros; now apply (tk_diag _ _ _ T). }
  rewrite Hs. unfold pts, kap, centre. rewrite <- (tk_xc _ _ _ T), <- (tk_kap _ _ _ T). change (coords (s_xc e)) with (scentre e). split.
  - intros H. exists (fun i => (x i - scentre e i) / fac_d n e i). split.
    + intros i Hi. rewrite (tracks_mv n e E) by auto. field. pose proof (HD i Hi). lra.
    + rewrite (tracks_quad n e E) by auto. eapply Rle_trans; [|exact H]. right. apply Rsum_ext. intros i Hi. field. pose proof (HD i Hi). lra.
  - intros (y & H1 & H2). rewrite (tracks_quad n e E) in H2 by auto. eapply Rle_trans; [|exact H2]. right. apply Rsum_ext.
    intros i Hi. rewrite H1 by auto. rewrite (tracks_mv n e E) by auto. field. pose proof (HD i Hi). lra.
Qed.
Lemma new_with_matrix_diag n kappa mq xc d : (0 < n)%nat -> vecn n xc -> is_diag n mq d -> (forall i, (i < n)%nat -> 0 < d i) ->
  forall x, spts n (stable_new_with_matrix (N := RNum) kappa mq xc) x <-> pts n (ell_new_with_matrix (N := RNum) kappa mq xc) x.
Proof.
  intros Hn [Lx Cx] (Hr & Hc & Hl & Hd) Hp.
  assert (Hfd : forall i, (i < n)%nat -> fac_d n (stable_new_with_matrix (N := RNum) kappa mq xc) i = d i).
  { intros i Hi. unfold fac_d. cbn [stable_new_with_matrix s_mq]. rewrite Hd by auto. now rewrite Nat.eqb_refl. }
  apply diag_matrix_set.
  - constructor; try reflexivity.
    + repeat split; auto.
    + repeat split; auto.
    + intros i j Hij Hj. unfold fac_u. cbn [stable_new_with_matrix s_mq]. rewrite Hd by lia. destruct (Nat.eqb_spec i j); [lia|auto].
    + intros i j Hi Hj. unfold shape. cbn [ell_new_with_matrix e_mq]. rewrite Hd by auto. unfold diag. destruct (i =? j)%nat; auto. now rewrite Hfd.
  - intros i Hi. rewrite Hfd by auto. auto.
Qed.
Definition m2112 : Arr RNum := mkArr (N := RNum) [2; 1; 1; 2] 2 2.
Lemma new_with_matrix_nondiag : exists kappa mq xc x, vecn 2 xc /\
  proper 2 (ell_new_with_matrix (N := RNum) kappa mq xc) /\
  spts 2 (stable_new_with_matrix (N := RNum) kappa mq xc) x /\ ~ pts 2 (ell_new_with_matrix (N := RNum) kappa mq xc) x.
Proof.
  exists 1, m2112, (vR [0; 0]), (fun i => if (i =? 0)%nat then 1 else -1). split; [split; reflexivity|].
  assert (HQ : forall y, quad 2 (shape 2 (ell_new_with_matrix (N := RNum) 1 m2112 (vR [0; 0]))) y = y 0%nat * y 0%nat + y 1%nat * y 1%nat + (y 0%nat + y 1%nat) * (y 0%nat + y 1%nat)).
  { intros y. rewrite quad2. unfold shape. simpl. ring. }
  split; [|split].
  - split; [|split].
    + constructor; try reflexivity; try lia; [ij2; reflexivity| |unfold kap; simpl; lra].
      intros y. rewrite HQ. nra.
    + intros y ([|[|i]] & Hi & Hy); try lia; rewrite HQ; apply Rsqr_pos_lt in Hy; unfold Rsqr in Hy; nra.
    + unfold kap. simpl. lra.
  - apply spts2. unfold scentre, coords, fac_d, fac_u. simpl. lra.
  - intros (y & H1 & H2). rewrite HQ in H2. pose proof (H1 0%nat ltac:(lia)) as A. pose proof (H1 1%nat ltac:(lia)) as B.
    rewrite mv2 in A, B. unfold shape, centre, coords, kap in *. simpl in *. nra.
Qed.

(** ** statements from the constructors *)
Lemma tracks_new_scalar n (val : R) (xc : Arr RNum) : (0 < n)%nat -> vecn n xc ->
  exists e E, stable_new_with_scalar (N := RNum) val xc = Ok e /\ ell_new_with_scalar (N := RNum) val xc = Ok E /\ tracks n e E.
Proof.
  intros Hn [Lx Cx].
  destruct (stable_new_scalar_ok n val xc) as (e0 & E1 & W1 & F1 & X1 & K1 & H1 & D1); [lia|auto|].
  destruct (ell_new_with_scalar_ok (N := RNum) n val xc) as (E0 & E2 & W2 & K2 & X2 & H2 & N2 & D2); [lia|auto|].
  exists e0, E0. split; auto. split; auto.
  constructor; auto; try congruence. intros i j Hi Hj. unfold diag. rewrite D1 by auto. exact (D2 i j Hi Hj).
Qed.
Lemma tracks_new n (val xc : Arr RNum) : (0 < n)%nat -> vecn n val -> vecn n xc ->
  exists e E, stable_new (N := RNum) val xc = Ok e /\ ell_new (N := RNum) val xc = Ok E /\ tracks n e E.
Proof.
  intros Hn Hv [Lx Cx].
  destruct (stable_new_ok n val xc) as (e0 & E1 & W1 & F1 & X1 & K1 & H1 & D1); [lia|auto|auto|].
  destruct (ell_new_ok (N := RNum) n val xc) as (E0 & E2 & W2 & K2 & X2 & H2 & N2 & D2); [lia|auto|auto|].
  exists e0, E0. split; auto. split; auto.
  constructor; auto; try congruence; [|etransitivity; [exact K1|symmetry; exact K2]]. intros i j Hi Hj. unfold diag. rewrite D1 by auto. exact (D2 i j Hi Hj).
Qed.
Lemma first_cut_scalar {C} (ct : CutType RNum C) m n (val : R) (xc g : Arr RNum) c : (0 < n)%nat -> vecn n xc -> vecn n g ->
  exists e E e' E' st, stable_new_with_scalar (N := RNum) val xc = Ok e /\ ell_new_with_scalar (N := RNum) val xc = Ok E /\
    apply_stable ct m e (g, c) = Ok (e', st) /\ apply_cut ct m E (g, c) = Ok (E', st) /\
    s_tsq e' = e_tsq E' /\ s_xc e' = e_xc E' /\ s_kappa e' = e_kappa E'.
Proof.
  intros Hn Hx Hg. destruct (tracks_new_scalar n val xc Hn Hx) as (e & E & A & B & T).
  destruct (tracks_step ct m n e E g c T Hg) as (e' & E' & st & R1 & R2 & Q1 & Q2 & Q3 & _).
  exists e, E, e', E', st. auto 8.
Qed.
Lemma first_cut_new {C} (ct : CutType RNum C) m n (val xc g : Arr RNum) c : (0 < n)%nat -> vecn n val -> vecn n xc -> vecn n g ->
  exists e E e' E' st, stable_new (N := RNum) val xc = Ok e /\ ell_new (N := RNum) val xc = Ok E /\
    apply_stable ct m e (g, c) = Ok (e', st) /\ apply_cut ct m E (g, c) = Ok (E', st) /\
    s_tsq e' = e_tsq E' /\ s_xc e' = e_xc E' /\ s_kappa e' = e_kappa E'.
Proof.
  intros Hn Hv Hx Hg. destruct (tracks_new n val xc Hn Hv Hx) as (e & E & A & B & T).
  destruct (tracks_step ct m n e E g c T Hg) as (e' & E' & st & R1 & R2 & Q1 & Q2 & Q3 & _).
  exists e, E, e', E', st. auto 8.
Qed.
Lemma never_rotates {C} (ct : CutType RNum C) n (val : R) (xc : Arr RNum) cuts : (0 < n)%nat -> length (adata xc) = n ->
  Forall (fun mc => vecn n (fst (snd mc))) cuts ->
  exists e e' log, stable_new_with_scalar (N := RNum) val xc = Ok e /\ run_stable ct e cuts = Ok (e', log) /\
    forall i j, (i < j)%nat -> (j < n)%nat -> fac_u n e' i j = 0.
Proof.
  intros Hn Lx Hc. destruct (stable_new_scalar_ok n val xc Hn Lx) as (e & E1 & W & F & _).
  destruct (diag_run ct n cuts e W F Hc) as (e' & log & R & _ & F'). exists e, e', log. auto.
Qed.
Lemma stable_shape_differs : exists e E g e' E' x,
  stable_new_with_scalar (N := RNum) 1 (vR [0; 0]) = Ok e /\ ell_new_with_scalar (N := RNum) 1 (vR [0; 0]) = Ok E /\
  apply_stable (N := RNum) single Central e (g, SC 0) = Ok (e', Success) /\
  apply_cut (N := RNum) single Central E (g, SC 0) = Ok (E', Success) /\
  pts 2 E' x /\ ~ spts 2 e' x.
Proof.
  destruct stable_loses_point as (e & e' & g & x & H1 & H2 & H3 & H4 & H5).
  assert (Ee : e = sdisc). { rewrite sdisc_new in H1. now inversion H1. } subst e.
  destruct sdisc_step as (e2 & Er & Et & Hk & C0 & C1 & U & D0 & D1).
  set (x0 := (fun i => if (i =? 0)%nat then 4 / 5 else - 3 / 5) : vec).
  assert (W : width2 2 disc g34 = 25). { unfold width2, kap. rewrite quad2. unfold shape, coords. simpl. ring. }
  destruct (central_single 2 disc g34 0 ltac:(lia) (proj1 disc_proper) g34_vec) as (E' & EE & V' & K); [rewrite W; lra|].
  exists sdisc, disc, g34, e2, E', x0. split; [apply sdisc_new|]. split; [reflexivity|]. split; [exact Er|]. split; [exact EE|]. split.
  - apply K; [apply disc_pts; unfold x0; simpl; lra|]. rewrite along2. unfold centre, coords, x0. simpl. lra.
  - rewrite spts2. cbv zeta. unfold x0. rewrite C0, C1, U, D0, D1, Hk. cbn [Nat.eqb]. intros H.
    match type of H with ?l <= _ => replace l with (43 / 25 + 75 / 43 * (1 / 9)) in H by field end. lra.
Qed.

Lemma skew_rejects : exists e', apply_stable (N := RNum) single Bias skew (g23, SC 3) = Ok (e', NoSoln) /\
  nth 2 (adata (s_mq e')) 0 <> nth 2 (adata (s_mq skew)) 0.
Proof.
  rewrite apply_stable_core. unfold stable_update_core. cbn -[calc_bias_cut calc_new INR Ropp].
  match goal with |- context [calc_bias_cut _ _ ?t] => replace t with (5 : R) by (cbn; ring) end.
  rewrite calc_bias_eq. rewrite (proj2 (Rlt_bool_iff _ _)).
  - cbn. eexists. split; [reflexivity|]. cbn. lra.
  - lra.
Qed.
