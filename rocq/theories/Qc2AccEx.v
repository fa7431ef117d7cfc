(** A concrete platform and a run on the oracle of quasicvx2_tests.rs in binary64 (C128). *)
From Coq Require Import ZArith Reals Lra Lia Bool Psatz List Arith.
From Flocq Require Import Core IEEE754.BinarySingleNaN.
From Verif Require Import Num Res Arr ArrLemmas CuttingPlane EllCalc Ell EllRun Spec RealLin FloatLemmas FloatErr FloatRel AccSpec StepAccSpec StepRunSpec StepRun StepEx StepRunEx Examples ProfitSpec ProfAccSpec ProfAcc ProfAccEx QcAccSpec QcAccEx Qcvx2 Qc2AccSpec Qc2Acc Qc2AccRun FexpAcc LowAccEx Replay RunSpec.
Import ListNotations.
Local Open Scope R_scope.

Lemma qc2_pf1 : qc_platform lm0 (/ 1000000) 5 1 /\ qc2_margin (/ 1000000) 5 1 (1 / 2) <= 6 / 1000 /\ qc_drop 1 <= / 1000000000000.
Proof.
  destruct qc_pf1 as (A & _ & B). split; [exact A|]. split; [|exact B].
  unfold qc2_margin, qc_eps. pose proof exp_5. pose proof (exp_pos 5). assert (U : bpow radix2 (-50) = / 1125899906842624) by reflexivity. rewrite U. lra.
Qed.
(** the ellipse with half axes 4 and 2 around (-1, 3) *)
Definition qe3 : Ell F := ell_from_covariance (N := F) (mkArr (N := F) (map fofZ [16; 0; 0; 4]%Z) 2 2) (ints [-1; 3]%Z).
Lemma qe3_shape i j : (i < 2)%nat -> (j < 2)%nat -> fshape 2 qe3 i j = if Nat.eqb i j then (if Nat.eqb i 0 then 16 else 4) else 0.
Proof.
  intros Hi Hj. destruct i as [|[|]]; [| |lia]; (destruct j as [|[|]]; [| |lia]); unfold fshape; cbn [qe3 ell_from_covariance ell_new_with_matrix e_mq adata map nth Nat.mul Nat.add Nat.eqb]; apply int_val; lia.
Qed.
Lemma qe3_kap : fkap qe3 = 1.
Proof. apply (int_val 1). lia. Qed.
Lemma qe3_tame : tame 2 qe3 4 16 5.
Proof.
  pose proof small100 as [A B]. pose proof qe3_kap as K. split.
  - split; [lia|]. vm_compute. discriminate.
  - repeat split.
  - reflexivity.
  - reflexivity.
  - reflexivity.
  - split; repeat constructor.
  - split; [reflexivity|]. change (B2R (e_kappa qe3 : f64)) with (fkap qe3). rewrite K. lra.
  - intros i j Hi Hj. rewrite !qe3_shape by auto. destruct i as [|[|]]; [| |lia]; (destruct j as [|[|]]; [| |lia]); reflexivity.
  - split; [lra|]. intros z. unfold quad, mulmv, dot. cbn [Rsum]. rewrite !qe3_shape by lia. cbn [Nat.eqb]. pose proof (Rle_0_sqr (z 0%nat)). unfold Rsqr in *. lra.
  - split; [lra|]. intros i j Hi Hj. rewrite qe3_shape by auto. destruct (Nat.eqb i j), (Nat.eqb i 0); rewrite Rabs_pos_eq; lra.
  - split; [lra|]. intros i Hi. destruct i as [|[|]]; [| |lia]; unfold fcoords; cbn [qe3 ell_from_covariance ell_new_with_matrix e_xc ints a_from adata map nth]; rewrite int_val by lia; apply Rabs_le; lra.
Qed.
Lemma qe3_square : in_square 5 (e_xc qe3).
Proof. split; [split; reflexivity|]. split; [repeat constructor|]. exact (proj2 (t_X _ _ _ _ _ qe3_tame)). Qed.
Lemma qe3_seen : seen lm0 5 (1 / 2) (e_xc qe3).
Proof. split; [exact qe3_square|]. left. unfold fcoords. cbn [qe3 ell_from_covariance ell_new_with_matrix e_xc ints a_from adata map nth]. rewrite int_val by lia. lra. Qed.
(** two rounds: a cut for x >= 0, then an improvement *)
Lemma qc2_rounds : match qc2_assess (-1)%Z (e_xc qe3) (fofZ 0 : F) with
  | Ok (p1, ga1, ((g1, c1), false)) => match apply_cut (N := F) single_cut Bias qe3 (g1, c1) with
    | Ok (e1, Success) => gchk g1 && between (-1) (-1) (nth 0 (adata g1) (n0 (N := F))) && between 0 0 (nth 1 (adata g1) (n0 (N := F))) && between 1 1 (sc_beta c1) && chk e1 && Nat.eqb (acols (e_xc e1)) 0 && between 1 5 (nth 0 (adata (e_xc e1)) (n0 (N := F))) &&
      match qc2_assess p1 (e_xc e1) ga1 with
      | Ok (p2, ga2, ((g2, c2), true)) => match apply_cut (N := F) single_cut Central e1 (g2, c2) with
        | Ok (e2, Success) => gchk g2 && chk4 e2
        | _ => false end
      | _ => false end
    | _ => false end
  | _ => false end = true.
Proof. vm_compute. reflexivity. Qed.
Lemma qc2_ends : match cutting_plane_optim qc2_assess (ell_space single_cut) (qopt 2) (-1)%Z qe3 (fofZ 0 : F) with Ok (_, _, ga, (Some _, k)) => Nat.eqb k 2 && between 0 1 ga && Bltb (fdiv (fofZ 1) (fofZ 16)) ga | _ => false end = true.
Proof. vm_compute. reflexivity. Qed.
Lemma qc2_run_case : (forall l o1 e1 (ga1 : F) xb1, asked_opt single_cut (tolerance (qopt 2)) qc2_assess (-1)%Z qe3 (fofZ 0 : F) None l o1 e1 ga1 xb1 -> (length l <= max_iters (qopt 2))%nat ->
    tame_run 2 (/ 1000000) 4 qe3 l /\ ((length l < max_iters (qopt 2))%nat -> seen lm0 5 (1 / 2) (e_xc e1))) /\
  exists o' e' ga x, cutting_plane_optim qc2_assess (ell_space single_cut) (qopt 2) (-1)%Z qe3 (fofZ 0 : F) = Ok (o', e', ga, (Some x, 2%nat)) /\ 1 / 16 < B2R (ga : f64) <= 1.
Proof.
  split.
  2: { pose proof qc2_ends as E. destruct (cutting_plane_optim qc2_assess _ (qopt 2) _ qe3 _) as [[[[o' e'] ga] [[x|] k]]|]; try discriminate. apply andb_true_iff in E as [E E3]. apply andb_true_iff in E as [E E2]. apply Nat.eqb_eq in E. subst k. do 4 eexists. split; [reflexivity|].
    destruct (between_val 0 1 ga ltac:(lia) ltac:(lia) E2) as [Fg [_ G]]. split; [|exact G]. fold sixteenth in E3. rewrite fltb_fin in E3 by (exact Fg || exact (proj1 sixteenth_val)). apply EllReal.Rlt_bool_iff in E3. now rewrite (proj2 sixteenth_val) in E3. }
  intros l o' e' ga' xb' A HL. cbn [qopt max_iters] in *.
  pose proof qc2_rounds as Q. destruct (qc2_assess (-1)%Z (e_xc qe3) _) as [[[o1 ga1] [[g1 [b1]] []]]|] eqn:E1; try (discriminate Q). cbn [sc_beta] in Q.
  destruct (apply_cut single_cut Bias qe3 _) as [[e1 []]|] eqn:S1; try (discriminate Q). apply andb_true_iff in Q as [Q Q2]. split_and Q.
  destruct (qc2_assess o1 (e_xc e1) ga1) as [[[o2 ga2] [[g2 [b2]] []]]|] eqn:E2; try (discriminate Q2).
  destruct (apply_cut single_cut Central e1 _) as [[e2 []]|] eqn:S2; try (discriminate Q2). split_and Q2.
  repeat match goal with H : Nat.eqb _ _ = true |- _ => apply Nat.eqb_eq in H end. apply gchk_ok in Q, Q2.
  match goal with H : between (-1) (-1) (nth 0 _ _) = true |- _ => apply between_val in H as [_ VA]; [|lia|lia] end. match goal with H : between 0 0 (nth 1 _ _) = true |- _ => apply between_val in H as [_ VB]; [|lia|lia] end.
  match goal with H : between 1 5 (nth 0 _ _) = true |- _ => apply between_val in H as [_ VC]; [|lia|lia] end.
  match goal with H : between 1 1 b1 = true |- _ => apply between_val in H as [F1 V1]; [|lia|lia] end.
  match goal with H : chk e1 = true |- _ => rename H into C1 end. match goal with H : chk4 e2 = true |- _ => rename H into C2 end. destruct (chk_facts _ C1) as [KA KB].
  assert (SL1 : slack 2 4 16 5 (fkap qe3) <= / 1000000) by (apply slack_small'; rewrite ?qe3_kap; lra).
  assert (M1 : moderate_or_zero b1) by (apply beta_ok; [exact F1|lra]). assert (W1 : 2 * B2R b1 <= sqrt (B2R (e_tsq e1 : f64))) by (apply half_width; lra). assert (W2 : 2 * 0 <= sqrt (B2R (e_tsq e2 : f64))) by (rewrite Rmult_0_r; apply sqrt_pos).
  assert (L0 : bpow radix2 (-90) <= bpow radix2 (-2)) by (apply bpow_le; lia). change (bpow radix2 (-2)) with (/ 4) in L0.
  destruct (tame_next qe3 Bias g1 (mkSingle (N := F) b1) e1 4 qe3_tame ltac:(lra) SL1 Q (or_intror M1) S1 W1 C1) as [T1 R1].
  assert (SL2 : slack 2 (4 / 11) 16 5 (fkap e1) <= / 1000000) by (apply slack_small'; lra).
  destruct (tame_next4 e1 Central g2 (mkSingle (N := F) b2) e2 (4 / 11) R1 ltac:(lra) SL2 Q2 (or_introl eq_refl) S2 W2 C2) as [T2 R2].
  assert (G1 : grow 2 (depth 2 qe3 g1 (B2R b1)) <= 4).
  { apply grow_small; [lra|]. right. rewrite qe3_kap. unfold quad, mulmv, dot. cbn [Rsum]. rewrite !qe3_shape by lia. cbn [Nat.eqb]. assert (X0 : fcoords g1 0%nat = -1) by (unfold fcoords; lra). assert (X1 : fcoords g1 1%nat = 0) by (unfold fcoords; lra). rewrite X0, X1. lra. }
  assert (G2 : grow 2 (depth 2 e1 g2 0) <= 4) by (apply grow_small; [lra|now left]).
  assert (P0 : tame_run 2 (/ 1000000) 4 qe3 []) by (exists 4, 16, 5; exact qe3_tame).
  assert (P1 : tame_run 2 (/ 1000000) 4 qe3 [(Bias, (g1, mkSingle (N := F) b1))]).
  { split; [exists 4, 16, 5; split; [exact qe3_tame|exact SL1]|]. split; [exact Q|]. split; [exact G1|]. split; [right; exact M1|]. exists e1. split; [exact S1|]. split; [exact T1|]. split; [exact W1|]. exists (4 / 11), 16, 5. exact R1. }
  assert (P2 : tame_run 2 (/ 1000000) 4 qe3 [(Bias, (g1, mkSingle (N := F) b1)); (Central, (g2, mkSingle (N := F) b2))]).
  { split; [exists 4, 16, 5; split; [exact qe3_tame|exact SL1]|]. split; [exact Q|]. split; [exact G1|]. split; [right; exact M1|]. exists e1. split; [exact S1|]. split; [exact T1|]. split; [exact W1|].
    split; [exists (4 / 11), 16, 5; split; [exact R1|exact SL2]|]. split; [exact Q2|]. split; [exact G2|]. split; [now left|]. exists e2. split; [exact S2|]. split; [exact T2|]. split; [exact W2|]. exists (4 / 11 / 11), 16, 5. exact R2. }
  assert (B1 : seen lm0 5 (1 / 2) (e_xc e1)) by (split; [apply square_chk; assumption|right; unfold fcoords; lra]).
  inversion A as [|? ? ? ? oa gaa cut sh ea st rest ? ? ? ? X1 X2 X3 X4]; subst; [split; [exact P0|intros _; exact qe3_seen]|]. clear A.
  rewrite E1 in X1. inversion X1; subst oa gaa cut sh. clear X1. cbn [cut_mode] in *. assert (X5 := eq_trans (eq_sym S1) X2). inversion X5; subst ea st. clear X2 X5.
  inversion X4 as [|? ? ? ? ob gab cut sh eb st rest2 ? ? ? ? Y1 Y2 Y3 Y4]; subst; [split; [exact P1|intros _; exact B1]|]. clear X4.
  rewrite E2 in Y1. inversion Y1; subst ob gab cut sh. clear Y1. cbn [cut_mode] in *. assert (Y5 := eq_trans (eq_sym S2) Y2). inversion Y5; subst eb st. clear Y2 Y5.
  inversion Y4; subst; [split; [exact P2|cbn [length]; lia]|]. cbn [length] in HL. lia.
Qed.
Lemma qc2_calls : match qc2_assess (-1)%Z (ints [1; 3]%Z) (fofZ 1 : F) with Ok (_, _, (_, false)) => true | _ => false end = true /\ match qc2_assess (-1)%Z (ints [1; 3]%Z) (fofZ 0 : F) with Ok (_, ga, (_, true)) => between 0 1 ga | _ => false end = true.
Proof. split; vm_compute; reflexivity. Qed.
Lemma qc2_pt : in_square 5 (ints [1; 3]%Z : Arr F) /\ off_axis (1 / 2) (ints [1; 3]%Z : Arr F).
Proof.
  split; [split; [split; reflexivity|]; split; [repeat constructor|]; intros [|[|i]] Hi; [| |lia]; unfold fcoords; cbn [ints a_from adata map nth]; rewrite int_val by lia; apply Rabs_le; lra|].
  right. unfold fcoords. cbn [ints a_from adata map nth]. rewrite int_val by lia. lra.
Qed.
Lemma qc2_reach : reaches2 (6 / 1000) (1 / 4) (fun i => match i with O => 1 / 2 | _ => 2 end).
Proof. pose proof QcvxRun.half_exp_b. pose proof QcvxRun.half_root_b. split; [|split]; lra. Qed.
Lemma qc2_high_round : match qc2_assess (-1)%Z (e_xc qe3) (fofZ 1 : F) with
  | Ok (p1, ga1, ((g1, c1), false)) => match apply_cut (N := F) single_cut Bias qe3 (g1, c1) with Ok (e1, Success) => chk e1 && Nat.eqb (acols (e_xc e1)) 0 && between 1 5 (nth 0 (adata (e_xc e1)) (n0 (N := F))) | _ => false end | _ => false end = true.
Proof. vm_compute. reflexivity. Qed.
Lemma qc2_high_ends : match cutting_plane_optim qc2_assess (ell_space single_cut) (qopt 2) (-1)%Z qe3 (fofZ 1 : F) with Ok (_, _, _, (None, _)) => true | _ => false end = true.
Proof. vm_compute. reflexivity. Qed.
Lemma qc2_high_case : (forall l o1 e1 (ga1 : F) xb1, asked_opt single_cut (tolerance (qopt 2)) qc2_assess (-1)%Z qe3 (fofZ 1 : F) None l o1 e1 ga1 xb1 -> (length l < max_iters (qopt 2))%nat -> seen lm0 5 (1 / 2) (e_xc e1)) /\
  44 / 100 + qc_drop 1 < B2R (fofZ 1) /\
  match cutting_plane_optim qc2_assess (ell_space single_cut) (qopt 2) (-1)%Z qe3 (fofZ 1 : F) with Ok (_, _, _, (None, _)) => true | _ => false end = true.
Proof.
  split; [|split; [|exact qc2_high_ends]].
  - intros l o' e' ga' xb' A HL. cbn [qopt max_iters] in *.
    pose proof qc2_high_round as Q. destruct (qc2_assess (-1)%Z (e_xc qe3) _) as [[[o1 ga1] [[g1 c1] []]]|] eqn:E1; try (discriminate Q).
    destruct (apply_cut single_cut Bias qe3 _) as [[e1 []]|] eqn:S1; try (discriminate Q). apply andb_true_iff in Q as [Q Q3]. apply andb_true_iff in Q as [Q Q2]. apply Nat.eqb_eq in Q2. apply between_val in Q3 as [_ Q3]; [|lia|lia].
    inversion A as [|? ? ? ? oa gaa cut sh ea st rest ? ? ? ? X1 X2 X3 X4]; subst; [exact qe3_seen|]. clear A. rewrite E1 in X1. inversion X1; subst oa gaa cut sh. clear X1. cbn [cut_mode] in *. assert (X5 := eq_trans (eq_sym S1) X2). inversion X5; subst ea st. clear X2 X5.
    inversion X4 as [|? ? ? ? ob gab cut sh eb st rest2 ? ? ? ? Y1 Y2 Y3 Y4]; subst; [split; [now apply square_chk|right; unfold fcoords; lra]|]. cbn [length] in HL. lia.
  - rewrite int_val by lia. unfold qc_drop. assert (U : bpow radix2 (-51) = / 2251799813685248) by reflexivity. rewrite U. lra.
Qed.
