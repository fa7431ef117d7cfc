(** A concrete box of markets and a run in binary64 (C115). *)
From Coq Require Import ZArith Reals Lra Lia Bool Psatz List Arith.
From Flocq Require Import Core IEEE754.BinarySingleNaN.
From Verif Require Import Num Res Arr ArrLemmas CuttingPlane EllCalc Ell EllRun Spec RealLin FloatLemmas FloatErr FloatRel AccSpec StepAccSpec StepRunSpec StepRun StepEx StepRunEx Profit ProfitSpec ProfAccSpec ProfAcc ProfAccRun FexpAcc LowAccEx RbAccSpec RbAcc ProfAccEx Replay RunSpec.
Import ListNotations.
Local Open Scope R_scope.

(** the market of C114 with both elasticities known to 1/16 *)
Definition rP : ProfitRb F := mkProfitRb (N := F) (sixteenth, sixteenth) pP qq.
Lemma rP_ok : rb_ok rP. Proof. split; [exact pP_ok|split; reflexivity]. Qed.
Lemma rP_u i : (i < 2)%nat -> b_u (rb_box rP) i = 1 / 16.
Proof. intros Hi. destruct i as [|[|]]; [| |lia]; exact (proj2 sixteenth_val). Qed.
Lemma rP_fits : rb_fits rP 2 5 8.
Proof.
  pose proof exp_2 as E2. pose proof (qq_val 0 ltac:(lia)) as Q0. pose proof (qq_val 1 ltac:(lia)) as Q1. pose proof (rP_u 0 ltac:(lia)) as U0. pose proof (rP_u 1 ltac:(lia)) as U1. assert (V1 : B2R (fofZ 1) = 1) by (apply (int_val 1); lia). assert (V0 : B2R (fofZ 0) = 0) by (apply (int_val 0); lia).
  split; rewrite ?U0, ?U1; cbn [rP pP rb_omega rb_uie rb_elast fst snd p_log_p_scale p_log_k p_elast p_price_out]; try reflexivity; try exact qq_fin; try exact (proj1 sixteenth_val); try lra.
  - rewrite V0, Rabs_R0. lra.
  - intros i Hi. change (Rabs (fcoords qq i) + b_u (rb_box rP) i <= 99). rewrite qq_val, rP_u by exact Hi. rewrite Rabs_pos_eq; lra.
  - rewrite V1, Q0, Q1, !Rabs_pos_eq by lra. lra.
  - intros i Hi. rewrite qq_val by exact Hi. apply Rle_trans with (exp (- (2))); [apply exp_le; lra|]. rewrite exp_Ropp. replace (1 / 4) with (/ 4) by field. apply Rinv_le_contravar; lra.
  - rewrite Q0, Q1. replace (8 - 1) with (2 + 5) by ring. rewrite exp_plus. pose proof (exp_pos 5). assert (exp 2 <= exp 5) by (apply exp_le; lra). nra.
Qed.
Lemma rb_margin_small : rb_margin (/ 1000000) 2 <= 5 / 100000 /\ prof_drop (/ 1000000) 5 <= 13 / 10000.
Proof. split; [|exact (proj2 margin_small)]. unfold rb_margin, prof_margin, prof_eps. assert (U : bpow radix2 (-40) = / 1099511627776) by reflexivity. rewrite U. lra. Qed.
Lemma square_chk2 (e : Ell F) : chk e = true -> forallb (between (-2) 2) (adata (e_xc e)) = true -> acols (e_xc e) = 0%nat -> in_square 2 (e_xc e).
Proof.
  intros K B C. destruct (square_chk e K C) as (T & A & _). split; [exact T|]. split; [exact A|]. intros i Hi. unfold fcoords. destruct T as [TL _]. destruct (between_val (-2) 2 (nth i (adata (e_xc e)) (n0 (N := F))) ltac:(lia) ltac:(lia)) as [_ Q]; [apply (proj1 (forallb_forall _ _) B); apply nth_In; rewrite TL; exact Hi|]. apply Rabs_le. lra.
Qed.
Lemma qe_square2 : in_square 2 (e_xc qe).
Proof. destruct qe_square as (A & B & _). split; [exact A|]. split; [exact B|]. intros i Hi. assert (K : forallb (between (-2) 2) (adata (e_xc qe)) = true) by (vm_compute; reflexivity). destruct A as [TL _]. unfold fcoords. destruct (between_val (-2) 2 (nth i (adata (e_xc qe)) (n0 (N := F))) ltac:(lia) ltac:(lia)) as [_ Q]; [apply (proj1 (forallb_forall _ _) K); apply nth_In; rewrite TL; exact Hi|]. apply Rabs_le. lra. Qed.
Lemma rb_rounds : match profit_rb_assess rP (e_xc qe) (fofZ 0 : F) with
  | Ok (p1, ga1, ((g1, c1), false)) => match apply_cut (N := F) single_cut Bias qe (g1, c1) with
    | Ok (e1, Success) => gchk g1 && between 1 1 (nth 0 (adata g1) (n0 (N := F))) && between 0 0 (nth 1 (adata g1) (n0 (N := F))) && between 1 1 (sc_beta c1) && between 0 0 ga1 && chk e1 && forallb (between (-2) 2) (adata (e_xc e1)) && Nat.eqb (acols (e_xc e1)) 0 &&
      match profit_rb_assess p1 (e_xc e1) ga1 with
      | Ok (p2, ga2, ((g2, c2), true)) => match apply_cut (N := F) single_cut Central e1 (g2, c2) with
        | Ok (e2, Success) => gchk g2 && between 1 3 ga2 && chk4 e2
        | _ => false end
      | _ => false end
    | _ => false end
  | _ => false end = true.
Proof. vm_compute. reflexivity. Qed.
Lemma rb_ends : match cutting_plane_optim profit_rb_assess (ell_space single_cut) (qopt 2) rP qe (fofZ 0 : F) with Ok (_, _, ga, (Some _, k)) => Nat.eqb k 2 && between 1 3 ga | _ => false end = true.
Proof. vm_compute. reflexivity. Qed.

Lemma rb_run_case : exp_near lm0 5 (/ 1000000) /\ ln_near lm0 8 (/ 1000000) /\ rb_ok rP /\ rb_fits rP 2 5 8 /\ level_fits 5 (fofZ 0) /\ (rb_margin (/ 1000000) 2 <= 5 / 100000 /\ prof_drop (/ 1000000) 5 <= 13 / 10000) /\ in_square 2 (e_xc qe) /\
  (forall l o1 e1 (ga1 : F) xb1, asked_opt single_cut (tolerance (qopt 2)) profit_rb_assess rP qe (fofZ 0 : F) None l o1 e1 ga1 xb1 -> (length l <= max_iters (qopt 2))%nat ->
    tame_run 2 (/ 1000000) 4 qe l /\ 0 <= B2R (ga1 : f64) /\ ((length l < max_iters (qopt 2))%nat -> in_square 2 (e_xc e1))) /\
  exists o' e' ga x, cutting_plane_optim profit_rb_assess (ell_space single_cut) (qopt 2) rP qe (fofZ 0 : F) = Ok (o', e', ga, (Some x, 2%nat)) /\ 1 <= B2R (ga : f64) <= 3.
Proof.
  split; [exact lm0_exp|]. split; [exact lm0_ln|]. split; [exact rP_ok|]. split; [exact rP_fits|]. split; [apply (level_small 0); lia|]. split; [exact rb_margin_small|]. split; [exact qe_square2|]. split.
  2: { pose proof rb_ends as E. destruct (cutting_plane_optim profit_rb_assess _ (qopt 2) rP qe _) as [[[[o' e'] ga] [[x|] k]]|]; try discriminate. apply andb_true_iff in E as [E E2]. apply Nat.eqb_eq in E. subst k. do 4 eexists. split; [reflexivity|]. exact (proj2 (between_val 1 3 ga ltac:(lia) ltac:(lia) E2)). }
  intros l o' e' ga' xb' A HL. cbn [qopt max_iters] in *.
  pose proof rb_rounds as Q. destruct (profit_rb_assess rP (e_xc qe) _) as [[[o1 ga1] [[g1 [b1]] []]]|] eqn:E1; try discriminate. cbn [sc_beta] in Q.
  destruct (apply_cut single_cut Bias qe _) as [[e1 []]|] eqn:S1; try discriminate. apply andb_true_iff in Q as [Q Q2]. split_and Q.
  destruct (profit_rb_assess o1 (e_xc e1) ga1) as [[[o2 ga2] [[g2 [b2]] []]]|] eqn:E2; try discriminate.
  destruct (apply_cut single_cut Central e1 _) as [[e2 []]|] eqn:S2; try discriminate. split_and Q2.
  repeat match goal with H : Nat.eqb _ _ = true |- _ => apply Nat.eqb_eq in H end. apply gchk_ok in Q, Q2.
  match goal with H : between 1 1 (nth 0 _ _) = true |- _ => apply between_val in H as [_ VA]; [|lia|lia] end. match goal with H : between 0 0 (nth 1 _ _) = true |- _ => apply between_val in H as [_ VB]; [|lia|lia] end.
  match goal with H : between 1 1 b1 = true |- _ => apply between_val in H as [F1 V1]; [|lia|lia] end. match goal with H : between 0 0 ga1 = true |- _ => apply between_val in H as [F2 V2]; [|lia|lia] end. match goal with H : between 1 3 ga2 = true |- _ => apply between_val in H as [F3 V3]; [|lia|lia] end.
  match goal with H : chk e1 = true |- _ => rename H into C1 end. match goal with H : chk4 e2 = true |- _ => rename H into C2 end. destruct (chk_facts _ C1) as [KA KB].
  assert (SL1 : slack 2 16 16 5 (fkap qe) <= / 1000000) by (apply slack_small; rewrite ?qe_kap; lra).
  assert (M1 : moderate_or_zero b1) by (apply beta_ok; [exact F1|lra]). assert (W1 : 2 * B2R b1 <= sqrt (B2R (e_tsq e1 : f64))) by (apply half_width; lra). assert (W2 : 2 * 0 <= sqrt (B2R (e_tsq e2 : f64))) by (rewrite Rmult_0_r; apply sqrt_pos).
  assert (L0 : bpow radix2 (-90) <= bpow radix2 0) by (apply bpow_le; lia). change (bpow radix2 0) with 1 in L0.
  destruct (tame_next qe Bias g1 (mkSingle (N := F) b1) e1 16 qe_tame ltac:(lra) SL1 Q (or_intror M1) S1 W1 C1) as [T1 R1].
  assert (SL2 : slack 2 (16 / 11) 16 5 (fkap e1) <= / 1000000) by (apply slack_small; lra).
  destruct (tame_next4 e1 Central g2 (mkSingle (N := F) b2) e2 (16 / 11) R1 ltac:(lra) SL2 Q2 (or_introl eq_refl) S2 W2 C2) as [T2 R2].
  assert (G1 : grow 2 (depth 2 qe g1 (B2R b1)) <= 4).
  { apply grow_small; [lra|]. right. rewrite qe_kap. unfold quad, mulmv, dot. cbn [Rsum]. rewrite !qe_shape by lia. cbn [Nat.eqb]. assert (X0 : fcoords g1 0%nat = 1) by (unfold fcoords; lra). assert (X1 : fcoords g1 1%nat = 0) by (unfold fcoords; lra). rewrite X0, X1. lra. }
  assert (G2 : grow 2 (depth 2 e1 g2 0) <= 4) by (apply grow_small; [lra|now left]).
  assert (P0 : tame_run 2 (/ 1000000) 4 qe []) by (exists 16, 16, 5; exact qe_tame).
  assert (P1 : tame_run 2 (/ 1000000) 4 qe [(Bias, (g1, mkSingle (N := F) b1))]).
  { split; [exists 16, 16, 5; split; [exact qe_tame|exact SL1]|]. split; [exact Q|]. split; [exact G1|]. split; [right; exact M1|]. exists e1. split; [exact S1|]. split; [exact T1|]. split; [exact W1|]. exists (16 / 11), 16, 5. exact R1. }
  assert (P2 : tame_run 2 (/ 1000000) 4 qe [(Bias, (g1, mkSingle (N := F) b1)); (Central, (g2, mkSingle (N := F) b2))]).
  { split; [exists 16, 16, 5; split; [exact qe_tame|exact SL1]|]. split; [exact Q|]. split; [exact G1|]. split; [right; exact M1|]. exists e1. split; [exact S1|]. split; [exact T1|]. split; [exact W1|].
    split; [exists (16 / 11), 16, 5; split; [exact R1|exact SL2]|]. split; [exact Q2|]. split; [exact G2|]. split; [now left|]. exists e2. split; [exact S2|]. split; [exact T2|]. split; [exact W2|]. exists (16 / 11 / 11), 16, 5. exact R2. }
  assert (B1 : in_square 2 (e_xc e1)) by (apply square_chk2; assumption). assert (Z0 : 0 <= B2R (fofZ 0)) by (rewrite int_val by lia; lra).
  inversion A as [|? ? ? ? oa gaa cut sh ea st rest ? ? ? ? X1 X2 X3 X4]; subst; [split; [exact P0|split; [exact Z0|intros _; exact qe_square2]]|]. clear A.
  rewrite E1 in X1. inversion X1; subst oa gaa cut sh. clear X1. cbn [cut_mode] in *. assert (X5 := eq_trans (eq_sym S1) X2). inversion X5; subst ea st. clear X2 X5.
  inversion X4 as [|? ? ? ? ob gab cut sh eb st rest2 ? ? ? ? Y1 Y2 Y3 Y4]; subst; [split; [exact P1|split; [lra|intros _; exact B1]]|]. clear X4.
  rewrite E2 in Y1. inversion Y1; subst ob gab cut sh. clear Y1. cbn [cut_mode] in *. assert (Y5 := eq_trans (eq_sym S2) Y2). inversion Y5; subst eb st. clear Y2 Y5.
  inversion Y4; subst; [split; [exact P2|split; [lra|cbn [length]; lia]]|]. cbn [length] in HL. lia.
Qed.
(** a construction: price 3 and limit 2, each good to 1, costs 1 good to 1 *)
Lemma rb_new_case : two qq /\ two (ints [1; 1]%Z : Arr F) /\ all_finite (ints [1; 1]%Z : Arr F) /\ is_finite (fofZ 3) = true /\ is_finite (fofZ 2) = true /\ is_finite (fofZ 1) = true /\ 0 <= B2R sixteenth /\
  exp (1 - 8) <= (B2R (fofZ 3) - B2R (fofZ 1)) * B2R (fofZ 1) <= exp (8 - 1) /\ exp (1 - 8) <= B2R (fofZ 3) - B2R (fofZ 1) <= exp (8 - 1) /\ exp (1 - 8) <= B2R (fofZ 2) - B2R (fofZ 1) <= exp (8 - 1) /\
  (forall i, (i < 2)%nat -> exp (1 - 8) <= fcoords (ints [1; 1]%Z : Arr F) i + B2R (fofZ 1) <= exp (8 - 1)).
Proof.
  assert (V3 : B2R (fofZ 3) = 3) by (apply (int_val 3); lia). assert (V2 : B2R (fofZ 2) = 2) by (apply (int_val 2); lia). assert (V1 : B2R (fofZ 1) = 1) by (apply (int_val 1); lia). pose proof (exp_ineq1_le 7). assert (B : exp (1 - 8) <= exp 0) by (apply exp_le; lra). rewrite exp_0 in B. replace (8 - 1) with 7 by ring. rewrite V1, V2, V3.
  split; [split; reflexivity|]. split; [split; reflexivity|]. split; [repeat constructor|]. split; [reflexivity|]. split; [reflexivity|]. split; [reflexivity|]. split; [rewrite (proj2 sixteenth_val); lra|]. repeat (split; [lra|]).
  intros i Hi. assert (Q : fcoords (ints [1; 1]%Z : Arr F) i = 1) by (destruct i as [|[|]]; [exact V1|exact V1|lia]). rewrite Q. lra.
Qed.
