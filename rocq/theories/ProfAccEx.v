(** A concrete market and a run in binary64 (C114). *)
From Coq Require Import ZArith Reals Lra Lia Bool Psatz List Arith.
From Flocq Require Import Core IEEE754.BinarySingleNaN.
From Verif Require Import Num Res Arr ArrLemmas CuttingPlane EllCalc Ell EllRun Spec RealLin FloatLemmas FloatErr FloatRel AccSpec StepAccSpec StepRunSpec StepRun StepEx StepRunEx Profit ProfitSpec ProfAccSpec ProfAcc ProfAccRun FexpAcc LowAccEx Replay RunSpec.
Import ListNotations.
Local Open Scope R_scope.

(** revenue e (x0 x1)^(1/4), both prices 1/4, at most 1 of the first good *)
Definition quarter : f64 := fdiv (fofZ 1) (fofZ 4).
Definition sixteenth : f64 := fdiv (fofZ 1) (fofZ 16).
Definition qq : Arr F := mkArr (N := F) [quarter; quarter] 2 0.
Definition pP : Profit F := mkProfit (N := F) (-1) (fofZ 1) (fofZ 0) qq qq (n0 (N := F)) (n0 (N := F)) (a_new 2).
Lemma frac_val k z : (z = 2 ^ k)%Z -> (0 < k < 50)%Z -> is_finite (fdiv (fofZ 1) (fofZ z)) = true /\ B2R (fdiv (fofZ 1) (fofZ z)) = bpow radix2 (- k).
Proof.
  intros -> Hk. assert (Z1 : (2 ^ k <= 2 ^ 50)%Z) by (apply Z.pow_le_mono_r; lia). assert (Z0 : (0 < 2 ^ k)%Z) by (apply Z.pow_pos_nonneg; lia). change (2 ^ 50)%Z with 1125899906842624%Z in Z1.
  destruct (fofZ_small 1 ltac:(lia)) as [V1 F1]. destruct (fofZ_small (2 ^ k) ltac:(lia)) as [V2 F2]. assert (E : IZR (2 ^ k) = bpow radix2 k) by (rewrite <- IZR_Zpower by lia; reflexivity).
  assert (G : rnd (B2R (fofZ 1) / B2R (fofZ (2 ^ k))) = bpow radix2 (- k)). { rewrite V1, V2, E. unfold Rdiv. rewrite Rmult_1_l, <- bpow_opp. apply rnd_generic. apply bpow_generic. lia. }
  destruct (fdiv_fin (fofZ 1) (fofZ (2 ^ k)) F1) as [A B]; [rewrite V2, E; pose proof (bpow_gt_0 radix2 k); lra|rewrite G, Rabs_pos_eq by apply bpow_ge_0; apply bpow_lt; change femax with 1024%Z; lia|]. rewrite G in A. auto.
Qed.
Lemma quarter_val : is_finite quarter = true /\ B2R quarter = 1 / 4.
Proof. destruct (frac_val 2 4 eq_refl ltac:(lia)) as [A B]. split; [exact A|]. unfold quarter. rewrite B. cbn. lra. Qed.
Lemma sixteenth_val : is_finite sixteenth = true /\ B2R sixteenth = 1 / 16.
Proof. destruct (frac_val 4 16 eq_refl ltac:(lia)) as [A B]. split; [exact A|]. unfold sixteenth. rewrite B. cbn. lra. Qed.
Lemma qq_val i : (i < 2)%nat -> fcoords qq i = 1 / 4.
Proof. intros Hi. destruct i as [|[|]]; [| |lia]; exact (proj2 quarter_val). Qed.
Lemma qq_fin : all_finite qq.
Proof. repeat constructor; exact (proj1 quarter_val). Qed.
Lemma pP_ok : profit_ok pP.
Proof. split; [cbn; lia|]. split; split; reflexivity. Qed.
Lemma exp_2 : 4 <= exp 2.
Proof. replace 2 with (1 + 1) by ring. rewrite exp_plus. pose proof (exp_ineq1_le 1). nra. Qed.
Lemma pP_fits : prof_fits pP 5 5 8.
Proof.
  pose proof exp_2 as E2. pose proof (qq_val 0 ltac:(lia)) as Q0. pose proof (qq_val 1 ltac:(lia)) as Q1. assert (V1 : B2R (fofZ 1) = 1) by (apply (int_val 1); lia). assert (V0 : B2R (fofZ 0) = 0) by (apply (int_val 0); lia). split; cbn [pP p_log_p_scale p_log_k p_elast p_price_out]; try reflexivity; try exact qq_fin; try lra.
  - rewrite V0, Rabs_R0. lra.
  - intros i Hi. rewrite qq_val by exact Hi. apply Rabs_le. lra.
  - rewrite V1, Q0, Q1, !Rabs_pos_eq by lra. lra.
  - intros i Hi. rewrite qq_val by exact Hi. replace (5 + 1 - 8) with (- (2)) by ring. rewrite exp_Ropp. replace (1 / 4) with (/ 4) by field. apply Rinv_le_contravar; lra.
  - rewrite Q0, Q1. replace (8 - 1) with (2 + 5) by ring. rewrite exp_plus. pose proof (exp_pos 5). nra.
Qed.
Lemma lm0_exp : exp_near lm0 5 (/ 1000000). Proof. exact fexp_near. Qed.
Lemma lm0_ln : ln_near lm0 8 (/ 1000000). Proof. exact fln_near. Qed.
Lemma level_small z : (0 <= z <= 3)%Z -> level_fits 5 (fofZ z).
Proof. intros H. destruct (fofZ_small z ltac:(lia)) as [A B]. split; [exact B|]. rewrite A. assert (IZR z <= 3) by (apply IZR_le; lia). pose proof (exp_ineq1_le 5). lra. Qed.
Lemma margin_small : prof_margin (/ 1000000) 5 <= 11 / 100000 /\ prof_drop (/ 1000000) 5 <= 13 / 10000.
Proof.
  unfold prof_margin, prof_drop, prof_eps. assert (U : bpow radix2 (-40) = / 1099511627776) by reflexivity. rewrite U. assert (exp 5 <= 243). { replace 5 with (INR 5) by (cbn; lra). eapply Rle_trans; [apply exp_INR3|]. cbn [pow]. lra. } pose proof (exp_pos 5). split; lra.
Qed.
(** the state after a step, for cuts with a short gradient *)
Definition chk4 (e : Ell F) : bool :=
  between 1 2 (e_kappa e) && between 0 100 (e_tsq e) && Bleb sixteenth (e_tsq e) && Nat.eqb (length (adata (e_mq e))) 4 && Nat.eqb (arows (e_mq e)) 2 && Nat.eqb (acols (e_mq e)) 2 && Nat.eqb (length (adata (e_xc e))) 2 &&
  forallb (between (-16) 16) (adata (e_mq e)) && forallb (between (-5) 5) (adata (e_xc e)).
Lemma tame_next4 (e : Ell F) m (g : Arr F) (b : SingleCut F) (e' : Ell F) lam : tame 2 e lam 16 5 -> bpow radix2 (-90) <= lam -> slack 2 lam 16 5 (fkap e) <= / 1000000 -> grad_ok 2 g ->
  (m = Central \/ moderate_or_zero (sc_beta b)) -> apply_cut single_cut m e (g, b) = Ok (e', Success) -> 2 * foff m b <= sqrt (B2R (e_tsq e' : f64)) ->
  chk4 e' = true -> moderate (e_tsq e') /\ tame 2 e' (lam / 11) 16 5.
Proof.
  intros T HL S G Hb E B K. pose proof small100 as [S1 S2]. unfold chk4 in K. do 8 (apply andb_true_iff in K as [K ?]).
  destruct (between_val 1 2 _ ltac:(lia) ltac:(lia) K) as [K1 K2]. destruct (between_val 0 100 (e_tsq e') ltac:(lia) ltac:(lia) ltac:(assumption)) as [K3 K4].
  match goal with H : Bleb _ _ = true |- _ => rewrite fleb_fin in H by (exact K3 || exact (proj1 sixteenth_val)); apply EllReal.Rle_bool_iff in H; rewrite (proj2 sixteenth_val) in H; rename H into K5 end.
  repeat match goal with H : Nat.eqb _ _ = true |- _ => apply Nat.eqb_eq in H end. assert (SM : bpow radix2 (-100) <= / 1024) by (change (/ 1024) with (bpow radix2 (-10)); apply bpow_le; lia).
  assert (M : moderate (e_tsq e')) by (split; [exact K3|lra]). split; [exact M|].
  assert (S' : slack 2 lam 16 5 (fkap e) <= 1 / 10) by lra.
  destruct (step_both lm0 2 (1 / 10) e m g b e' lam 16 5 ltac:(lra) T S' G Hb E M B) as [(P1 & P2 & P3 & P4 & P5 & _) _].
  destruct (keep_helper _ _ _ _ _ _ E) as [HH1 HH2].
  assert (FM : forall i, B2R (nth i (adata (e_mq e')) (n0 (N := F)) : f64) <= 16 /\ - 16 <= B2R (nth i (adata (e_mq e')) (n0 (N := F)) : f64)).
  { intros i. destruct (Nat.lt_ge_cases i (length (adata (e_mq e')))) as [L|L].
    - pose proof (proj1 (forallb_forall _ _) H0 _ (nth_In _ (n0 (N := F)) L)) as HV. destruct (between_val (-16) 16 _ ltac:(lia) ltac:(lia) HV) as [_ [HV1 HV2]]. split; [exact HV2|exact HV1].
    - rewrite nth_overflow by exact L. change (B2R (n0 (N := F) : f64)) with (B2R (fofZ 0)). rewrite int_val by lia. lra. }
  assert (FX : forall i, B2R (nth i (adata (e_xc e')) (n0 (N := F)) : f64) <= 5 /\ - 5 <= B2R (nth i (adata (e_xc e')) (n0 (N := F)) : f64)).
  { intros i. destruct (Nat.lt_ge_cases i (length (adata (e_xc e')))) as [L|L].
    - pose proof (proj1 (forallb_forall _ _) H _ (nth_In _ (n0 (N := F)) L)) as HV. destruct (between_val (-5) 5 _ ltac:(lia) ltac:(lia) HV) as [_ [HV1 HV2]]. split; [exact HV2|exact HV1].
    - rewrite nth_overflow by exact L. change (B2R (n0 (N := F) : f64)) with (B2R (fofZ 0)). rewrite int_val by lia. lra. }
  split.
  - exact (t_dim _ _ _ _ _ T).
  - auto.
  - auto.
  - rewrite HH1. apply T.
  - rewrite HH2. apply T.
  - auto.
  - split; [exact K1|]. lra.
  - exact P4.
  - split; [|exact P5]. assert (Q : bpow radix2 (-100) = bpow radix2 (-90) * / 1024) by (change (/ 1024) with (bpow radix2 (-10)); rewrite <- bpow_plus; reflexivity). pose proof (bpow_gt_0 radix2 (-90)). lra.
  - split; [lra|]. intros i j _ _. apply Rabs_le. unfold fshape. destruct (FM (i * 2 + j)%nat). lra.
  - split; [lra|]. intros i _. apply Rabs_le. unfold fcoords. destruct (FX i). lra.
Qed.
Lemma square_chk (e : Ell F) : chk e = true -> acols (e_xc e) = 0%nat -> in_square 5 (e_xc e).
Proof.
  intros K C. unfold chk in K. do 7 (apply andb_true_iff in K as [K ?]). apply Nat.eqb_eq in H1.
  assert (V : forall z : f64, In z (adata (e_xc e)) -> is_finite z = true /\ -5 <= B2R z <= 5). { intros z Hz. exact (between_val (-5) 5 z ltac:(lia) ltac:(lia) (proj1 (forallb_forall _ _) H z Hz)). }
  split; [split; assumption|]. split; [apply Forall_forall; intros z Hz; now apply V|]. intros i Hi. unfold fcoords. destruct (V (nth i (adata (e_xc e)) (n0 (N := F)))) as [_ A]; [apply nth_In; lia|]. apply Rabs_le. lra.
Qed.
Lemma qe_square : in_square 5 (e_xc qe).
Proof. split; [split; reflexivity|]. split; [repeat constructor|]. exact (proj2 (t_X _ _ _ _ _ qe_tame)). Qed.
Lemma pt_square : in_square 5 (ints [-1; 1]%Z : Arr F).
Proof. split; [split; reflexivity|]. split; [repeat constructor|]. intros [|[|i]] Hi; [| |lia]; unfold fcoords; cbn [ints a_from adata map nth]; rewrite int_val by lia; apply Rabs_le; lra. Qed.
(** two rounds: a cut for the limit, then an improvement *)
Lemma prof_rounds : match profit_assess pP (e_xc qe) (fofZ 0 : F) with
  | Ok (p1, ga1, ((g1, c1), false)) => match apply_cut (N := F) single_cut Bias qe (g1, c1) with
    | Ok (e1, Success) => gchk g1 && between 1 1 (nth 0 (adata g1) (n0 (N := F))) && between 0 0 (nth 1 (adata g1) (n0 (N := F))) && between 1 1 (sc_beta c1) && between 0 0 ga1 && chk e1 && Nat.eqb (acols (e_xc e1)) 0 &&
      match profit_assess p1 (e_xc e1) ga1 with
      | Ok (p2, ga2, ((g2, c2), true)) => match apply_cut (N := F) single_cut Central e1 (g2, c2) with
        | Ok (e2, Success) => gchk g2 && between 1 3 ga2 && chk4 e2
        | _ => false end
      | _ => false end
    | _ => false end
  | _ => false end = true.
Proof. vm_compute. reflexivity. Qed.
Lemma prof_ends : match cutting_plane_optim profit_assess (ell_space single_cut) (qopt 2) pP qe (fofZ 0 : F) with Ok (_, _, ga, (Some _, k)) => Nat.eqb k 2 && between 1 3 ga | _ => false end = true.
Proof. vm_compute. reflexivity. Qed.
Lemma prof_calls : match profit_assess pP (ints [-1; 1]%Z) (fofZ 3 : F) with Ok (_, _, (_, false)) => true | _ => false end = true /\ match profit_assess pP (ints [-1; 1]%Z) (fofZ 1 : F) with Ok (_, ga, (_, true)) => between 1 2 ga | _ => false end = true.
Proof. split; vm_compute; reflexivity. Qed.
Ltac split_and H := repeat match type of H with (_ && _) = true => let H' := fresh "K" in apply andb_true_iff in H as [H H'] end.
Lemma prof_run_case : exp_near lm0 5 (/ 1000000) /\ ln_near lm0 8 (/ 1000000) /\ profit_ok pP /\ prof_fits pP 5 5 8 /\ level_fits 5 (fofZ 0) /\ (prof_margin (/ 1000000) 5 <= 11 / 100000 /\ prof_drop (/ 1000000) 5 <= 13 / 10000) /\ in_square 5 (e_xc qe) /\
  (forall l o1 e1 (ga1 : F) xb1, asked_opt single_cut (tolerance (qopt 2)) profit_assess pP qe (fofZ 0 : F) None l o1 e1 ga1 xb1 -> (length l <= max_iters (qopt 2))%nat ->
    tame_run 2 (/ 1000000) 4 qe l /\ 0 <= B2R (ga1 : f64) /\ ((length l < max_iters (qopt 2))%nat -> in_square 5 (e_xc e1))) /\
  exists o' e' ga x, cutting_plane_optim profit_assess (ell_space single_cut) (qopt 2) pP qe (fofZ 0 : F) = Ok (o', e', ga, (Some x, 2%nat)) /\ 1 <= B2R (ga : f64) <= 3.
Proof.
  split; [exact lm0_exp|]. split; [exact lm0_ln|]. split; [exact pP_ok|]. split; [exact pP_fits|]. split; [apply (level_small 0); lia|]. split; [exact margin_small|]. split; [exact qe_square|]. split.
  2: { pose proof prof_ends as E. destruct (cutting_plane_optim profit_assess _ (qopt 2) pP qe _) as [[[[o' e'] ga] [[x|] k]]|]; try discriminate. apply andb_true_iff in E as [E E2]. apply Nat.eqb_eq in E. subst k. do 4 eexists. split; [reflexivity|]. exact (proj2 (between_val 1 3 ga ltac:(lia) ltac:(lia) E2)). }
  intros l o' e' ga' xb' A HL. cbn [qopt max_iters] in *.
  pose proof prof_rounds as Q. destruct (profit_assess pP (e_xc qe) _) as [[[o1 ga1] [[g1 [b1]] []]]|] eqn:E1; try discriminate. cbn [sc_beta] in Q.
  destruct (apply_cut single_cut Bias qe _) as [[e1 []]|] eqn:S1; try discriminate. apply andb_true_iff in Q as [Q Q2]. split_and Q.
  destruct (profit_assess o1 (e_xc e1) ga1) as [[[o2 ga2] [[g2 [b2]] []]]|] eqn:E2; try discriminate.
  destruct (apply_cut single_cut Central e1 _) as [[e2 []]|] eqn:S2; try discriminate. split_and Q2.
  repeat match goal with H : Nat.eqb _ _ = true |- _ => apply Nat.eqb_eq in H end. apply gchk_ok in Q, Q2.
  match goal with H : between 1 1 (nth 0 _ _) = true |- _ => apply between_val in H as [_ VA]; [|lia|lia] end. match goal with H : between 0 0 (nth 1 _ _) = true |- _ => apply between_val in H as [_ VB]; [|lia|lia] end.
  match goal with H : between 1 1 b1 = true |- _ => apply between_val in H as [F1 V1]; [|lia|lia] end. match goal with H : between 0 0 ga1 = true |- _ => apply between_val in H as [F2 V2]; [|lia|lia] end. match goal with H : between 1 3 ga2 = true |- _ => apply between_val in H as [F3 V3]; [|lia|lia] end.
  match goal with H : chk e1 = true |- _ => rename H into C1 end. match goal with H : chk4 e2 = true |- _ => rename H into C2 end. destruct (chk_facts _ C1) as [KA KB].
  assert (SL1 : slack 2 16 16 5 (fkap qe) <= / 1000000) by (apply slack_small; rewrite ?qe_kap; lra).
  assert (M1 : moderate_or_zero b1) by (apply beta_ok; [exact F1|lra]). assert (W1 : 2 * B2R b1 <= sqrt (B2R (e_tsq e1 : f64))) by (apply half_width; lra). assert (W2 : 2 * 0 <= sqrt (B2R (e_tsq e2 : f64))) by (rewrite Rmult_0_r; apply sqrt_pos).
  assert (L0 : bpow radix2 (-90) <= bpow radix2 0) by (apply bpow_le; lia). change (bpow radix2 0) with 1 in L0.
  destruct (tame_next qe Bias g1 (mkSingle (N := F) b1) e1 16 qe_tame ltac:(lra) SL1 Q (or_intror M1) S1 W1 C1) as [T1 R1].
  assert (SL2 : slack 2 (16 / 11) 16 5 (fkap e1) <= / 1000000) by (apply slack_small; lra).
  destruct (tame_next4 e1 Central g2 (mkSingle (N := F) b2) e2 (16 / 11) R1 ltac:(lra) SL2 Q2 (or_introl eq_refl) S2 W2 C2) as [T2 R2].
  assert (G1 : grow 2 (depth 2 qe g1 (B2R b1)) <= 4).
  { apply grow_small; [lra|]. right. rewrite qe_kap. unfold quad, mulmv, dot. cbn [Rsum]. rewrite !qe_shape by lia. cbn [Nat.eqb]. assert (X0 : fcoords g1 0%nat = 1) by (unfold fcoords; lra). assert (X1 : fcoords g1 1%nat = 0) by (unfold fcoords; lra). rewrite X0, X1. lra. }
  assert (G2 : grow 2 (depth 2 e1 g2 0) <= 4) by (apply grow_small; [lra|now left]).
  assert (P0 : tame_run 2 (/ 1000000) 4 qe []) by (exists 16, 16, 5; exact qe_tame).
  assert (P1 : tame_run 2 (/ 1000000) 4 qe [(Bias, (g1, mkSingle (N := F) b1))]).
  { split; [exists 16, 16, 5; split; [exact qe_tame|exact SL1]|]. split; [exact Q|]. split; [exact G1|]. split; [right; exact M1|]. exists e1. split; [exact S1|]. split; [exact T1|]. split; [exact W1|]. exists (16 / 11), 16, 5. exact R1. }
  assert (P2 : tame_run 2 (/ 1000000) 4 qe [(Bias, (g1, mkSingle (N := F) b1)); (Central, (g2, mkSingle (N := F) b2))]).
  { split; [exists 16, 16, 5; split; [exact qe_tame|exact SL1]|]. split; [exact Q|]. split; [exact G1|]. split; [right; exact M1|]. exists e1. split; [exact S1|]. split; [exact T1|]. split; [exact W1|].
    split; [exists (16 / 11), 16, 5; split; [exact R1|exact SL2]|]. split; [exact Q2|]. split; [exact G2|]. split; [now left|]. exists e2. split; [exact S2|]. split; [exact T2|]. split; [exact W2|]. exists (16 / 11 / 11), 16, 5. exact R2. }
  assert (B1 : in_square 5 (e_xc e1)) by (apply square_chk; assumption). assert (Z0 : 0 <= B2R (fofZ 0)) by (rewrite int_val by lia; lra).
  inversion A as [|? ? ? ? oa gaa cut sh ea st rest ? ? ? ? X1 X2 X3 X4]; subst; [split; [exact P0|split; [exact Z0|intros _; exact qe_square]]|]. clear A.
  rewrite E1 in X1. inversion X1; subst oa gaa cut sh. clear X1. cbn [cut_mode] in *. assert (X5 := eq_trans (eq_sym S1) X2). inversion X5; subst ea st. clear X2 X5.
  inversion X4 as [|? ? ? ? ob gab cut sh eb st rest2 ? ? ? ? Y1 Y2 Y3 Y4]; subst; [split; [exact P1|split; [lra|intros _; exact B1]]|]. clear X4.
  rewrite E2 in Y1. inversion Y1; subst ob gab cut sh. clear Y1. cbn [cut_mode] in *. assert (Y5 := eq_trans (eq_sym S2) Y2). inversion Y5; subst eb st. clear Y2 Y5.
  inversion Y4; subst; [split; [exact P2|split; [lra|cbn [length]; lia]]|]. cbn [length] in HL. lia.
Qed.
(** a construction *)
Lemma prof_new_case : is_finite (fofZ 2) = true /\ is_finite (fofZ 1) = true /\ exp (1 - 8) <= B2R (fofZ 2) * B2R (fofZ 1) <= exp (8 - 1) /\ exp (- 8) <= B2R (fofZ 1) <= exp 8.
Proof.
  destruct (fofZ_small 2 ltac:(lia)) as [V2 F2]. destruct (fofZ_small 1 ltac:(lia)) as [V1 F1]. rewrite V1, V2. pose proof (exp_ineq1_le 7). pose proof (exp_ineq1_le 8). assert (exp (- 8) <= exp 0 /\ exp (1 - 8) <= exp 0) as [A B] by (split; apply exp_le; lra). rewrite exp_0 in A, B. replace (8 - 1) with 7 by ring. repeat split; auto; lra.
Qed.
