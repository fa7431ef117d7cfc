(** Concrete oracles with pairs of cuts and runs with them in binary64 (C110). *)
From Coq Require Import ZArith Reals Lra Lia Bool Psatz List Arith.
From Flocq Require Import Core IEEE754.BinarySingleNaN.
From Verif Require Import Num Res Arr CuttingPlane EllCalc Ell EllRun Spec RealLin FloatLemmas AccSpec StepAccSpec StepCuts StepRunSpec StepRun ParAccSpec ParCuts ParRunSpec ParRun StepEx StepRunEx Replay RunSpec.
Import ListNotations.
Local Open Scope R_scope.

(** find a point of the square -2 <= x_0 <= 0, -2 <= x_1 <= 0: the answer to a point
    beyond an upper side is the pair of the two sides *)
Definition sides (x : f64) : ParallelCut F := mkParallel (N := F) x (Some (fadd x (fofZ 2))).
Definition square : OracleFeas F (Arr F) (ParallelCut F) unit := mkOracleFeas _ _ _ _
  (fun _ x => Ok (tt, if Bltb (fofZ 0) (at_ 0 x) then Some (ax0, sides (at_ 0 x)) else if Bltb (fofZ 0) (at_ 1 x) then Some (ax1, sides (at_ 1 x)) else None)) (fun o _ => o).
Definition in_square (z : vec) : Prop := -2 <= z 0%nat <= 0 /\ -2 <= z 1%nat <= 0.
(** the offset of the second side is not rounded *)
Definition exact2 (x : f64) : Prop := B2R (fadd x (fofZ 2)) = B2R x + 2.
Definition sq_ok (_ : unit) (x : Arr F) : Prop := (Bltb (fofZ 0) (at_ 0 x) = true -> exact2 (at_ 0 x)) /\ (Bltb (fofZ 0) (at_ 1 x) = true -> exact2 (at_ 1 x)).
(** minimise x_0 over the points with -2 <= x_0: the side is given along with the cut as
    long as the centre has x_0 > 0 *)
Definition slope : OracleOptim F (Arr F) (ParallelCut F) unit := fun _ x ga =>
  if is_finite (at_ 0 x) && is_finite (ga : f64) then let sh := Bltb (at_ 0 x) (ga : f64) in
    Ok (tt, (if sh then at_ 0 x else ga : F), ((ax0, mkParallel (N := F) (fofZ 0) (if Bltb (fofZ 0) (at_ 0 x) then Some (fadd (at_ 0 x) (fofZ 2)) else None)), sh)) else Panic.
Definition right_of (z : vec) (ga : F) : Prop := -2 <= z 0%nat < B2R (ga : f64).
Definition sl_ok (_ : unit) (x : Arr F) (_ : F) : Prop := Bltb (fofZ 0) (at_ 0 x) = true -> exact2 (at_ 0 x).

Lemma square_valid : feas_pairs 2 sq_ok in_square square.
Proof.
  intros o x o' g b [K0 K1] E y [Y0 Y1]. cbn [square of_assess] in E. destruct (Bltb (fofZ 0) (at_ 0 x)); [|destruct (Bltb (fofZ 0) (at_ 1 x))]; inversion E; subst g b; unfold in_slab, poff, sides; cbn [pc_beta0 pc_beta1].
  - rewrite ax_along0. unfold fcoords. fold (at_ 0 x). split; [lra|]. intros b1 Hb. inversion Hb; subst b1. rewrite (K0 eq_refl). lra.
  - rewrite ax_along1. unfold fcoords. fold (at_ 1 x). split; [lra|]. intros b1 Hb. inversion Hb; subst b1. rewrite (K1 eq_refl). lra.
Qed.
Lemma slope_valid : opt_pairs 2 sl_ok right_of slope.
Proof.
  intros o x ga o' ga' g b sh K E. unfold slope in E. destruct (is_finite (at_ 0 x)) eqn:F0; [|discriminate]. destruct (is_finite (ga : f64)) eqn:F1; [|discriminate]. cbn [andb] in E.
  rewrite (fltb_fin (at_ 0 x) ga F0 F1) in E. unfold sl_ok in K. unfold right_of. pose proof (int_val 0 ltac:(lia)) as Z0. destruct (Bltb (fofZ 0) (at_ 0 x)); revert E; case Rlt_bool_spec; intros C E; inversion E; subst; (split; [intros y Hy; lra|]); intros y Hy;
    unfold in_slab, poff, cut_mode; cbn [pc_beta0 pc_beta1]; rewrite ax_along0; unfold fcoords; fold (at_ 0 x); (split; [try (match goal with |- _ + ?t <= 0 => replace t with 0 by (symmetry; exact Z0) end); lra|]); intros b1 Hb; inversion Hb; subst b1; rewrite (K eq_refl); lra.
Qed.

Definition chk3 (e : Ell F) : bool :=
  between 1 3 (e_kappa e) && between 4 100 (e_tsq e) && Nat.eqb (length (adata (e_mq e))) 4 && Nat.eqb (arows (e_mq e)) 2 && Nat.eqb (acols (e_mq e)) 2 && Nat.eqb (length (adata (e_xc e))) 2 &&
  forallb (between (-16) 16) (adata (e_mq e)) && forallb (between (-5) 5) (adata (e_xc e)).
Lemma chk3_facts (e : Ell F) : chk3 e = true -> 1 <= fkap e /\ 4 <= B2R (e_tsq e : f64).
Proof.
  intros K. unfold chk3 in K. do 7 (apply andb_true_iff in K as [K ?]).
  destruct (between_val 1 3 _ ltac:(lia) ltac:(lia) K) as [K1 K2]. destruct (between_val 4 100 (e_tsq e) ltac:(lia) ltac:(lia) ltac:(assumption)) as [K3 K4]. unfold fkap. split; [apply K2|apply K4].
Qed.
Lemma chk3_tame (e e' : Ell F) lam lam' : tame 2 e lam 16 5 -> e_helper e' = e_helper e /\ e_no_defer e' = e_no_defer e -> all_finite (e_mq e') -> all_finite (e_xc e') -> sym 2 (fshape 2 e') -> bpow radix2 (-100) <= lam' -> (forall z, lam' * dot 2 z z <= quad 2 (fshape 2 e') z) ->
  chk3 e' = true -> moderate (e_tsq e') /\ tame 2 e' lam' 16 5.
Proof.
  intros T [HH1 HH2] P1 P2 P4 HL P5 K. pose proof small100 as [S1 S2]. unfold chk3 in K. do 7 (apply andb_true_iff in K as [K ?]).
  destruct (between_val 1 3 _ ltac:(lia) ltac:(lia) K) as [K1 K2]. destruct (between_val 4 100 (e_tsq e') ltac:(lia) ltac:(lia) ltac:(assumption)) as [K3 K4].
  repeat match goal with H : Nat.eqb _ _ = true |- _ => apply Nat.eqb_eq in H end.
  assert (M : moderate (e_tsq e')) by (split; [exact K3|lra]). split; [exact M|].
  assert (FM : forall i, B2R (nth i (adata (e_mq e')) (n0 (N := F)) : f64) <= 16 /\ - 16 <= B2R (nth i (adata (e_mq e')) (n0 (N := F)) : f64)).
  { intros i. destruct (Nat.lt_ge_cases i (length (adata (e_mq e')))) as [L|L].
    - pose proof (proj1 (forallb_forall _ _) H0 _ (nth_In _ (n0 (N := F)) L)) as HV. destruct (between_val (-16) 16 _ ltac:(lia) ltac:(lia) HV) as [_ [HV1 HV2]]. split; [exact HV2|exact HV1].
    - rewrite nth_overflow by exact L. change (B2R (n0 (N := F) : f64)) with (B2R (fofZ 0)). rewrite int_val by lia. lra. }
  assert (FX : forall i, B2R (nth i (adata (e_xc e')) (n0 (N := F)) : f64) <= 5 /\ - 5 <= B2R (nth i (adata (e_xc e')) (n0 (N := F)) : f64)).
  { intros i. destruct (Nat.lt_ge_cases i (length (adata (e_xc e')))) as [L|L].
    - pose proof (proj1 (forallb_forall _ _) H _ (nth_In _ (n0 (N := F)) L)) as HV. destruct (between_val (-5) 5 _ ltac:(lia) ltac:(lia) HV) as [_ [HV1 HV2]]. split; [exact HV2|exact HV1].
    - rewrite nth_overflow by exact L. change (B2R (n0 (N := F) : f64)) with (B2R (fofZ 0)). rewrite int_val by lia. lra. }
  split.
  - exact (t_dim _ _ _ _ _ T).
  - auto.
  - auto.
  - rewrite HH1. apply T.
  - rewrite HH2. apply T.
  - auto.
  - split; [exact K1|]. lra.
  - exact P4.
  - split; [exact HL|exact P5].
  - split; [lra|]. intros i j _ _. apply Rabs_le. unfold fshape. destruct (FM (i * 2 + j)%nat). lra.
  - split; [lra|]. intros i _. apply Rabs_le. unfold fcoords. destruct (FX i). lra.
Qed.
Lemma moderate_chk (e : Ell F) : chk3 e = true -> moderate (e_tsq e).
Proof.
  intros K. pose proof small100 as [S1 S2]. unfold chk3 in K. do 7 (apply andb_true_iff in K as [K ?]). destruct (between_val 4 100 (e_tsq e) ltac:(lia) ltac:(lia) ltac:(assumption)) as [K3 K4]. split; [exact K3|lra].
Qed.
Lemma slack_tiny lam kap : / 4 <= lam -> 1 <= kap -> slack 2 lam 16 5 kap <= / 100000.
Proof.
  intros HL HK. unfold slack. cbn [INR]. assert (I : 0 < / lam <= 4). { split; [apply Rinv_0_lt_compat; lra|]. replace 4 with (/ / 4) by (field; lra). apply Rinv_le_contravar; lra. }
  assert (P : / 4 <= lam * kap) by nra. assert (J : 0 < / (lam * kap) <= 4). { split; [apply Rinv_0_lt_compat; lra|]. replace 4 with (/ / 4) by (field; lra). apply Rinv_le_contravar; lra. }
  assert (S : sqrt ((1 + 1) / (lam * kap)) <= 3). { rewrite <- (sqrt_square 3) by lra. apply sqrt_le_1; unfold Rdiv; lra. }
  pose proof (sqrt_pos ((1 + 1) / (lam * kap))). set (s := sqrt ((1 + 1) / (lam * kap))) in *.
  assert (U : bpow radix2 (-53) <= bpow radix2 (-50)) by (apply bpow_le; lia). assert (E : bpow radix2 (-50) = / 1125899906842624) by reflexivity. rewrite E in U. pose proof (bpow_gt_0 radix2 (-53)).
  unfold Rdiv. apply Rle_trans with (/ 1125899906842624 * (3200 * ((1 + 1) * (1 + 1)) * (16 * / lam) + 20 * (5 * s))); [apply Rmult_le_compat_r; [|exact U]|]; lra.
Qed.

(** what the runs do *)
Lemma s_run : match apply_cut (N := F) parallel_cut Bias qe (ax0, sides (at_ 0 (e_xc qe))) with
  | Ok (e1, Success) => chk3 e1 && between 16 16 (e_tsq e1) && negb (Bltb (fofZ 0) (at_ 0 (e_xc e1))) && between 1 1 (at_ 1 (e_xc e1)) &&
      match apply_cut (N := F) parallel_cut Bias e1 (ax1, sides (at_ 1 (e_xc e1))) with
      | Ok (e2, Success) => chk3 e2 && between 16 32 (e_tsq e2) && negb (Bltb (fofZ 0) (at_ 0 (e_xc e2))) && negb (Bltb (fofZ 0) (at_ 1 (e_xc e2))) && negb (Bleb (e_tsq e2) (fmul (fadd (at_ 1 (e_xc e1)) (fofZ 2)) (fadd (at_ 1 (e_xc e1)) (fofZ 2))))
      | _ => false end
  | _ => false end = true.
Proof. vm_compute. reflexivity. Qed.
Lemma sl_run : match apply_cut (N := F) parallel_cut Central qe (ax0, mkParallel (N := F) (fofZ 0) (Some (fadd (at_ 0 (e_xc qe)) (fofZ 2)))) with
  | Ok (e1, Success) => chk3 e1 && between 16 16 (e_tsq e1) && negb (Bltb (fofZ 0) (at_ 0 (e_xc e1))) && is_finite (at_ 0 (e_xc e1)) && Bltb (at_ 0 (e_xc e1)) (at_ 0 (e_xc qe)) &&
      match apply_cut (N := F) parallel_cut Central e1 (ax0, mkParallel (N := F) (fofZ 0) None) with
      | Ok (e2, Success) => chk3 e2
      | _ => false end
  | _ => false end = true.
Proof. vm_compute. reflexivity. Qed.
Lemma s_ends : match cutting_plane_feas square (ell_space parallel_cut) (qopt 9) tt qe with Ok (_, _, (Some _, k)) => Nat.eqb k 2 | _ => false end = true.
Proof. vm_compute. reflexivity. Qed.
Lemma sl_ends : match cutting_plane_optim slope (ell_space parallel_cut) (qopt 2) tt qe (fofZ 7) with Ok (_, _, ga, (Some _, k)) => Nat.eqb k 2 && Bltb ga (fofZ 0) | _ => false end = true.
Proof. vm_compute. reflexivity. Qed.
Lemma one_two (x : f64) : between 1 1 x = true -> exact2 x /\ is_finite (fadd x (fofZ 2)) = true /\ B2R (fadd x (fofZ 2)) = 3 /\ moderate_or_zero x /\ moderate (fadd x (fofZ 2)) /\ B2R x = 1.
Proof.
  intros H. pose proof small100 as [A B]. destruct (between_val 1 1 x ltac:(lia) ltac:(lia) H) as [X1 X2]. assert (X3 : B2R x = 1) by lra. destruct (fofZ_small 2 ltac:(lia)) as [E2 G2].
  assert (Q : rnd (B2R x + B2R (fofZ 2)) = 3). { rewrite X3, E2. replace (1 + IZR 2) with (IZR 3) by (rewrite <- plus_IZR; reflexivity). apply KappaSign.rnd_int. lia. }
  destruct (fadd_fin x (fofZ 2) X1 G2) as [V1 V2]. { rewrite Q. rewrite Rabs_pos_eq by lra. apply Rle_lt_trans with (bpow radix2 100); [lra|apply bpow_lt; reflexivity]. }
  rewrite Q in V1. split; [unfold exact2; etransitivity; [exact V1|]; rewrite X3; lra|]. split; [exact V2|]. split; [exact V1|]. split; [split; [exact X1|right; lra]|]. split; [|exact X3]. split; [exact V2|]. assert (V3 : B2R (fadd x (fofZ 2)) = 3) by exact V1. rewrite V3. lra.
Qed.
Definition k1 : mode * (Arr F * ParallelCut F) := (Bias, (ax0, sides (at_ 0 (e_xc qe)))).
Definition k2 (e1 : Ell F) : mode * (Arr F * ParallelCut F) := (Bias, (ax1, sides (at_ 1 (e_xc e1)))).
Lemma qe_one : between 1 1 (at_ 0 (e_xc qe)) = true.
Proof. vm_compute. reflexivity. Qed.
Lemma pos_one (x : f64) : is_finite x = true -> B2R x = 1 -> Bltb (fofZ 0) x = true.
Proof. intros F1 E. destruct (fofZ_small 0 ltac:(lia)) as [E0 G0]. rewrite fltb_fin by auto. rewrite E0, E. apply Rlt_bool_true. lra. Qed.
(** not below nine *)
Lemma above_nine (t b : f64) : is_finite t = true -> is_finite b = true -> B2R b = 3 -> 16 <= B2R t -> Bleb t (fmul b b) = false.
Proof.
  intros F1 F2 V L. pose proof small100 as [A B]. assert (Q : rnd (B2R b * B2R b) = 9). { rewrite V. replace (3 * 3) with (IZR 9) by lra. apply KappaSign.rnd_int. lia. }
  destruct (fmul_fin b b F2 F2) as [V1 V2]. { rewrite Q. rewrite Rabs_pos_eq by lra. apply Rle_lt_trans with (bpow radix2 100); [lra|apply bpow_lt; reflexivity]. }
  rewrite fleb_fin by auto. rewrite V1, Q. apply Rle_bool_false. lra.
Qed.
Lemma tame_slab (e : Ell F) m (g : Arr F) (b0 b1 : f64) (e' : Ell F) lam r : tame 2 e lam 16 5 -> grad_ok 2 g -> pair_slack 2 lam 16 5 (fkap e) r <= 1 / 1000 -> moderate_or_zero b0 -> moderate b1 -> (m = Bias \/ m = Central) ->
  apply_cut parallel_cut m e (g, mkParallel (N := F) b0 (Some b1)) = Ok (e', Success) -> poff m (mkParallel (N := F) b0 (Some b1)) < B2R b1 -> 2 * poff m (mkParallel (N := F) b0 (Some b1)) <= sqrt (B2R (e_tsq e' : f64)) ->
  thick (B2R (e_tsq e' : f64)) (poff m (mkParallel (N := F) b0 (Some b1))) (B2R b1) r -> Bleb (e_tsq e') (fmul b1 b1) = false -> bpow radix2 (-100) <= lam / (11 * r) -> chk3 e' = true ->
  moderate (e_tsq e') /\ tame 2 e' (lam / (11 * r)) 16 5 /\ slab_step 2 (1 / 1000) 4 e m (mkParallel (N := F) b0 (Some b1)) e'.
Proof.
  intros T G S M0 M1 Hm E H01 Hq Ht Hin HL K. pose proof (moderate_chk e' K) as Mt.
  assert (P : pair_sound 2 e g (poff m (mkParallel (N := F) b0 (Some b1))) (B2R b1) lam 16 5 r e').
  { destruct Hm as [->| ->]; unfold poff in *; cbn [pc_beta0] in *.
    - destruct (par_bias lm0 2 e g b0 b1 lam 16 5 r e' Success T G ltac:(lra) M0 M1 E Mt H01 Hq Ht Hin) as (_ & Q & _). exact Q.
    - destruct (par_central lm0 2 e g b0 b1 lam 16 5 r e' Success T G ltac:(lra) M1 E Mt Ht Hin) as (_ & Q & _). exact Q. }
  destruct P as (P1 & P2 & _ & P4 & P5 & _). destruct (chk3_tame e e' lam (lam / (11 * r)) T (keep_helper _ _ _ _ _ _ E) P1 P2 P4 HL P5 K) as [Q1 Q2]. split; [exact Q1|]. split; [exact Q2|].
  exists b1, lam, 16, 5, r. split; [reflexivity|]. split; [exact M1|]. split; [exact H01|]. split; [exact Hin|]. split; [exact Ht|]. split; [exact T|]. split; [exact S|]. lra.
Qed.
Lemma s_facts : exists e1 e2, apply_cut parallel_cut Bias qe (snd k1) = Ok (e1, Success) /\ apply_cut parallel_cut Bias e1 (snd (k2 e1)) = Ok (e2, Success) /\
  Bltb (fofZ 0) (at_ 0 (e_xc e1)) = false /\ Bltb (fofZ 0) (at_ 1 (e_xc e1)) = true /\ Bltb (fofZ 0) (at_ 0 (e_xc e2)) = false /\ Bltb (fofZ 0) (at_ 1 (e_xc e2)) = false /\
  exact2 (at_ 0 (e_xc qe)) /\ exact2 (at_ 1 (e_xc qe)) /\ exact2 (at_ 1 (e_xc e1)) /\
  pair_run 2 (1 / 1000) 4 qe [] /\ pair_run 2 (1 / 1000) 4 qe [k1] /\ pair_run 2 (1 / 1000) 4 qe [k1; k2 e1].
Proof.
  pose proof s_run as Q. cbn [snd k1 k2]. destruct (apply_cut (N := F) parallel_cut Bias qe _) as [[e1 []]|] eqn:E1; try discriminate.
  destruct (apply_cut (N := F) parallel_cut Bias e1 _) as [[e2 []]|] eqn:E2; try (rewrite andb_false_r in Q; discriminate).
  apply andb_true_iff in Q as [Q H]. apply andb_true_iff in Q as [Q A1]. apply andb_true_iff in Q as [Q A2]. apply andb_true_iff in Q as [Q A3].
  apply andb_true_iff in H as [H B0]. apply andb_true_iff in H as [H B1]. apply andb_true_iff in H as [H B2]. apply andb_true_iff in H as [H B3].
  apply negb_true_iff in A2, B0, B1, B2.
  destruct (one_two _ qe_one) as (U1 & U2 & U3 & U4 & U5 & U6).
  assert (O1 : between 1 1 (at_ 1 (e_xc qe)) = true) by (vm_compute; reflexivity). destruct (one_two _ O1) as (V1 & _).
  destruct (one_two _ A1) as (W1 & W2 & W3 & W4 & W5 & W6).
  exists e1, e2. split; [reflexivity|]. split; [exact E2|]. split; [exact A2|]. split; [apply pos_one; [apply W4|exact W6]|]. split; [exact B2|]. split; [exact B1|]. split; [exact U1|]. split; [exact V1|]. split; [exact W1|].
  destruct (between_val 16 16 (e_tsq e1) ltac:(lia) ltac:(lia) A3) as [T1 T2]. destruct (between_val 16 32 (e_tsq e2) ltac:(lia) ltac:(lia) B3) as [T3 T4].
  destruct (chk3_facts _ Q) as [K1 K2]. destruct (chk3_facts _ H) as [K3 K4].
  assert (L0 : bpow radix2 (-100) <= bpow radix2 (-20)) by (apply bpow_le; lia). change (bpow radix2 (-20)) with (/ 1048576) in L0.
  assert (S1 : pair_slack 2 16 16 5 (fkap qe) 4 <= 1 / 1000). { unfold pair_slack. assert (slack 2 16 16 5 (fkap qe) <= / 1000000) by (apply slack_small; rewrite ?qe_kap; lra). lra. }
  assert (Z1 : thick (B2R (e_tsq e1 : f64)) (B2R (at_ 0 (e_xc qe))) (B2R (fadd (at_ 0 (e_xc qe)) (fofZ 2))) 4) by (rewrite U3, U6; split; lra).
  assert (P1 : 2 * B2R (at_ 0 (e_xc qe)) <= sqrt (B2R (e_tsq e1 : f64))) by (apply half_width; lra).
  destruct (tame_slab qe Bias ax0 (at_ 0 (e_xc qe)) (fadd (at_ 0 (e_xc qe)) (fofZ 2)) e1 16 4 qe_tame ax0_ok S1 U4 U5 (or_introl eq_refl) E1) as (M1 & R1 & D1); [unfold poff; cbn [pc_beta0]; rewrite U3, U6; lra|exact P1|exact Z1|apply above_nine; auto; lra|lra|exact Q|].
  assert (S2 : pair_slack 2 (16 / (11 * 4)) 16 5 (fkap e1) 8 <= 1 / 1000). { unfold pair_slack. assert (slack 2 (16 / (11 * 4)) 16 5 (fkap e1) <= / 100000) by (apply slack_tiny; lra). lra. }
  assert (Z2 : thick (B2R (e_tsq e2 : f64)) (B2R (at_ 1 (e_xc e1))) (B2R (fadd (at_ 1 (e_xc e1)) (fofZ 2))) 8) by (rewrite W3, W6; split; lra).
  assert (P2 : 2 * B2R (at_ 1 (e_xc e1)) <= sqrt (B2R (e_tsq e2 : f64))) by (apply half_width; lra).
  destruct (tame_slab e1 Bias ax1 (at_ 1 (e_xc e1)) (fadd (at_ 1 (e_xc e1)) (fofZ 2)) e2 (16 / (11 * 4)) 8 R1 ax1_ok S2 W4 W5 (or_introl eq_refl) E2) as (M2 & R2 & D2); [unfold poff; cbn [pc_beta0]; rewrite W3, W6; lra|exact P2|exact Z2|exact B0|lra|exact H|].
  split; [exists 16, 16, 5; exact qe_tame|]. split.
  - split; [exact ax0_ok|]. split; [right; exact U4|]. exists e1. split; [exact E1|]. split; [exact M1|]. split; [exact P1|]. split; [left; exact D1|]. do 3 eexists. exact R1.
  - split; [exact ax0_ok|]. split; [right; exact U4|]. exists e1. split; [exact E1|]. split; [exact M1|]. split; [exact P1|]. split; [left; exact D1|].
    split; [exact ax1_ok|]. split; [right; exact W4|]. exists e2. split; [exact E2|]. split; [exact M2|]. split; [exact P2|]. split; [left; exact D2|]. do 3 eexists. exact R2.
Qed.
Lemma zc_square x : ball 2 zc 1 x -> in_square x /\ fpts 2 qe 1 x.
Proof.
  intros H. destruct (zc_ball x H) as [_ P]. split; [|exact P]. revert H. unfold ball, dot. cbn [Rsum]. unfold zc. intros H. pose proof (Rle_0_sqr (x 0%nat - -1)) as Q0. pose proof (Rle_0_sqr (x 1%nat - -1)) as Q1. unfold Rsqr in Q0, Q1.
  unfold in_square. repeat split; apply Rnot_lt_le; intros C; nra.
Qed.
Lemma feas_pairs_case : feas_pairs 2 sq_ok in_square square /\
  (forall l o1 e1, asked parallel_cut (tolerance (qopt 9)) square tt qe l o1 e1 -> (length l <= max_iters (qopt 9))%nat -> pair_run 2 (1 / 1000) 4 qe l /\ ((length l < max_iters (qopt 9))%nat -> sq_ok o1 (e_xc e1))) /\
  (exists o' e' x, cutting_plane_feas square (ell_space parallel_cut) (qopt 9) tt qe = Ok (o', e', (Some x, 2%nat))) /\
  (forall x, ball 2 zc 1 x -> in_square x /\ fpts 2 qe 1 x).
Proof.
  split; [exact square_valid|]. split.
  - destruct s_facts as (e1 & e2 & A1 & A2 & B1 & B2 & B3 & B4 & X1 & X2 & X3 & R0 & R1 & R2). intros l o1 e' A _.
    inversion A as [|? ? oa cut ea st rest ? ? P1 P2 P3 P4]; subst; [split; [exact R0|intros _; split; intros _; assumption]|].
    assert (C1 : cut = snd k1) by (cbn [square of_assess] in P1; change (Bltb (fofZ 0) (at_ 0 (e_xc qe))) with true in P1; inversion P1; reflexivity). subst cut.
    rewrite A1 in P2. inversion P2; subst ea st. clear P1 P2.
    inversion P4 as [|? ? ob cut eb st rest2 ? ? Q1 Q2 Q3 Q4]; subst; [split; [exact R1|intros _; split; [rewrite B1; discriminate|intros _; assumption]]|].
    assert (C2 : cut = snd (k2 e1)) by (cbn [square of_assess] in Q1; rewrite B1, B2 in Q1; inversion Q1; reflexivity). subst cut.
    rewrite A2 in Q2. inversion Q2; subst eb st. clear Q1 Q2.
    inversion Q4 as [|? ? oc cut ec st rest3 ? ? S1 S2 S3 S4]; subst; [split; [exact R2|intros _; split; [rewrite B3|rewrite B4]; discriminate]|]. cbn [square of_assess] in S1. rewrite B3, B4 in S1. discriminate.
  - split; [|exact zc_square]. pose proof s_ends as E. destruct (cutting_plane_feas square _ (qopt 9) tt qe) as [[[o' e'] [[x|] k]]|]; try discriminate. apply Nat.eqb_eq in E. subst k. eauto.
Qed.
Lemma pairs_case : exists cuts e' log, length cuts = 2%nat /\ run_cuts parallel_cut qe cuts = Ok (e', log) /\ pair_run 2 (1 / 1000) 4 qe cuts /\
  forall x, ball 2 zc 1 x -> fpts 2 qe 1 x /\ in_slabs 2 x qe cuts.
Proof.
  destruct s_facts as (e1 & e2 & A1 & A2 & B1 & B2 & B3 & B4 & X1 & X2 & X3 & R0 & R1 & R2). exists [k1; k2 e1], e2. cbn [run_cuts k1 k2].
  change (ax0, sides (at_ 0 (e_xc qe))) with (snd k1). change (ax1, sides (at_ 1 (e_xc e1))) with (snd (k2 e1)). rewrite A1. cbn [bind fst snd]. change (ax1, sides (at_ 1 (e_xc e1))) with (snd (k2 e1)). rewrite A2. cbn [bind fst snd].
  eexists. split; [reflexivity|]. split; [reflexivity|]. split; [exact R2|]. intros x Hx. destruct (zc_square x Hx) as [[X4 X5] Hp]. split; [exact Hp|].
  split.
  { unfold in_slab, poff, sides. cbn [pc_beta0 pc_beta1]. rewrite ax_along0. unfold fcoords. fold (at_ 0 (e_xc qe)). split; [lra|]. intros b Hb. inversion Hb; subst b. rewrite X1. lra. }
  intros e' st E. change (apply_cut (N := F) parallel_cut Bias qe (snd k1) = Ok (e', st)) in E. rewrite A1 in E. inversion E; subst e' st.
  split; [|intros; exact I]. unfold in_slab, poff, sides. cbn [pc_beta0 pc_beta1]. rewrite ax_along1. unfold fcoords. fold (at_ 1 (e_xc e1)). split; [lra|]. intros b Hb. inversion Hb; subst b. rewrite X3. lra.
Qed.
(** *** the optimisation driver *)
Definition h1 : mode * (Arr F * ParallelCut F) := (Central, (ax0, mkParallel (N := F) (fofZ 0) (Some (fadd (at_ 0 (e_xc qe)) (fofZ 2))))).
Definition h2 : mode * (Arr F * ParallelCut F) := (Central, (ax0, mkParallel (N := F) (fofZ 0) None)).
Lemma sl_facts : exists e1 e2, apply_cut parallel_cut Central qe (snd h1) = Ok (e1, Success) /\ apply_cut parallel_cut Central e1 (snd h2) = Ok (e2, Success) /\
  Bltb (fofZ 0) (at_ 0 (e_xc e1)) = false /\ is_finite (at_ 0 (e_xc e1)) = true /\ Bltb (at_ 0 (e_xc e1)) (at_ 0 (e_xc qe)) = true /\ exact2 (at_ 0 (e_xc qe)) /\
  pair_run 2 (1 / 1000) 4 qe [] /\ pair_run 2 (1 / 1000) 4 qe [h1] /\ pair_run 2 (1 / 1000) 4 qe [h1; h2].
Proof.
  pose proof sl_run as Q. cbn [snd h1 h2]. destruct (apply_cut (N := F) parallel_cut Central qe _) as [[e1 []]|] eqn:E1; try discriminate.
  destruct (apply_cut (N := F) parallel_cut Central e1 _) as [[e2 []]|] eqn:E2; try (rewrite andb_false_r in Q; discriminate).
  apply andb_true_iff in Q as [Q H]. apply andb_true_iff in Q as [Q A0]. apply andb_true_iff in Q as [Q A1]. apply andb_true_iff in Q as [Q A2]. apply andb_true_iff in Q as [Q A3].
  apply negb_true_iff in A2. destruct (one_two _ qe_one) as (U1 & U2 & U3 & U4 & U5 & U6).
  exists e1, e2. split; [reflexivity|]. split; [exact E2|]. split; [exact A2|]. split; [exact A1|]. split; [exact A0|]. split; [exact U1|].
  destruct (between_val 16 16 (e_tsq e1) ltac:(lia) ltac:(lia) A3) as [T1 T2].
  destruct (chk3_facts _ Q) as [K1 K2]. destruct (chk3_facts _ H) as [K3 K4].
  assert (L0 : bpow radix2 (-100) <= bpow radix2 (-20)) by (apply bpow_le; lia). change (bpow radix2 (-20)) with (/ 1048576) in L0.
  assert (S1 : pair_slack 2 16 16 5 (fkap qe) 2 <= 1 / 1000). { unfold pair_slack. assert (slack 2 16 16 5 (fkap qe) <= / 1000000) by (apply slack_small; rewrite ?qe_kap; lra). lra. }
  assert (Z1 : thick (B2R (e_tsq e1 : f64)) 0 (B2R (fadd (at_ 0 (e_xc qe)) (fofZ 2))) 2) by (rewrite U3; split; lra).
  assert (P1 : 2 * 0 <= sqrt (B2R (e_tsq e1 : f64))) by (apply half_width; lra). assert (P2 : 2 * 0 <= sqrt (B2R (e_tsq e2 : f64))) by (apply half_width; lra).
  assert (MZ : moderate_or_zero (fofZ 0)) by (split; [reflexivity|left; apply int_val; lia]).
  destruct (tame_slab qe Central ax0 (fofZ 0) (fadd (at_ 0 (e_xc qe)) (fofZ 2)) e1 16 2 qe_tame ax0_ok S1 MZ U5 (or_intror eq_refl) E1) as (M1 & R1 & D1); [unfold poff; rewrite U3; lra|exact P1|exact Z1|apply above_nine; auto; lra|lra|exact Q|].
  assert (S2 : slack 2 (16 / (11 * 2)) 16 5 (fkap e1) <= / 100000) by (apply slack_tiny; lra). pose proof (moderate_chk _ H) as M2.
  destruct (single_central lm0 2 e1 ax0 (fofZ 0) None (16 / (11 * 2)) 16 5 e2 Success R1 ax0_ok ltac:(lra) E2 M2 ltac:(discriminate)) as (_ & (J1 & J2 & J3 & J4 & J5 & _) & _).
  destruct (chk3_tame e1 e2 _ (16 / (11 * 2) / 11) R1 (keep_helper _ _ _ _ _ _ E2) J1 J2 J4 ltac:(lra) J5 H) as [_ R2].
  assert (D2 : half_step 2 (1 / 1000) 4 e1 Central ax0 (mkParallel (N := F) (fofZ 0) None) e2).
  { do 3 eexists. split; [exact R1|]. split; [lra|]. split; [apply grow_small; [unfold poff; lra|now left]|]. intros b1 Hb. discriminate. }
  split; [exists 16, 16, 5; exact qe_tame|]. split.
  - split; [exact ax0_ok|]. split; [now left|]. exists e1. split; [exact E1|]. split; [exact M1|]. split; [exact P1|]. split; [left; exact D1|]. do 3 eexists. exact R1.
  - split; [exact ax0_ok|]. split; [now left|]. exists e1. split; [exact E1|]. split; [exact M1|]. split; [exact P1|]. split; [left; exact D1|].
    split; [exact ax0_ok|]. split; [now left|]. exists e2. split; [exact E2|]. split; [exact M2|]. split; [exact P2|]. split; [right; exact D2|]. do 3 eexists. exact R2.
Qed.
Lemma optim_pairs_case : opt_pairs 2 sl_ok right_of slope /\
  (forall l o1 e1 ga1 xb1, asked_opt parallel_cut (tolerance (qopt 2)) slope tt qe (fofZ 7 : F) None l o1 e1 ga1 xb1 -> (length l <= max_iters (qopt 2))%nat -> pair_run 2 (1 / 1000) 4 qe l /\ ((length l < max_iters (qopt 2))%nat -> sl_ok o1 (e_xc e1) ga1)) /\
  exists o' e' ga x, cutting_plane_optim slope (ell_space parallel_cut) (qopt 2) tt qe (fofZ 7 : F) = Ok (o', e', ga, (Some x, 2%nat)).
Proof.
  split; [exact slope_valid|]. split.
  - destruct sl_facts as (e1 & e2 & A1 & A2 & B1 & B2 & B3 & X1 & R0 & R1 & R2). intros l o1 e' ga1 xb1 A HL. cbn [qopt max_iters] in *.
    inversion A as [|? ? ? ? oa gaa cut sh ea st rest ? ? ? ? P1 P2 P3 P4]; subst; [split; [exact R0|intros _ _; exact X1]|].
    unfold slope in P1. change (is_finite (at_ 0 (e_xc qe)) && is_finite (fofZ 7)) with true in P1. change (Bltb (at_ 0 (e_xc qe)) (fofZ 7)) with true in P1. change (Bltb (fofZ 0) (at_ 0 (e_xc qe))) with true in P1. cbv iota zeta in P1.
    assert (C1 : sh = true /\ cut = snd h1 /\ gaa = at_ 0 (e_xc qe)) by (inversion P1; auto). destruct C1 as (-> & -> & ->). clear P1. cbn [cut_mode] in *.
    rewrite A1 in P2. inversion P2; subst ea st. clear P2.
    inversion P4 as [|? ? ? ? ob gab cut sh eb st rest2 ? ? ? ? Q1 Q2 Q3 Q4]; subst; [split; [exact R1|intros _; unfold sl_ok; rewrite B1; discriminate]|].
    unfold slope in Q1. rewrite B1, B2, B3 in Q1. change (is_finite (at_ 0 (e_xc qe))) with true in Q1. cbv iota zeta beta delta [andb] in Q1.
    assert (C2 : sh = true /\ cut = snd h2) by (inversion Q1; auto). destruct C2 as (-> & ->). clear Q1. cbn [cut_mode] in *.
    inversion Q4; subst; [split; [exact R2|cbn [length]; lia]|]. cbn [length] in HL. lia.
  - pose proof sl_ends as E. destruct (cutting_plane_optim slope _ (qopt 2) tt qe _) as [[[[o' e'] ga] [[x|] k]]|]; try discriminate. apply andb_true_iff in E as [E _]. apply Nat.eqb_eq in E. subst k. do 4 eexists. reflexivity.
Qed.
