(** Concrete oracles and runs for the theorems on sequences of cuts in binary64. *)
From Coq Require Import ZArith Reals Lra Lia Bool Psatz List Arith.
From Flocq Require Import Core IEEE754.BinarySingleNaN.
From Verif Require Import Num Res Arr CuttingPlane EllCalc Ell EllRun Spec RealLin FloatLemmas AccSpec StepAccSpec StepCuts StepRunSpec StepRun StepEx Replay RunSpec.
Import ListNotations.
Local Open Scope R_scope.

(** the disc of radius 4 around (1,1), and the quadrant x_0 <= 0, x_1 <= 0 *)
Definition qe : Ell F := ell_from_covariance (N := F) (mkArr (N := F) (map fofZ [16; 0; 0; 16]%Z) 2 2) (ints [1; 1]%Z).
Definition at_ (i : nat) (x : Arr F) : f64 := nth i (adata x) (n0 (N := F)).
Definition ax0 : Arr F := ints [1; 0]%Z.
Definition ax1 : Arr F := ints [0; 1]%Z.
Definition quadrant : OracleFeas F (Arr F) (SingleCut F) unit := mkOracleFeas _ _ _ _
  (fun _ x => Ok (tt, if Bltb (fofZ 0) (at_ 0 x) then Some (ax0, mkSingle (N := F) (at_ 0 x))
     else if Bltb (fofZ 0) (at_ 1 x) then Some (ax1, mkSingle (N := F) (at_ 1 x)) else None)) (fun o _ => o).
Definition in_quadrant (z : vec) : Prop := z 0%nat <= 0 /\ z 1%nat <= 0.
(** minimise x_0 (without constraints): the level is the smallest value seen *)
Definition downhill : OracleOptim F (Arr F) (SingleCut F) unit := fun _ x ga =>
  if is_finite (at_ 0 x) && is_finite (ga : f64) then let sh := Bltb (at_ 0 x) (ga : f64) in Ok (tt, (if sh then at_ 0 x else ga : F), ((ax0, mkSingle (N := F) (fofZ 0)), sh)) else Panic.
Definition lower (z : vec) (ga : F) : Prop := z 0%nat < B2R (ga : f64).
Definition qopt (k : nat) : Options F := mkOptions (N := F) k (fofZ 0).

Lemma ax_along0 z c : along 2 (fcoords ax0) z c = z 0%nat - c 0%nat.
Proof.
  unfold along, dot. cbn [Rsum]. unfold fcoords, ax0, ints, a_from. cbn [adata map nth]. rewrite !int_val by lia. lra.
Qed.
Lemma ax_along1 z c : along 2 (fcoords ax1) z c = z 1%nat - c 1%nat.
Proof.
  unfold along, dot. cbn [Rsum]. unfold fcoords, ax1, ints, a_from. cbn [adata map nth]. rewrite !int_val by lia. lra.
Qed.
Lemma quadrant_valid : feas_valid 2 in_quadrant quadrant.
Proof.
  intros o x o' g b E y [Y0 Y1]. cbn [quadrant of_assess] in E. destruct (Bltb (fofZ 0) (at_ 0 x)); [|destruct (Bltb (fofZ 0) (at_ 1 x))]; inversion E; subst g b; cbn [sc_beta].
  - rewrite ax_along0. unfold fcoords. fold (at_ 0 x). lra.
  - rewrite ax_along1. unfold fcoords. fold (at_ 1 x). lra.
Qed.
Lemma downhill_valid : opt_valid 2 lower downhill.
Proof.
  intros o x ga o' ga' g b sh E. unfold downhill in E. destruct (is_finite (at_ 0 x)) eqn:F0; [|discriminate]. destruct (is_finite (ga : f64)) eqn:F1; [|discriminate]. cbn [andb] in E.
  rewrite (fltb_fin (at_ 0 x) ga F0 F1) in E. unfold lower. revert E. case Rlt_bool_spec; intros C E; inversion E; subst; (split; [intros y Hy; lra|]); intros y Hy; rewrite ax_along0; unfold fcoords; fold (at_ 0 x); unfold foff, cut_mode; [lra|].
  cbn [sc_beta]. pose proof (int_val 0 ltac:(lia)) as Z0. match goal with |- _ + ?t <= 0 => replace t with 0 by (symmetry; exact Z0) end. lra.
Qed.

(** the state after a step, as far as it has to be known *)
Definition chk (e : Ell F) : bool :=
  between 1 2 (e_kappa e) && between 4 100 (e_tsq e) && Nat.eqb (length (adata (e_mq e))) 4 && Nat.eqb (arows (e_mq e)) 2 && Nat.eqb (acols (e_mq e)) 2 && Nat.eqb (length (adata (e_xc e))) 2 &&
  forallb (between (-16) 16) (adata (e_mq e)) && forallb (between (-5) 5) (adata (e_xc e)).
Lemma keep_helper {N : Num} {C} (ct : CutType N C) m (e : Ell N) cut e' st : apply_cut ct m e cut = Ok (e', st) -> e_helper e' = e_helper e /\ e_no_defer e' = e_no_defer e.
Proof.
  assert (H : forall strat, ell_update_core e (fst cut) strat = Ok (e', st) -> e_helper e' = e_helper e /\ e_no_defer e' = e_no_defer e).
  { intros strat E. unfold ell_update_core in E. destruct (a_dot_mv _ _); cbn in E; [|discriminate]. destruct (a_dot _ _); cbn in E; [|discriminate].
    destruct (strat _) as [s0 [[r s1] d]]. destruct (negb _); [inversion E; subst; auto|]. destruct (ell_move_xc _ _ _ _); cbn in E; [|discriminate]. destruct (ell_shrink_mq _ _ _ _); cbn in E; [|discriminate].
    destruct (e_no_defer e) eqn:D; inversion E; subst; cbn; auto. }
  destruct m; apply H.
Qed.
Lemma tame_next (e : Ell F) m (g : Arr F) (b : SingleCut F) (e' : Ell F) lam : tame 2 e lam 16 5 -> bpow radix2 (-90) <= lam -> slack 2 lam 16 5 (fkap e) <= / 1000000 -> grad_ok 2 g ->
  (m = Central \/ moderate_or_zero (sc_beta b)) -> apply_cut single_cut m e (g, b) = Ok (e', Success) -> 2 * foff m b <= sqrt (B2R (e_tsq e' : f64)) ->
  chk e' = true -> moderate (e_tsq e') /\ tame 2 e' (lam / 11) 16 5.
Proof.
  intros T HL S G Hb E B K. pose proof small100 as [S1 S2]. unfold chk in K. do 7 (apply andb_true_iff in K as [K ?]).
  destruct (between_val 1 2 _ ltac:(lia) ltac:(lia) K) as [K1 K2]. destruct (between_val 4 100 (e_tsq e') ltac:(lia) ltac:(lia) ltac:(assumption)) as [K3 K4].
  repeat match goal with H : Nat.eqb _ _ = true |- _ => apply Nat.eqb_eq in H end.
  assert (M : moderate (e_tsq e')) by (split; [exact K3|lra]). split; [exact M|].
  assert (S' : slack 2 lam 16 5 (fkap e) <= 1 / 10) by lra.
  destruct (step_both lm0 2 (1 / 10) e m g b e' lam 16 5 ltac:(lra) T S' G Hb E M B) as [(P1 & P2 & P3 & P4 & P5 & _) _].
  destruct (keep_helper _ _ _ _ _ _ E) as [HH1 HH2].
  assert (FM : forall i, B2R (nth i (adata (e_mq e')) (n0 (N := F)) : f64) <= 16 /\ - 16 <= B2R (nth i (adata (e_mq e')) (n0 (N := F)) : f64)).
  { intros i. destruct (Nat.lt_ge_cases i (length (adata (e_mq e')))) as [L|L].
    - pose proof (proj1 (forallb_forall _ _) H0 _ (nth_In _ (n0 (N := F)) L)) as HV. destruct (between_val (-16) 16 _ ltac:(lia) ltac:(lia) HV) as [_ [HV1 HV2]]. split; [exact HV2|exact HV1].
    - rewrite nth_overflow by exact L. change (B2R (n0 (N := F) : f64)) with (B2R (fofZ 0)). rewrite int_val by lia. lra. }
  assert (FX : forall i, B2R (nth i (adata (e_xc e')) (n0 (N := F)) : f64) <= 5 /\ - 5 <= B2R (nth i (adata (e_xc e')) (n0 (N := F)) : f64)).
  { intros i. destruct (Nat.lt_ge_cases i (length (adata (e_xc e')))) as [L|L].
    - pose proof (proj1 (forallb_forall _ _) H _ (nth_In _ (n0 (N := F)) L)) as HV. destruct (between_val (-5) 5 _ ltac:(lia) ltac:(lia) HV) as [_ [HV1 HV2]]. split; [exact HV2|exact HV1].
    - rewrite nth_overflow by exact L. change (B2R (n0 (N := F) : f64)) with (B2R (fofZ 0)). rewrite int_val by lia. lra. }
  split.
  - exact (t_dim _ _ _ _ _ T).
  - auto.
  - auto.
  - rewrite HH1. apply T.
  - rewrite HH2. apply T.
  - auto.
  - split; [exact K1|]. lra.
  - exact P4.
  - split; [|exact P5]. assert (Q : bpow radix2 (-100) = bpow radix2 (-90) * / 1024) by (change (/ 1024) with (bpow radix2 (-10)); rewrite <- bpow_plus; reflexivity). pose proof (bpow_gt_0 radix2 (-90)). lra.
  - split; [lra|]. intros i j _ _. apply Rabs_le. unfold fshape. destruct (FM (i * 2 + j)%nat). lra.
  - split; [lra|]. intros i _. apply Rabs_le. unfold fcoords. destruct (FX i). lra.
Qed.

Lemma ax0_ok : grad_ok 2 ax0.
Proof.
  assert (B : 1000 <= bpow radix2 200). { eapply Rle_trans; [apply small100|]. apply bpow_le. lia. }
  split; [reflexivity|]. split; [reflexivity|]. split; [repeat constructor|].
  intros i Hi. destruct i as [|[|]]; [| |lia]; unfold fcoords; cbn [ax0 ints a_from adata map nth]; rewrite int_val by lia; apply Rabs_le; lra.
Qed.
Lemma ax1_ok : grad_ok 2 ax1.
Proof.
  assert (B : 1000 <= bpow radix2 200). { eapply Rle_trans; [apply small100|]. apply bpow_le. lia. }
  split; [reflexivity|]. split; [reflexivity|]. split; [repeat constructor|].
  intros i Hi. destruct i as [|[|]]; [| |lia]; unfold fcoords; cbn [ax1 ints a_from adata map nth]; rewrite int_val by lia; apply Rabs_le; lra.
Qed.
Lemma qe_shape i j : (i < 2)%nat -> (j < 2)%nat -> fshape 2 qe i j = if Nat.eqb i j then 16 else 0.
Proof.
  intros Hi Hj. destruct i as [|[|]]; [| |lia]; (destruct j as [|[|]]; [| |lia]); unfold fshape; cbn [qe ell_from_covariance ell_new_with_matrix e_mq adata map nth Nat.mul Nat.add Nat.eqb]; apply int_val; lia.
Qed.
Lemma qe_kap : fkap qe = 1.
Proof. apply (int_val 1). lia. Qed.
Lemma qe_tame : tame 2 qe 16 16 5.
Proof.
  pose proof small100 as [A B]. pose proof qe_kap as K. split.
  - split; [lia|]. vm_compute. discriminate.
  - repeat split.
  - reflexivity.
  - reflexivity.
  - reflexivity.
  - split; repeat constructor.
  - split; [reflexivity|]. change (B2R (e_kappa qe : f64)) with (fkap qe). rewrite K. lra.
  - intros i j Hi Hj. rewrite !qe_shape by auto. now rewrite Nat.eqb_sym.
  - split; [lra|]. intros z. unfold quad, mulmv, dot. cbn [Rsum]. rewrite !qe_shape by lia. cbn [Nat.eqb]. lra.
  - split; [lra|]. intros i j Hi Hj. rewrite qe_shape by auto. destruct (Nat.eqb i j); rewrite Rabs_pos_eq; lra.
  - split; [lra|]. intros i Hi. destruct i as [|[|]]; [| |lia]; unfold fcoords; cbn [qe ell_from_covariance ell_new_with_matrix e_xc ints a_from adata map nth]; rewrite int_val by lia; apply Rabs_le; lra.
Qed.
Lemma slack_small lam kap : 1 <= lam -> 1 <= kap -> slack 2 lam 16 5 kap <= / 1000000.
Proof.
  intros HL HK. unfold slack. cbn [INR]. assert (I : 0 < / lam <= 1). { split; [apply Rinv_0_lt_compat; lra|]. rewrite <- Rinv_1. apply Rinv_le_contravar; lra. }
  assert (P : 1 <= lam * kap) by nra. assert (J : 0 < / (lam * kap) <= 1). { split; [apply Rinv_0_lt_compat; lra|]. rewrite <- Rinv_1. apply Rinv_le_contravar; lra. }
  assert (S : sqrt ((1 + 1) / (lam * kap)) <= 2). { rewrite <- (sqrt_square 2) by lra. apply sqrt_le_1; unfold Rdiv; lra. }
  pose proof (sqrt_pos ((1 + 1) / (lam * kap))). set (s := sqrt ((1 + 1) / (lam * kap))) in *.
  assert (U : bpow radix2 (-53) <= bpow radix2 (-50)) by (apply bpow_le; lia). assert (E : bpow radix2 (-50) = / 1125899906842624) by reflexivity. rewrite E in U. pose proof (bpow_gt_0 radix2 (-53)).
  unfold Rdiv. apply Rle_trans with (/ 1125899906842624 * (3200 * ((1 + 1) * (1 + 1)) * (16 * / lam) + 20 * (5 * s))); [apply Rmult_le_compat_r; [|exact U]|]; lra.
Qed.
Lemma grow_small (e : Ell F) (g : Arr F) b : 0 <= b <= 1 -> (b = 0 \/ 16 <= fkap e * quad 2 (fshape 2 e) (fcoords g)) -> grow 2 (depth 2 e g b) <= 4.
Proof.
  intros Hb H. assert (D : 0 <= depth 2 e g b <= 1 / 4).
  { unfold depth. destruct H as [->|H]; [unfold Rdiv; rewrite Rmult_0_l; lra|]. assert (4 <= sqrt (fkap e * quad 2 (fshape 2 e) (fcoords g))). { rewrite <- (sqrt_square 4) by lra. apply sqrt_le_1; lra. }
    set (w := sqrt _) in *. assert (I : 0 < / w <= / 4). { split; [apply Rinv_0_lt_compat; lra|]. apply Rinv_le_contravar; lra. } unfold Rdiv. nra. }
  set (a := depth 2 e g b) in *. unfold grow. cbn [INR]. assert (I : 0 < / (1 - a) <= 4 / 3). { split; [apply Rinv_0_lt_compat; lra|]. replace (4 / 3) with (/ (3 / 4)) by field. apply Rinv_le_contravar; lra. }
  unfold Rdiv. set (w := / (1 - a)) in *. nra.
Qed.
Lemma ax_quad0 (e : Ell F) : quad 2 (fshape 2 e) (fcoords ax0) = B2R (at_ 0 (e_mq e)).
Proof.
  unfold quad, mulmv, dot. cbn [Rsum]. unfold fcoords, ax0, ints, a_from. cbn [adata map nth]. rewrite !int_val by lia. unfold fshape, at_. cbn [Nat.mul Nat.add]. lra.
Qed.
Lemma ax_quad1 (e : Ell F) : quad 2 (fshape 2 e) (fcoords ax1) = B2R (at_ 3 (e_mq e)).
Proof.
  unfold quad, mulmv, dot. cbn [Rsum]. unfold fcoords, ax1, ints, a_from. cbn [adata map nth]. rewrite !int_val by lia. unfold fshape, at_. cbn [Nat.mul Nat.add]. lra.
Qed.
(** what the run of the feasibility driver does *)
Lemma q_run : match apply_cut (N := F) single_cut Bias qe (ax0, mkSingle (N := F) (at_ 0 (e_xc qe))) with
  | Ok (e1, Success) => chk e1 && between 16 16 (at_ 3 (e_mq e1)) && negb (Bltb (fofZ 0) (at_ 0 (e_xc e1))) && between 1 1 (at_ 1 (e_xc e1)) &&
      match apply_cut (N := F) single_cut Bias e1 (ax1, mkSingle (N := F) (at_ 1 (e_xc e1))) with
      | Ok (e2, Success) => chk e2 && negb (Bltb (fofZ 0) (at_ 0 (e_xc e2))) && negb (Bltb (fofZ 0) (at_ 1 (e_xc e2)))
      | _ => false end
  | _ => false end = true.
Proof. vm_compute. reflexivity. Qed.
Lemma d_run : match apply_cut (N := F) single_cut Central qe (ax0, mkSingle (N := F) (fofZ 0)) with
  | Ok (e1, Success) => chk e1 && Bltb (at_ 0 (e_xc e1)) (at_ 0 (e_xc qe)) && is_finite (at_ 0 (e_xc e1)) &&
      match apply_cut (N := F) single_cut Central e1 (ax0, mkSingle (N := F) (fofZ 0)) with
      | Ok (e2, Success) => chk e2
      | _ => false end
  | _ => false end = true.
Proof. vm_compute. reflexivity. Qed.
Lemma quad_ends : match cutting_plane_feas quadrant (ell_space single_cut) (qopt 9) tt qe with Ok (_, _, (Some _, k)) => Nat.eqb k 2 | _ => false end = true.
Proof. vm_compute. reflexivity. Qed.
Lemma d_ends : match cutting_plane_optim downhill (ell_space single_cut) (qopt 2) tt qe (fofZ 7) with Ok (_, _, ga, (Some _, k)) => Nat.eqb k 2 && Bltb ga (fofZ 0) | _ => false end = true.
Proof. vm_compute. reflexivity. Qed.

Definition c1 : mode * (Arr F * SingleCut F) := (Bias, (ax0, mkSingle (N := F) (at_ 0 (e_xc qe)))).
Definition c2 (e1 : Ell F) : mode * (Arr F * SingleCut F) := (Bias, (ax1, mkSingle (N := F) (at_ 1 (e_xc e1)))).
Lemma beta_ok (b : f64) : is_finite b = true -> 1 <= B2R b <= 1 -> moderate_or_zero b.
Proof. intros H1 H2. split; [exact H1|]. right. pose proof small100. lra. Qed.
Lemma at_qe : is_finite (at_ 0 (e_xc qe)) = true /\ B2R (at_ 0 (e_xc qe)) = 1.
Proof. split; [reflexivity|]. apply (int_val 1). lia. Qed.
Lemma half_width (e : Ell F) b : b <= 1 -> 4 <= B2R (e_tsq e : f64) -> 2 * b <= sqrt (B2R (e_tsq e : f64)).
Proof. intros A B. assert (sqrt (2 * 2) <= sqrt (B2R (e_tsq e : f64))) by (apply sqrt_le_1; lra). rewrite sqrt_square in H by lra. lra. Qed.
Lemma chk_facts (e : Ell F) : chk e = true -> 1 <= fkap e /\ 4 <= B2R (e_tsq e : f64).
Proof.
  intros K. unfold chk in K. do 7 (apply andb_true_iff in K as [K ?]).
  destruct (between_val 1 2 _ ltac:(lia) ltac:(lia) K) as [K1 K2]. destruct (between_val 4 100 (e_tsq e) ltac:(lia) ltac:(lia) ltac:(assumption)) as [K3 K4]. unfold fkap. split; [apply K2|apply K4].
Qed.
Lemma q_facts : exists e1 e2, apply_cut single_cut Bias qe (snd c1) = Ok (e1, Success) /\ apply_cut single_cut Bias e1 (snd (c2 e1)) = Ok (e2, Success) /\
  Bltb (fofZ 0) (at_ 0 (e_xc e1)) = false /\ Bltb (fofZ 0) (at_ 1 (e_xc e1)) = true /\ Bltb (fofZ 0) (at_ 0 (e_xc e2)) = false /\ Bltb (fofZ 0) (at_ 1 (e_xc e2)) = false /\
  tame_run 2 (/ 1000000) 4 qe [] /\ tame_run 2 (/ 1000000) 4 qe [c1] /\ tame_run 2 (/ 1000000) 4 qe [c1; c2 e1].
Proof.
  pose proof q_run as Q. cbn [snd c1 c2]. destruct (apply_cut (N := F) single_cut Bias qe _) as [[e1 []]|] eqn:E1; try discriminate.
  destruct (apply_cut (N := F) single_cut Bias e1 _) as [[e2 []]|] eqn:E2; try (rewrite andb_false_r in Q; discriminate).
  do 4 (apply andb_true_iff in Q as [Q ?]). apply andb_true_iff in H as [H H']. apply andb_true_iff in H as [H H''].
  exists e1, e2. split; [reflexivity|]. split; [exact E2|]. apply negb_true_iff in H1, H', H''.
  destruct (between_val 1 1 _ ltac:(lia) ltac:(lia) H0) as [B1 B2]. destruct (between_val 16 16 _ ltac:(lia) ltac:(lia) H2) as [D1 D2]. destruct at_qe as [Z1 Z2].
  destruct (chk_facts _ Q) as [K1 K2]. destruct (chk_facts _ H) as [K3 K4].
  split; [exact H1|]. split.
  { destruct (fofZ_small 0 ltac:(lia)) as [E0 G0]. rewrite fltb_fin by auto. rewrite E0. apply Rlt_bool_true. lra. }
  split; [exact H''|]. split; [exact H'|].
  assert (S1 : slack 2 16 16 5 (fkap qe) <= / 1000000) by (apply slack_small; rewrite ?qe_kap; lra).
  assert (M1 : moderate_or_zero (at_ 0 (e_xc qe))) by (apply beta_ok; [exact Z1|lra]). assert (M2 : moderate_or_zero (at_ 1 (e_xc e1))) by (apply beta_ok; [exact B1|lra]).
  assert (W1 : 2 * B2R (at_ 0 (e_xc qe)) <= sqrt (B2R (e_tsq e1 : f64))) by (apply half_width; lra).
  assert (W2 : 2 * B2R (at_ 1 (e_xc e1)) <= sqrt (B2R (e_tsq e2 : f64))) by (apply half_width; lra).
  assert (L0 : bpow radix2 (-90) <= bpow radix2 0) by (apply bpow_le; lia). change (bpow radix2 0) with 1 in L0.
  destruct (tame_next qe Bias ax0 (mkSingle (N := F) (at_ 0 (e_xc qe))) e1 16 qe_tame ltac:(lra) S1 ax0_ok (or_intror M1) E1 W1 Q) as [T1 T2].
  assert (S2 : slack 2 (16 / 11) 16 5 (fkap e1) <= / 1000000) by (apply slack_small; lra).
  destruct (tame_next e1 Bias ax1 (mkSingle (N := F) (at_ 1 (e_xc e1))) e2 (16 / 11) T2 ltac:(lra) S2 ax1_ok (or_intror M2) E2 W2 H) as [T3 T4].
  assert (G1 : grow 2 (depth 2 qe ax0 (B2R (at_ 0 (e_xc qe)))) <= 4).
  { apply grow_small; [lra|]. right. rewrite ax_quad0, qe_kap. replace (B2R (at_ 0 (e_mq qe))) with (fshape 2 qe 0%nat 0%nat) by reflexivity. rewrite qe_shape by lia. cbn [Nat.eqb]. lra. }
  assert (G2 : grow 2 (depth 2 e1 ax1 (B2R (at_ 1 (e_xc e1)))) <= 4).
  { apply grow_small; [lra|]. right. rewrite ax_quad1. nra. }
  assert (R0 : tame_run 2 (/ 1000000) 4 qe []) by (exists 16, 16, 5; exact qe_tame).
  assert (R1 : tame_run 2 (/ 1000000) 4 qe [c1]).
  { split; [exists 16, 16, 5; split; [exact qe_tame|exact S1]|]. split; [exact ax0_ok|]. split; [exact G1|]. split; [right; exact M1|]. exists e1. split; [exact E1|]. split; [exact T1|]. split; [exact W1|]. exists (16 / 11), 16, 5. exact T2. }
  split; [exact R0|]. split; [exact R1|].
  split; [exists 16, 16, 5; split; [exact qe_tame|exact S1]|]. split; [exact ax0_ok|]. split; [exact G1|]. split; [right; exact M1|]. exists e1. split; [exact E1|]. split; [exact T1|]. split; [exact W1|].
  split; [exists (16 / 11), 16, 5; split; [exact T2|exact S2]|]. split; [exact ax1_ok|]. split; [exact G2|]. split; [right; exact M2|]. exists e2. split; [exact E2|]. split; [exact T3|]. split; [exact W2|]. exists (16 / 11 / 11), 16, 5. exact T4.
Qed.
Definition zc : vec := fun _ => -1.
Lemma zc_ball x : ball 2 zc 1 x -> in_quadrant x /\ fpts 2 qe 1 x.
Proof.
  unfold ball, dot. cbn [Rsum]. unfold zc. intros H. pose proof (Rle_0_sqr (x 0%nat - -1)) as Q0. pose proof (Rle_0_sqr (x 1%nat - -1)) as Q1. unfold Rsqr in Q0, Q1. split; [unfold in_quadrant; split; apply Rnot_lt_le; intros C; nra|].
  exists (fun i => (x i - 1) / 16). split.
  - intros i Hi. unfold mulmv. cbn [Rsum]. rewrite !qe_shape by lia. assert (C : fcoords (e_xc qe) i = 1). { destruct i as [|[|]]; [| |lia]; apply (int_val 1); lia. } rewrite C. destruct i as [|[|]]; [| |lia]; cbn [Nat.eqb]; field.
  - rewrite qe_kap. unfold quad, mulmv, dot. cbn [Rsum]. rewrite !qe_shape by lia. cbn [Nat.eqb]. set (a := x 0%nat) in *. set (b := x 1%nat) in *. clearbody a b. pose proof (Rle_0_sqr (a - b)) as Q2. unfold Rsqr in Q2. assert (Q3 : (a + b + 2) * (a + b + 2) <= 2) by lra. assert (Q4 : - (7 / 4) <= a + b + 2) by (apply Rnot_lt_le; intros C; nra). lra.
Qed.
Lemma feas_case : feas_valid 2 in_quadrant quadrant /\
  (forall l o1 e1, asked single_cut (tolerance (qopt 9)) quadrant tt qe l o1 e1 -> (length l <= max_iters (qopt 9))%nat -> tame_run 2 (/ 1000000) 4 qe l) /\
  (exists o' e' x, cutting_plane_feas quadrant (ell_space single_cut) (qopt 9) tt qe = Ok (o', e', (Some x, 2%nat))) /\
  (forall x, ball 2 zc 1 x -> in_quadrant x /\ fpts 2 qe 1 x).
Proof.
  split; [exact quadrant_valid|]. split.
  - destruct q_facts as (e1 & e2 & A1 & A2 & B1 & B2 & B3 & B4 & R0 & R1 & R2). intros l o1 e' A _.
    inversion A as [|? ? oa cut ea st rest ? ? P1 P2 P3 P4]; subst; [exact R0|].
    assert (C1 : cut = snd c1) by (cbn [quadrant of_assess] in P1; change (Bltb (fofZ 0) (at_ 0 (e_xc qe))) with true in P1; inversion P1; reflexivity). subst cut.
    rewrite A1 in P2. inversion P2; subst ea st. clear P1 P2.
    inversion P4 as [|? ? ob cut eb st rest2 ? ? Q1 Q2 Q3 Q4]; subst; [exact R1|].
    assert (C2 : cut = snd (c2 e1)) by (cbn [quadrant of_assess] in Q1; rewrite B1, B2 in Q1; inversion Q1; reflexivity). subst cut.
    rewrite A2 in Q2. inversion Q2; subst eb st. clear Q1 Q2.
    inversion Q4 as [|? ? oc cut ec st rest3 ? ? S1 S2 S3 S4]; subst; [exact R2|]. cbn [quadrant of_assess] in S1. rewrite B3, B4 in S1. discriminate.
  - split; [|exact zc_ball]. pose proof quad_ends as E. destruct (cutting_plane_feas quadrant _ (qopt 9) tt qe) as [[[o' e'] [[x|] k]]|]; try discriminate. apply Nat.eqb_eq in E. subst k. eauto.
Qed.
(** *** the optimisation driver *)
Definition c0 : mode * (Arr F * SingleCut F) := (Central, (ax0, mkSingle (N := F) (fofZ 0))).
Lemma d_facts : exists e1 e2, apply_cut single_cut Central qe (snd c0) = Ok (e1, Success) /\ apply_cut single_cut Central e1 (snd c0) = Ok (e2, Success) /\
  is_finite (at_ 0 (e_xc e1)) = true /\ Bltb (at_ 0 (e_xc e1)) (at_ 0 (e_xc qe)) = true /\
  tame_run 2 (/ 1000000) 4 qe [] /\ tame_run 2 (/ 1000000) 4 qe [c0] /\ tame_run 2 (/ 1000000) 4 qe [c0; c0].
Proof.
  pose proof d_run as Q. cbn [snd c0]. destruct (apply_cut (N := F) single_cut Central qe _) as [[e1 []]|] eqn:E1; try discriminate.
  destruct (apply_cut (N := F) single_cut Central e1 _) as [[e2 []]|] eqn:E2; try (rewrite andb_false_r in Q; discriminate).
  do 3 (apply andb_true_iff in Q as [Q ?]).
  exists e1, e2. split; [reflexivity|]. split; [exact E2|]. split; [exact H0|]. split; [exact H1|].
  destruct (chk_facts _ Q) as [K1 K2]. destruct (chk_facts _ H) as [K3 K4].
  assert (S1 : slack 2 16 16 5 (fkap qe) <= / 1000000) by (apply slack_small; rewrite ?qe_kap; lra).
  assert (W1 : 2 * 0 <= sqrt (B2R (e_tsq e1 : f64))) by (apply half_width; lra). assert (W2 : 2 * 0 <= sqrt (B2R (e_tsq e2 : f64))) by (apply half_width; lra).
  assert (L0 : bpow radix2 (-90) <= bpow radix2 0) by (apply bpow_le; lia). change (bpow radix2 0) with 1 in L0.
  set (b0 := mkSingle (N := F) (fofZ 0)) in *.
  destruct (tame_next qe Central ax0 b0 e1 16 qe_tame ltac:(lra) S1 ax0_ok (or_introl eq_refl) E1 W1 Q) as [T1 T2].
  assert (S2 : slack 2 (16 / 11) 16 5 (fkap e1) <= / 1000000) by (apply slack_small; lra).
  destruct (tame_next e1 Central ax0 b0 e2 (16 / 11) T2 ltac:(lra) S2 ax0_ok (or_introl eq_refl) E2 W2 H) as [T3 T4].
  assert (G1 : grow 2 (depth 2 qe ax0 0) <= 4) by (apply grow_small; [lra|now left]). assert (G2 : grow 2 (depth 2 e1 ax0 0) <= 4) by (apply grow_small; [lra|now left]).
  split; [exists 16, 16, 5; exact qe_tame|]. split.
  - split; [exists 16, 16, 5; split; [exact qe_tame|exact S1]|]. split; [exact ax0_ok|]. split; [exact G1|]. split; [now left|]. exists e1. split; [exact E1|]. split; [exact T1|]. split; [exact W1|]. exists (16 / 11), 16, 5. exact T2.
  - split; [exists 16, 16, 5; split; [exact qe_tame|exact S1]|]. split; [exact ax0_ok|]. split; [exact G1|]. split; [now left|]. exists e1. split; [exact E1|]. split; [exact T1|]. split; [exact W1|].
    split; [exists (16 / 11), 16, 5; split; [exact T2|exact S2]|]. split; [exact ax0_ok|]. split; [exact G2|]. split; [now left|]. exists e2. split; [exact E2|]. split; [exact T3|]. split; [exact W2|]. exists (16 / 11 / 11), 16, 5. exact T4.
Qed.
Lemma optim_case : opt_valid 2 lower downhill /\
  (forall l o1 e1 ga1 xb1, asked_opt single_cut (tolerance (qopt 2)) downhill tt qe (fofZ 7 : F) None l o1 e1 ga1 xb1 -> (length l <= max_iters (qopt 2))%nat -> tame_run 2 (/ 1000000) 4 qe l) /\
  exists o' e' ga x, cutting_plane_optim downhill (ell_space single_cut) (qopt 2) tt qe (fofZ 7 : F) = Ok (o', e', ga, (Some x, 2%nat)).
Proof.
  split; [exact downhill_valid|]. split.
  - destruct d_facts as (e1 & e2 & A1 & A2 & B1 & B2 & R0 & R1 & R2). intros l o1 e' ga1 xb1 A HL. cbn [qopt max_iters] in HL.
    inversion A as [|? ? ? ? oa gaa cut sh ea st rest ? ? ? ? P1 P2 P3 P4]; subst; [exact R0|].
    unfold downhill in P1. change (is_finite (at_ 0 (e_xc qe)) && is_finite (fofZ 7)) with true in P1. change (Bltb (at_ 0 (e_xc qe)) (fofZ 7)) with true in P1. cbv iota zeta in P1.
    assert (C1 : sh = true /\ cut = snd c0 /\ gaa = at_ 0 (e_xc qe)) by (inversion P1; auto). destruct C1 as (-> & -> & ->). clear P1. cbn [cut_mode] in *.
    rewrite A1 in P2. inversion P2; subst ea st. clear P2.
    inversion P4 as [|? ? ? ? ob gab cut sh eb st rest2 ? ? ? ? Q1 Q2 Q3 Q4]; subst; [exact R1|].
    unfold downhill in Q1. rewrite B1, B2 in Q1. change (is_finite (at_ 0 (e_xc qe))) with true in Q1. cbv iota zeta beta delta [andb] in Q1.
    assert (C2 : sh = true /\ cut = snd c0) by (inversion Q1; auto). destruct C2 as (-> & ->). clear Q1. cbn [cut_mode] in *.
    inversion Q4; subst; [exact R2|]. cbn [length] in HL. lia.
  - pose proof d_ends as E. destruct (cutting_plane_optim downhill _ (qopt 2) tt qe _) as [[[[o' e'] ga] [[x|] k]]|]; try discriminate. apply andb_true_iff in E as [E _]. apply Nat.eqb_eq in E. subst k. do 4 eexists. reflexivity.
Qed.
Definition downhill_q : OracleOptimQ F (Arr F) (SingleCut F) unit := fun o x ga _ =>
  '(o, ga, (cut, sh)) <- downhill o x ga ;; Ok (o, ga, (cut, sh, x, true)).
Lemma dq_ends : match cutting_plane_optim_q downhill_q (ell_space single_cut) (qopt 4) tt qe (fofZ 7) with Ok (_, _, _, (Some _, k)) => Nat.eqb k 4 | _ => false end = true.
Proof. vm_compute. reflexivity. Qed.
Lemma asked_case : (exists o' e' x, cutting_plane_feas quadrant (ell_space single_cut) (qopt 9) tt qe = Ok (o', e', (Some x, 2%nat))) /\
  (exists o' e' ga x, cutting_plane_optim downhill (ell_space single_cut) (qopt 2) tt qe (fofZ 7 : F) = Ok (o', e', ga, (Some x, 2%nat))) /\
  exists o' e' ga x, cutting_plane_optim_q downhill_q (ell_space single_cut) (qopt 4) tt qe (fofZ 7 : F) = Ok (o', e', ga, (Some x, 4%nat)).
Proof.
  split; [apply feas_case|]. split; [apply optim_case|]. pose proof dq_ends as E. destruct (cutting_plane_optim_q downhill_q _ (qopt 4) tt qe _) as [[[[o' e'] ga] [[x|] k]]|]; try discriminate.
  apply Nat.eqb_eq in E. subst k. do 4 eexists. reflexivity.
Qed.
Lemma cuts_case : exists cuts e' log, length cuts = 2%nat /\ run_cuts single_cut qe cuts = Ok (e', log) /\ tame_run 2 (/ 1000000) 4 qe cuts /\
  forall x, ball 2 zc 1 x -> fpts 2 qe 1 x /\ satisfies 2 x qe cuts.
Proof.
  destruct q_facts as (e1 & e2 & A1 & A2 & B1 & B2 & B3 & B4 & R0 & R1 & R2). exists [c1; c2 e1], e2. cbn [run_cuts c1 c2].
  change (ax0, mkSingle (N := F) (at_ 0 (e_xc qe))) with (snd c1). change (ax1, mkSingle (N := F) (at_ 1 (e_xc e1))) with (snd (c2 e1)). rewrite A1. cbn [bind fst snd]. change (ax1, mkSingle (N := F) (at_ 1 (e_xc e1))) with (snd (c2 e1)). rewrite A2. cbn [bind fst snd].
  eexists. split; [reflexivity|]. split; [reflexivity|]. split; [exact R2|]. intros x Hx. destruct (zc_ball x Hx) as [[X0 X1] Hp]. split; [exact Hp|].
  split; [rewrite ax_along0; unfold fcoords, foff; cbn [sc_beta]; fold (at_ 0 (e_xc qe)); lra|]. intros e' st E. change (apply_cut (N := F) single_cut Bias qe (snd c1) = Ok (e', st)) in E. rewrite A1 in E. inversion E; subst e' st.
  split; [rewrite ax_along1; unfold fcoords, foff; cbn [sc_beta]; fold (at_ 1 (e_xc e1)); lra|]. intros; exact I.
Qed.
