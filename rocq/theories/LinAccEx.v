(** Concrete runs and calls of the linear examples in binary64 (C119). *)
From Coq Require Import ZArith Reals Lra Lia Bool Psatz List Arith.
From Flocq Require Import Core IEEE754.BinarySingleNaN.
From Verif Require Import Num Res Arr CuttingPlane EllCalc Ell EllRun Spec RealLin FloatLemmas AccSpec StepAccSpec StepCuts StepRunSpec StepRun StepEx Replay RunSpec Examples ProfitSpec ProfAccSpec ProfAccEx StepRunEx LinAccSpec.
Import ListNotations.
Local Open Scope R_scope.

Lemma lin_range_case : lin_range 5 100 /\ lin_margin 100 <= / 1000000000000.
Proof.
  split.
  - unfold lin_range. assert (bpow radix2 10 <= bpow radix2 1000) by (apply bpow_le; lia). change (bpow radix2 10) with 1024 in H. lra.
  - unfold lin_margin. assert (E : bpow radix2 (-50) = / 1125899906842624) by reflexivity. rewrite E. lra.
Qed.
Lemma lin_level_case : lin_level 100 neginf /\ lin_level 100 (fofZ 100).
Proof.
  split; [left; reflexivity|]. right. destruct (fofZ_small 100 ltac:(lia)) as [V F1]. split; [exact F1|]. rewrite V. cbn [IZR]. rewrite Rabs_pos_eq; lra.
Qed.
(** a cut of coefficients at most 5 in size; both coefficients 1 or -1 *)
Definition gchk5 (g : Arr F) : bool := Nat.eqb (length (adata g)) 2 && Nat.eqb (acols g) 0 && forallb (between (-5) 5) (adata g).
Lemma gchk5_ok g : gchk5 g = true -> grad_ok 2 g.
Proof.
  intros K. unfold gchk5 in K. apply andb_true_iff in K as [K K3]. apply andb_true_iff in K as [K1 K2]. apply Nat.eqb_eq in K1, K2.
  assert (B : 1000 <= bpow radix2 200). { eapply Rle_trans; [apply small100|]. apply bpow_le. lia. }
  split; [exact K1|]. split; [exact K2|].
  assert (V : forall z : f64, In z (adata g) -> is_finite z = true /\ -5 <= B2R z <= 5). { intros z Hz. exact (between_val (-5) 5 z ltac:(lia) ltac:(lia) (proj1 (forallb_forall _ _) K3 z Hz)). }
  split; [apply Forall_forall; intros z Hz; now apply V|].
  intros i Hi. unfold fcoords. destruct (V (nth i (adata g) (n0 (N := F)))) as [_ A]; [apply nth_In; lia|]. apply Rabs_le. lra.
Qed.
Definition signs (g : Arr F) : bool := (between 1 1 (nth 0 (adata g) n0) || between (-1) (-1) (nth 0 (adata g) n0)) && (between 1 1 (nth 1 (adata g) n0) || between (-1) (-1) (nth 1 (adata g) n0)).
Lemma signs_ok g : signs g = true -> (fcoords g 0%nat = 1 \/ fcoords g 0%nat = -1) /\ (fcoords g 1%nat = 1 \/ fcoords g 1%nat = -1).
Proof.
  assert (S : forall v : F, between 1 1 v || between (-1) (-1) v = true -> B2R (v : f64) = 1 \/ B2R (v : f64) = -1).
  { intros v K. apply orb_true_iff in K as [K|K]; apply between_val in K as [_ K]; try lia; lra. }
  intros K. apply andb_true_iff in K as [K1 K2]. split; [exact (S _ K1)|exact (S _ K2)].
Qed.
(** the first round: a cut with offset 1 from [qe] *)
Definition first_ok (g : Arr F) (b : f64) (e1 : Ell F) : bool := gchk5 g && signs g && between 1 1 b && chk e1 && Nat.eqb (acols (e_xc e1)) 0.
Lemma first_facts (g : Arr F) (b : f64) e1 : apply_cut (N := F) single_cut Bias qe (g, mkSingle (N := F) b) = Ok (e1, Success) -> first_ok g b e1 = true ->
  in_square 5 (e_xc e1) /\ 1 <= fkap e1 /\ tame 2 e1 (16 / 11) 16 5 /\ tame_run 2 (/ 1000000) 4 qe [(Bias, (g, mkSingle (N := F) b))] /\
  forall rest, tame_run 2 (/ 1000000) 4 e1 rest -> tame_run 2 (/ 1000000) 4 qe ((Bias, (g, mkSingle (N := F) b)) :: rest).
Proof.
  intros S1 Q. unfold first_ok in Q. split_and Q. match goal with H : Nat.eqb _ _ = true |- _ => apply Nat.eqb_eq in H end. apply gchk5_ok in Q.
  match goal with H : between 1 1 b = true |- _ => apply between_val in H as [F1 V1]; [|lia|lia] end. match goal with H : chk e1 = true |- _ => rename H into C1 end. match goal with H : signs g = true |- _ => apply signs_ok in H as [X0 X1] end. destruct (chk_facts _ C1) as [KA KB].
  assert (SL1 : slack 2 16 16 5 (fkap qe) <= / 1000000) by (apply slack_small; rewrite ?qe_kap; lra).
  assert (M1 : moderate_or_zero b) by (apply beta_ok; [exact F1|lra]). assert (W1 : 2 * B2R b <= sqrt (B2R (e_tsq e1 : f64))) by (apply half_width; lra).
  assert (L0 : bpow radix2 (-90) <= bpow radix2 0) by (apply bpow_le; lia). change (bpow radix2 0) with 1 in L0.
  destruct (tame_next qe Bias g (mkSingle (N := F) b) e1 16 qe_tame ltac:(lra) SL1 Q (or_intror M1) S1 W1 C1) as [T1 R1].
  assert (G1 : grow 2 (depth 2 qe g (B2R b)) <= 4).
  { apply grow_small; [lra|]. right. rewrite qe_kap. unfold quad, mulmv, dot. cbn [Rsum]. rewrite !qe_shape by lia. cbn [Nat.eqb]. destruct X0 as [-> | ->], X1 as [-> | ->]; lra. }
  split; [apply square_chk; assumption|]. split; [lra|]. split; [exact R1|].
  assert (KR : forall rest, tame_run 2 (/ 1000000) 4 e1 rest -> tame_run 2 (/ 1000000) 4 qe ((Bias, (g, mkSingle (N := F) b)) :: rest)).
  { intros rest HR. split; [exists 16, 16, 5; split; [exact qe_tame|exact SL1]|]. split; [exact Q|]. split; [exact G1|]. split; [right; exact M1|]. exists e1. split; [exact S1|]. split; [exact T1|]. split; [exact W1|exact HR]. }
  split; [|exact KR]. apply KR. exists (16 / 11), 16, 5. exact R1.
Qed.
(** the state after the second step *)
Definition chk5 (e : Ell F) : bool :=
  between 1 2 (e_kappa e) && is_finite (e_tsq e : f64) && Bleb (e_tsq e) (fofZ 1000) && Bleb sixteenth (e_tsq e) && Nat.eqb (length (adata (e_mq e))) 4 && Nat.eqb (arows (e_mq e)) 2 && Nat.eqb (acols (e_mq e)) 2 && Nat.eqb (length (adata (e_xc e))) 2 &&
  forallb (between (-16) 16) (adata (e_mq e)) && forallb (between (-5) 5) (adata (e_xc e)).
Lemma tame_next5 (e : Ell F) m (g : Arr F) (b : SingleCut F) (e' : Ell F) lam : tame 2 e lam 16 5 -> bpow radix2 (-90) <= lam -> slack 2 lam 16 5 (fkap e) <= / 1000000 -> grad_ok 2 g ->
  (m = Central \/ moderate_or_zero (sc_beta b)) -> apply_cut single_cut m e (g, b) = Ok (e', Success) -> 2 * foff m b <= sqrt (B2R (e_tsq e' : f64)) ->
  chk5 e' = true -> moderate (e_tsq e') /\ tame 2 e' (lam / 11) 16 5.
Proof.
  intros T HL S G Hb E B K. pose proof small100 as [S1 S2]. unfold chk5 in K. do 9 (apply andb_true_iff in K as [K ?]).
  destruct (between_val 1 2 _ ltac:(lia) ltac:(lia) K) as [K1 K2]. assert (K3 : is_finite (e_tsq e' : f64) = true) by assumption.
  match goal with H : Bleb _ (fofZ 1000) = true |- _ => rewrite fleb_fin in H by (exact K3 || exact (proj2 (fofZ_small 1000 ltac:(lia)))); apply EllReal.Rle_bool_iff in H; rewrite (proj1 (fofZ_small 1000 ltac:(lia))) in H; rename H into K4 end.
  match goal with H : Bleb sixteenth _ = true |- _ => rewrite fleb_fin in H by (exact K3 || exact (proj1 sixteenth_val)); apply EllReal.Rle_bool_iff in H; rewrite (proj2 sixteenth_val) in H; rename H into K5 end.
  repeat match goal with H : Nat.eqb _ _ = true |- _ => apply Nat.eqb_eq in H end. assert (SM : bpow radix2 (-100) <= / 1024) by (change (/ 1024) with (bpow radix2 (-10)); apply bpow_le; lia).
  assert (M : moderate (e_tsq e')) by (split; [exact K3|lra]). split; [exact M|].
  assert (S' : slack 2 lam 16 5 (fkap e) <= 1 / 10) by lra.
  destruct (step_both lm0 2 (1 / 10) e m g b e' lam 16 5 ltac:(lra) T S' G Hb E M B) as [(P1 & P2 & P3 & P4 & P5 & _) _].
  destruct (keep_helper _ _ _ _ _ _ E) as [HH1 HH2].
  assert (FM : forall i, B2R (nth i (adata (e_mq e')) (n0 (N := F)) : f64) <= 16 /\ - 16 <= B2R (nth i (adata (e_mq e')) (n0 (N := F)) : f64)).
  { intros i. destruct (Nat.lt_ge_cases i (length (adata (e_mq e')))) as [L|L].
    - pose proof (proj1 (forallb_forall _ _) H0 _ (nth_In _ (n0 (N := F)) L)) as HV. destruct (between_val (-16) 16 _ ltac:(lia) ltac:(lia) HV) as [_ [HV1 HV2]]. split; [exact HV2|exact HV1].
    - rewrite nth_overflow by exact L. change (B2R (n0 (N := F) : f64)) with (B2R (fofZ 0)). rewrite int_val by lia. lra. }
  assert (FX : forall i, B2R (nth i (adata (e_xc e')) (n0 (N := F)) : f64) <= 5 /\ - 5 <= B2R (nth i (adata (e_xc e')) (n0 (N := F)) : f64)).
  { intros i. destruct (Nat.lt_ge_cases i (length (adata (e_xc e')))) as [L|L].
    - pose proof (proj1 (forallb_forall _ _) H _ (nth_In _ (n0 (N := F)) L)) as HV. destruct (between_val (-5) 5 _ ltac:(lia) ltac:(lia) HV) as [_ [HV1 HV2]]. split; [exact HV2|exact HV1].
    - rewrite nth_overflow by exact L. change (B2R (n0 (N := F) : f64)) with (B2R (fofZ 0)). rewrite int_val by lia. lra. }
  split.
  - exact (t_dim _ _ _ _ _ T).
  - auto.
  - auto.
  - rewrite HH1. apply T.
  - rewrite HH2. apply T.
  - auto.
  - split; [exact K1|]. lra.
  - exact P4.
  - split; [|exact P5]. assert (Q : bpow radix2 (-100) = bpow radix2 (-90) * / 1024) by (change (/ 1024) with (bpow radix2 (-10)); rewrite <- bpow_plus; reflexivity). pose proof (bpow_gt_0 radix2 (-90)). lra.
  - split; [lra|]. intros i j _ _. apply Rabs_le. unfold fshape. destruct (FM (i * 2 + j)%nat). lra.
  - split; [lra|]. intros i _. apply Rabs_le. unfold fcoords. destruct (FX i). lra.
Qed.
(** two rounds, a cut with offset 1 and an improvement *)
Definition two_rounds {O} (ass : O -> Arr F -> F -> res (O * F * ((Arr F * SingleCut F) * bool))) (o : O) (ga : F) : bool :=
  match ass o (e_xc qe) ga with
  | Ok (o1, ga1, ((g1, c1), false)) => match apply_cut (N := F) single_cut Bias qe (g1, c1) with
    | Ok (e1, Success) => first_ok g1 (sc_beta c1) e1 && match ass o1 (e_xc e1) ga1 with
      | Ok (o2, ga2, ((g2, c2), true)) => match apply_cut (N := F) single_cut Central e1 (g2, c2) with
        | Ok (e2, Success) => gchk5 g2 && chk5 e2
        | _ => false end
      | _ => false end
    | _ => false end
  | _ => false end.
Lemma two_rounds_ok {O} ass (o : O) ga : two_rounds ass o ga = true ->
  forall l o1 e1 (ga1 : F) xb1, asked_opt single_cut (tolerance (qopt 2)) ass o qe ga None l o1 e1 ga1 xb1 -> (length l <= max_iters (qopt 2))%nat ->
    tame_run 2 (/ 1000000) 4 qe l /\ ((length l < max_iters (qopt 2))%nat -> in_square 5 (e_xc e1)).
Proof.
  intros Q l o' e' ga' xb' A HL. cbn [qopt max_iters] in *. unfold two_rounds in Q.
  destruct (ass o (e_xc qe) ga) as [[[o1 ga1] [[g1 [b1]] []]]|] eqn:E1; try discriminate. cbn [sc_beta] in Q.
  destruct (apply_cut single_cut Bias qe _) as [[e1 []]|] eqn:S1; try discriminate. apply andb_true_iff in Q as [Q Q2].
  destruct (ass o1 (e_xc e1) ga1) as [[[o2 ga2] [[g2 [b2]] []]]|] eqn:E2; try discriminate.
  destruct (apply_cut single_cut Central e1 _) as [[e2 []]|] eqn:S2; try discriminate. apply andb_true_iff in Q2 as [Q2 C2]. apply gchk5_ok in Q2.
  destruct (first_facts g1 b1 e1 S1 Q) as (B1 & K1 & R1 & P1 & PX).
  assert (W2 : 2 * 0 <= sqrt (B2R (e_tsq e2 : f64))) by (rewrite Rmult_0_r; apply sqrt_pos).
  assert (L0 : bpow radix2 (-90) <= bpow radix2 0) by (apply bpow_le; lia). change (bpow radix2 0) with 1 in L0.
  assert (SL2 : slack 2 (16 / 11) 16 5 (fkap e1) <= / 1000000) by (apply slack_small; lra).
  destruct (tame_next5 e1 Central g2 (mkSingle (N := F) b2) e2 (16 / 11) R1 ltac:(lra) SL2 Q2 (or_introl eq_refl) S2 W2 C2) as [T2 R2].
  assert (G2 : grow 2 (depth 2 e1 g2 0) <= 4) by (apply grow_small; [lra|now left]).
  assert (P0 : tame_run 2 (/ 1000000) 4 qe []) by (exists 16, 16, 5; exact qe_tame).
  assert (P2 : tame_run 2 (/ 1000000) 4 qe [(Bias, (g1, mkSingle (N := F) b1)); (Central, (g2, mkSingle (N := F) b2))]).
  { apply PX. split; [exists (16 / 11), 16, 5; split; [exact R1|exact SL2]|]. split; [exact Q2|]. split; [exact G2|]. split; [now left|]. exists e2. split; [exact S2|]. split; [exact T2|]. split; [exact W2|]. exists (16 / 11 / 11), 16, 5. exact R2. }
  inversion A as [|? ? ? ? oa gaa cut sh ea st rest ? ? ? ? X1 X2 X3 X4]; subst; [split; [exact P0|intros _; exact qe_square]|]. clear A.
  rewrite E1 in X1. inversion X1; subst oa gaa cut sh. clear X1. cbn [cut_mode] in *. assert (X5 := eq_trans (eq_sym S1) X2). inversion X5; subst ea st. clear X2 X5.
  inversion X4 as [|? ? ? ? ob gab cut sh eb st rest2 ? ? ? ? Y1 Y2 Y3 Y4]; subst; [split; [exact P1|intros _; exact B1]|]. clear X4.
  rewrite E2 in Y1. inversion Y1; subst ob gab cut sh. clear Y1. cbn [cut_mode] in *. assert (Y5 := eq_trans (eq_sym S2) Y2). inversion Y5; subst eb st. clear Y2 Y5.
  inversion Y4; subst; [split; [exact P2|cbn [length]; lia]|]. cbn [length] in HL. lia.
Qed.
Lemma ex1_rounds : two_rounds (ex1_assess (N := F)) tt neginf = true. Proof. vm_compute. reflexivity. Qed.
Lemma ex1rr_rounds : two_rounds (ex1rr_assess (N := F)) (-1)%Z neginf = true. Proof. vm_compute. reflexivity. Qed.
Lemma ex4_rounds : two_rounds (ex4_assess (N := F)) (-1)%Z neginf = true. Proof. vm_compute. reflexivity. Qed.
(** it ends with a level in the range *)
Definition ends {O} (lo hi : Z) (r : res (O * Ell F * F * (option (Arr F) * nat))) : bool := match r with Ok (_, _, ga, (Some _, k)) => Nat.eqb k 2 && between lo hi ga | _ => false end.
Lemma ends_ok {O} lo hi (r : res (O * Ell F * F * (option (Arr F) * nat))) : (- 100 <= lo <= 100)%Z -> (- 100 <= hi <= 100)%Z -> ends lo hi r = true -> exists o' e' ga x, r = Ok (o', e', ga, (Some x, 2%nat)) /\ IZR lo <= B2R (ga : f64) <= IZR hi.
Proof.
  intros H1 H2 E. destruct r as [[[[o' e'] ga] [[x|] k]]|]; try discriminate. apply andb_true_iff in E as [E E2]. apply Nat.eqb_eq in E. subst k. do 4 eexists. split; [reflexivity|]. exact (proj2 (between_val lo hi ga ltac:(lia) ltac:(lia) E2)).
Qed.
Lemma ex1_ends : ends 1 3 (cutting_plane_optim ex1_assess (ell_space single_cut) (qopt 2) tt qe neginf) = true. Proof. vm_compute. reflexivity. Qed.
Lemma ex1rr_ends : ends 1 3 (cutting_plane_optim ex1rr_assess (ell_space single_cut) (qopt 2) (-1)%Z qe neginf) = true. Proof. vm_compute. reflexivity. Qed.
Lemma ex4_ends : ends 0 1 (cutting_plane_optim ex4_assess (ell_space single_cut) (qopt 2) (-1)%Z qe neginf) = true. Proof. vm_compute. reflexivity. Qed.
(** Example 3 with the target 1: one cut, then an answer *)
Definition o3 : Ex3 F := mkEx3 (N := F) (-1)%Z (fofZ 1).

Lemma ex3_round : match ex3_assess o3 (e_xc qe) with
  | Ok (o1, Some (g1, c1)) => match apply_cut (N := F) single_cut Bias qe (g1, c1) with
    | Ok (e1, Success) => first_ok g1 (sc_beta c1) e1 && match ex3_assess o1 (e_xc e1) with Ok (_, None) => true | _ => false end
    | _ => false end
  | _ => false end = true.
Proof. vm_compute. reflexivity. Qed.
Lemma ex3_ends : match cutting_plane_feas ex3_oracle (ell_space single_cut) (qopt 2) o3 qe with Ok (_, _, (Some _, 1%nat)) => true | _ => false end = true.
Proof. vm_compute. reflexivity. Qed.
Lemma ex3_case : (forall l o1 e1, asked single_cut (tolerance (qopt 2)) ex3_oracle o3 qe l o1 e1 -> (length l <= max_iters (qopt 2))%nat ->
  tame_run 2 (/ 1000000) 4 qe l /\ ((length l < max_iters (qopt 2))%nat -> in_square 5 (e_xc e1))).
Proof.
  intros l o' e' A HL. cbn [qopt max_iters] in *.
  pose proof ex3_round as Q. destruct (ex3_assess o3 (e_xc qe)) as [[o1 [[g1 [b1]]|]]|] eqn:E1; try discriminate. cbn [sc_beta] in Q.
  destruct (apply_cut single_cut Bias qe _) as [[e1 []]|] eqn:S1; try discriminate. apply andb_true_iff in Q as [Q Q2].
  destruct (ex3_assess o1 (e_xc e1)) as [[o2 [|]]|] eqn:E2; try discriminate.
  destruct (first_facts g1 b1 e1 S1 Q) as (B1 & K1 & R1 & P1 & PX).
  assert (P0 : tame_run 2 (/ 1000000) 4 qe []) by (exists 16, 16, 5; exact qe_tame).
  inversion A as [|? ? oa cut ea st rest ? ? X1 X2 X3 X4]; subst; [split; [exact P0|intros _; exact qe_square]|]. clear A.
  cbn [ex3_oracle of_assess] in X1. assert (X5 := eq_trans (eq_sym E1) X1). inversion X5; subst oa cut. clear X1 X5. assert (X5 := eq_trans (eq_sym S1) X2). inversion X5; subst ea st. clear X2 X5.
  inversion X4 as [|? ? ob cut eb st rest2 ? ? Y1 Y2 Y3 Y4]; subst; [split; [exact P1|intros _; exact B1]|]. clear X4.
  cbn [ex3_oracle of_assess] in Y1. assert (X5 := eq_trans (eq_sym E2) Y1). discriminate X5.
Qed.
(** from the level 100: one cut, then the level leaves nothing *)
Definition high_round {O} (ass : O -> Arr F -> F -> res (O * F * ((Arr F * SingleCut F) * bool))) (o : O) : bool :=
  match ass o (e_xc qe) (fofZ 100 : F) with
  | Ok (o1, ga1, ((g1, c1), false)) => match apply_cut (N := F) single_cut Bias qe (g1, c1) with
    | Ok (e1, Success) => chk e1 && Nat.eqb (acols (e_xc e1)) 0
    | _ => false end
  | _ => false end.
Lemma high_round_ok {O} ass (o : O) : high_round ass o = true ->
  forall l o1 e1 (ga1 : F) xb1, asked_opt single_cut (tolerance (qopt 2)) ass o qe (fofZ 100 : F) None l o1 e1 ga1 xb1 -> (length l < max_iters (qopt 2))%nat -> in_square 5 (e_xc e1).
Proof.
  intros Q l o' e' ga' xb' A HL. cbn [qopt max_iters] in *. unfold high_round in Q.
  destruct (ass o (e_xc qe) _) as [[[o1 ga1] [[g1 c1] []]]|] eqn:E1; try discriminate.
  destruct (apply_cut single_cut Bias qe _) as [[e1 []]|] eqn:S1; try discriminate. apply andb_true_iff in Q as [Q Q2]. apply Nat.eqb_eq in Q2.
  inversion A as [|? ? ? ? oa gaa cut sh ea st rest ? ? ? ? X1 X2 X3 X4]; subst; [exact qe_square|]. clear A. rewrite E1 in X1. inversion X1; subst oa gaa cut sh. clear X1. cbn [cut_mode] in *. assert (X5 := eq_trans (eq_sym S1) X2). inversion X5; subst ea st. clear X2 X5.
  inversion X4 as [|? ? ? ? ob gab cut sh eb st rest2 ? ? ? ? Y1 Y2 Y3 Y4]; subst; [now apply square_chk|]. cbn [length] in HL. lia.
Qed.
Lemma high_rounds : high_round (ex1_assess (N := F)) tt = true /\ high_round (ex1rr_assess (N := F)) (-1)%Z = true /\ high_round (ex4_assess (N := F)) (-1)%Z = true.
Proof. repeat split; vm_compute; reflexivity. Qed.
Definition nothing {O} (r : res (O * Ell F * F * (option (Arr F) * nat))) : bool := match r with Ok (_, _, _, (None, _)) => true | _ => false end.
Lemma high_ends : nothing (cutting_plane_optim ex1_assess (ell_space single_cut) (qopt 2) tt qe (fofZ 100 : F)) = true /\ nothing (cutting_plane_optim ex1rr_assess (ell_space single_cut) (qopt 2) (-1)%Z qe (fofZ 100 : F)) = true /\ nothing (cutting_plane_optim ex4_assess (ell_space single_cut) (qopt 2) (-1)%Z qe (fofZ 100 : F)) = true.
Proof. repeat split; vm_compute; reflexivity. Qed.
Lemma high_level : 12 + 8 * lin_margin 100 < B2R (fofZ 100).
Proof. pose proof (proj2 lin_range_case). rewrite int_val by lia. lra. Qed.
(** points with room to spare, and better than the levels reached *)
Lemma room_case : room1 (lin_margin 100) (fun i => if Nat.eqb i 0 then 2 else 0) /\ room4 (lin_margin 100) (fun i => if Nat.eqb i 0 then 1 else -1) /\ goal4 (fun i => if Nat.eqb i 0 then 1 else -1) = 5.
Proof. pose proof (proj2 lin_range_case). unfold room1, room4, goal4. cbn [Nat.eqb]. lra. Qed.
