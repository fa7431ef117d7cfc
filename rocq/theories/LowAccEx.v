(** A concrete lowpass problem and a run in binary64 (C111). *)
From Coq Require Import ZArith Reals Lra Lia Bool Psatz List Arith.
From Flocq Require Import Core IEEE754.BinarySingleNaN.
From Verif Require Import Num Res Arr ArrLemmas CuttingPlane EllCalc Ell EllRun Spec RealLin FloatLemmas AccSpec StepAccSpec StepRunSpec ParAccSpec ParCuts ParRunSpec ParRun Lowpass LowpassSpec LowAccSpec LowAcc LowAccRun StepEx StepRunEx ParRunEx Replay RunSpec.
Import ListNotations.
Local Open Scope R_scope.

(** two taps, three frequencies (0, pi/2, pi), one in each band: 0 <= x_0 + 2 x_1 <= 9,
    0 <= x_0, 0 <= x_0 - 2 x_1 <= level *)
Definition oL : Lowpass F := mkLowpass (N := F) true (-1) (map ints [[1; 2]; [1; 0]; [1; -2]]%Z) 1 2 (fofZ 0) (fofZ 9) (fofZ 7) 0 1 (nninf (n := F)) (-1).
Lemma oL_ok : lw_ok 2 oL.
Proof. unfold lw_ok. cbn. repeat split; try lia. all: destruct H as [<-|[<-|[<-|[]]]]; reflexivity. Qed.
Lemma oL_fits : lw_fits 2 oL 2 9.
Proof.
  assert (B : 1000 <= bpow radix2 200). { eapply Rle_trans; [apply small100|]. apply bpow_le. lia. }
  split.
  - discriminate.
  - intros [|[|[|k]]] Hk; cbn in Hk; try lia; (split; [repeat constructor|]); intros [|[|j]] Hj; try lia; unfold fcoords; cbn [oL lw_spectrum map nth ints a_from adata]; rewrite int_val by lia; apply Rabs_le; lra.
  - split; [reflexivity|]. cbn [oL lw_lp]. rewrite int_val by lia. apply Rabs_le. lra.
  - split; [reflexivity|]. cbn [oL lw_up]. rewrite int_val by lia. apply Rabs_le. lra.
  - lra.
  - lra.
Qed.
Lemma seven_ok : level_ok 9 (fofZ 7).
Proof. split; [reflexivity|]. rewrite int_val by lia. apply Rabs_le. lra. Qed.
Lemma small_eps : low_eps 2 2 5 9 <= / 1000000.
Proof.
  unfold low_eps. cbn [INR]. assert (U : bpow radix2 (-53) <= bpow radix2 (-40)) by (apply bpow_le; lia). assert (V : bpow radix2 (-1000) <= bpow radix2 (-40)) by (apply bpow_le; lia).
  assert (E : bpow radix2 (-40) = / 1099511627776) by reflexivity. rewrite E in *. nra.
Qed.
Definition gchk (g : Arr F) : bool := Nat.eqb (length (adata g)) 2 && Nat.eqb (acols g) 0 && forallb (between (-2) 2) (adata g).
Lemma gchk_ok g : gchk g = true -> grad_ok 2 g.
Proof.
  intros K. unfold gchk in K. apply andb_true_iff in K as [K K3]. apply andb_true_iff in K as [K1 K2]. apply Nat.eqb_eq in K1, K2.
  assert (B : 1000 <= bpow radix2 200). { eapply Rle_trans; [apply small100|]. apply bpow_le. lia. }
  split; [exact K1|]. split; [exact K2|].
  assert (V : forall z : f64, In z (adata g) -> is_finite z = true /\ -2 <= B2R z <= 2). { intros z Hz. exact (between_val (-2) 2 z ltac:(lia) ltac:(lia) (proj1 (forallb_forall _ _) K3 z Hz)). }
  split; [apply Forall_forall; intros z Hz; now apply V|].
  intros i Hi. unfold fcoords. destruct (V (nth i (adata g) (n0 (N := F)))) as [_ A]; [apply nth_In; lia|]. apply Rabs_le. lra.
Qed.
Lemma box_chk (e : Ell F) : chk3 e = true -> acols (e_xc e) = 0%nat -> in_box 2 5 (e_xc e).
Proof.
  intros K C. unfold chk3 in K. do 7 (apply andb_true_iff in K as [K ?]). apply Nat.eqb_eq in H1.
  assert (B : 1000 <= bpow radix2 200). { eapply Rle_trans; [apply small100|]. apply bpow_le. lia. }
  assert (V : forall z : f64, In z (adata (e_xc e)) -> is_finite z = true /\ -5 <= B2R z <= 5). { intros z Hz. exact (between_val (-5) 5 z ltac:(lia) ltac:(lia) (proj1 (forallb_forall _ _) H z Hz)). }
  split; [split; assumption|]. split; [apply Forall_forall; intros z Hz; now apply V|]. split; [lra|]. intros i Hi. unfold fcoords. destruct (V (nth i (adata (e_xc e)) (n0 (N := F)))) as [_ A]; [apply nth_In; lia|]. apply Rabs_le. lra.
Qed.
Lemma qe_box : in_box 2 5 (e_xc qe).
Proof.
  assert (B : 1000 <= bpow radix2 200). { eapply Rle_trans; [apply small100|]. apply bpow_le. lia. }
  split; [split; reflexivity|]. split; [repeat constructor|]. split; [lra|]. exact (proj2 (t_X _ _ _ _ _ qe_tame)).
Qed.
(** what the first two rounds do: a cut for the violated stop band, then an improvement *)
Lemma low_rounds : match lowpass_assess oL (e_xc qe) (fofZ 7 : F) with
  | Ok (o1, ga1, ((g1, c1), false)) => match pc_beta1 c1, apply_cut (N := F) parallel_cut Bias qe (g1, c1) with
    | Some b1, Ok (e1, Success) => gchk g1 && between 1 1 (pc_beta0 c1) && between 8 8 b1 && chk3 e1 && Nat.eqb (acols (e_xc e1)) 0 && between 79 81 (e_tsq e1) && negb (Bleb (e_tsq e1) (fmul b1 b1)) &&
      match lowpass_assess o1 (e_xc e1) ga1 with
      | Ok (o2, ga2, ((g2, c2), true)) => match pc_beta1 c2, apply_cut (N := F) parallel_cut Central e1 (g2, c2) with
        | Some b2, Ok (e2, Success) => gchk g2 && between 0 0 (pc_beta0 c2) && between 2 3 b2 && chk3 e2 && between 20 24 (e_tsq e2) && negb (Bleb (e_tsq e2) (fmul b2 b2))
        | _, _ => false end
      | _ => false end
    | _, _ => false end
  | _ => false end = true.
Proof. vm_compute. reflexivity. Qed.
Lemma low_ends : match cutting_plane_optim lowpass_assess (ell_space parallel_cut) (qopt 2) oL qe (fofZ 7 : F) with Ok (_, _, ga, (Some _, k)) => Nat.eqb k 2 && between 2 3 ga | _ => false end = true.
Proof. vm_compute. reflexivity. Qed.
Ltac split_and H := repeat match type of H with (_ && _) = true => let H' := fresh "K" in apply andb_true_iff in H as [H H'] end.
Lemma low_run_case : lw_ok 2 oL /\ lw_fits 2 oL 2 9 /\ (lw_nwstop oL < Z.of_nat (length (lw_spectrum oL)))%Z /\ level_ok 9 (fofZ 7) /\ low_eps 2 2 5 9 <= / 1000000 /\ in_box 2 5 (e_xc qe) /\
  (forall l o1 e1 ga1 xb1, asked_opt parallel_cut (tolerance (qopt 2)) lowpass_assess oL qe (fofZ 7 : F) None l o1 e1 ga1 xb1 -> (length l <= max_iters (qopt 2))%nat ->
    pair_run 2 (1 / 1000) 4 qe l /\ ((length l < max_iters (qopt 2))%nat -> in_box 2 5 (e_xc e1))) /\
  exists o' e' ga x, cutting_plane_optim lowpass_assess (ell_space parallel_cut) (qopt 2) oL qe (fofZ 7 : F) = Ok (o', e', ga, (Some x, 2%nat)) /\ 2 <= B2R (ga : f64) <= 3.
Proof.
  split; [exact oL_ok|]. split; [exact oL_fits|]. split; [reflexivity|]. split; [exact seven_ok|]. split; [exact small_eps|]. split; [exact qe_box|]. split.
  2: { pose proof low_ends as E. destruct (cutting_plane_optim lowpass_assess _ (qopt 2) oL qe _) as [[[[o' e'] ga] [[x|] k]]|]; try discriminate. apply andb_true_iff in E as [E E2]. apply Nat.eqb_eq in E. subst k. do 4 eexists. split; [reflexivity|]. exact (proj2 (between_val 2 3 ga ltac:(lia) ltac:(lia) E2)). }
  intros l o' e' ga' xb' A HL. cbn [qopt max_iters] in *.
  pose proof low_rounds as Q. destruct (lowpass_assess oL (e_xc qe) _) as [[[o1 ga1] [[g1 c1] []]]|] eqn:E1; try discriminate. destruct c1 as [b0 b1o]. cbn [pc_beta0 pc_beta1] in Q. destruct b1o as [b1|]; [|discriminate].
  destruct (apply_cut parallel_cut Bias qe _) as [[e1 []]|] eqn:S1; try discriminate. apply andb_true_iff in Q as [Q Q2]. split_and Q.
  destruct (lowpass_assess o1 (e_xc e1) ga1) as [[[o2 ga2] [[g2 c2] []]]|] eqn:E2; try discriminate. destruct c2 as [d0 b2o]. cbn [pc_beta0 pc_beta1] in Q2. destruct b2o as [b2|]; [|discriminate].
  destruct (apply_cut parallel_cut Central e1 _) as [[e2 []]|] eqn:S2; try discriminate. split_and Q2.
  repeat match goal with H : negb _ = true |- _ => apply negb_true_iff in H end. repeat match goal with H : Nat.eqb _ _ = true |- _ => apply Nat.eqb_eq in H end.
  apply gchk_ok in Q, Q2. pose proof small100 as [M1 M2].
  match goal with H : between 1 1 _ = true |- _ => apply between_val in H as [F0 V0]; [|lia|lia] end. match goal with H : between 8 8 _ = true |- _ => apply between_val in H as [F1 V1]; [|lia|lia] end.
  match goal with H : between 79 81 _ = true |- _ => apply between_val in H as [F2 V2]; [|lia|lia] end. match goal with H : between 0 0 _ = true |- _ => apply between_val in H as [F3 V3]; [|lia|lia] end.
  match goal with H : between 2 3 _ = true |- _ => apply between_val in H as [F4 V4]; [|lia|lia] end. match goal with H : between 20 24 _ = true |- _ => apply between_val in H as [F5 V5]; [|lia|lia] end.
  match goal with H : chk3 e1 = true |- _ => rename H into C1 end. match goal with H : chk3 e2 = true |- _ => rename H into C2 end. destruct (chk3_facts _ C1) as [KA KB].
  assert (L0 : bpow radix2 (-100) <= bpow radix2 (-20)) by (apply bpow_le; lia). change (bpow radix2 (-20)) with (/ 1048576) in L0.
  assert (MB0 : moderate_or_zero b0) by (split; [exact F0|right; lra]). assert (MB1 : moderate b1) by (split; [exact F1|lra]). assert (MB2 : moderate b2) by (split; [exact F4|lra]). assert (MD0 : moderate_or_zero d0) by (split; [exact F3|left; lra]).
  assert (SL1 : pair_slack 2 16 16 5 (fkap qe) 2 <= 1 / 1000). { unfold pair_slack. assert (slack 2 16 16 5 (fkap qe) <= / 1000000) by (apply slack_small; rewrite ?qe_kap; lra). lra. }
  assert (W1 : 2 * B2R b0 <= sqrt (B2R (e_tsq e1 : f64))) by (apply half_width; lra). assert (W2 : 2 * 0 <= sqrt (B2R (e_tsq e2 : f64))) by (apply half_width; lra).
  destruct (tame_slab qe Bias g1 b0 b1 e1 16 2 qe_tame Q SL1 MB0 MB1 (or_introl eq_refl) S1) as (T1 & R1 & D1); [unfold poff; cbn [pc_beta0]; lra|exact W1|unfold poff; cbn [pc_beta0]; split; [lra|nra]|assumption|lra|exact C1|].
  assert (SL2 : pair_slack 2 (16 / (11 * 2)) 16 5 (fkap e1) 6 <= 1 / 1000). { unfold pair_slack. assert (slack 2 (16 / (11 * 2)) 16 5 (fkap e1) <= / 100000) by (apply slack_tiny; lra). lra. }
  destruct (tame_slab e1 Central g2 d0 b2 e2 (16 / (11 * 2)) 6 R1 Q2 SL2 MD0 MB2 (or_intror eq_refl) S2) as (T2 & R2 & D2); [unfold poff; lra|exact W2|unfold poff; split; [lra|nra]|assumption|lra|exact C2|].
  assert (P0 : pair_run 2 (1 / 1000) 4 qe []) by (exists 16, 16, 5; exact qe_tame).
  assert (P1 : pair_run 2 (1 / 1000) 4 qe [(Bias, (g1, mkParallel (N := F) b0 (Some b1)))]).
  { split; [exact Q|]. split; [right; exact MB0|]. exists e1. split; [exact S1|]. split; [exact T1|]. split; [exact W1|]. split; [left; exact D1|]. do 3 eexists. exact R1. }
  assert (P2 : pair_run 2 (1 / 1000) 4 qe [(Bias, (g1, mkParallel (N := F) b0 (Some b1))); (Central, (g2, mkParallel (N := F) d0 (Some b2)))]).
  { split; [exact Q|]. split; [right; exact MB0|]. exists e1. split; [exact S1|]. split; [exact T1|]. split; [exact W1|]. split; [left; exact D1|].
    split; [exact Q2|]. split; [now left|]. exists e2. split; [exact S2|]. split; [exact T2|]. split; [exact W2|]. split; [left; exact D2|]. do 3 eexists. exact R2. }
  assert (B1 : in_box 2 5 (e_xc e1)) by (apply box_chk; assumption).
  inversion A as [|? ? ? ? oa gaa cut sh ea st rest ? ? ? ? X1 X2 X3 X4]; subst; [split; [exact P0|intros _; exact qe_box]|]. clear A.
  rewrite E1 in X1. inversion X1; subst oa gaa cut sh. clear X1. cbn [cut_mode] in *. assert (X5 := eq_trans (eq_sym S1) X2). inversion X5; subst ea st. clear X2 X5.
  inversion X4 as [|? ? ? ? ob gab cut sh eb st rest2 ? ? ? ? Y1 Y2 Y3 Y4]; subst; [split; [exact P1|intros _; exact B1]|]. clear X4.
  rewrite E2 in Y1. inversion Y1; subst ob gab cut sh. clear Y1. cbn [cut_mode] in *. assert (Y5 := eq_trans (eq_sym S2) Y2). inversion Y5; subst eb st. clear Y2 Y5.
  inversion Y4; subst; [split; [exact P2|cbn [length]; lia]|]. cbn [length] in HL. lia.
Qed.
(** one call each way: a cut, and an acceptance *)
Lemma low_calls_case : match lowpass_feas oL (e_xc qe) with Ok (_, Some _) => true | _ => false end = true /\ match lowpass_feas oL (ints [3; 1]%Z) with Ok (_, None) => true | _ => false end = true.
Proof. split; vm_compute; reflexivity. Qed.
Lemma box31 : in_box 2 5 (ints [3; 1]%Z : Arr F).
Proof.
  assert (B : 1000 <= bpow radix2 200). { eapply Rle_trans; [apply small100|]. apply bpow_le. lia. }
  split; [split; reflexivity|]. split; [repeat constructor|]. split; [lra|]. intros [|[|i]] Hi; [| |lia]; unfold fcoords; cbn [ints a_from adata map nth]; rewrite int_val by lia; apply Rabs_le; lra.
Qed.
