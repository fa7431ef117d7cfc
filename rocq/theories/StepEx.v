(** A concrete ellipsoid and a concrete cut for the step in binary64. *)
From Coq Require Import ZArith Reals Lra Lia Bool Psatz List.
From Flocq Require Import Core IEEE754.BinarySingleNaN.
From Verif Require Import Num Res Arr CuttingPlane EllCalc Ell Spec RealLin FloatLemmas AccSpec StepAccSpec Replay.
Import ListNotations.
Local Open Scope R_scope.

(** the ellipsoid with shape matrix [[4,1],[1,2]] around (1,-3), and the cut
    2 (x_0 - 1) - (x_1 + 3) + 1 <= 0 *)
Definition se : Ell F := ell_from_covariance (N := F) (mkArr (N := F) (map fofZ [4; 1; 1; 2]%Z) 2 2) (ints [1; -3]%Z).
Definition sg : Arr F := ints [2; -1]%Z.
Lemma int_val k : (Z.abs k <= 100)%Z -> B2R (fofZ k) = IZR k.
Proof. intros H. exact (proj1 (fofZ_small k ltac:(lia))). Qed.
Lemma small100 : bpow radix2 (-100) <= 1 / 1000 /\ 1000 <= bpow radix2 100.
Proof.
  assert (A : bpow radix2 (-100) <= bpow radix2 (-10)) by (apply bpow_le; lia). assert (B : bpow radix2 10 <= bpow radix2 100) by (apply bpow_le; lia).
  change (bpow radix2 (-10)) with (/ 1024) in A. change (bpow radix2 10) with 1024 in B. lra.
Qed.
Lemma se_shape i j : (i < 2)%nat -> (j < 2)%nat -> fshape 2 se i j = match i, j with 0%nat, 0%nat => 4 | 1%nat, 1%nat => 2 | _, _ => 1 end.
Proof.
  intros Hi Hj. destruct i as [|[|]]; [| |lia]; (destruct j as [|[|]]; [| |lia]); unfold fshape; cbn [se ell_from_covariance ell_new_with_matrix e_mq adata map nth Nat.mul Nat.add]; apply int_val; lia.
Qed.
Lemma se_tame : tame 2 se 1 4 3.
Proof.
  pose proof small100 as [A B]. assert (K : fkap se = 1) by (apply (int_val 1); lia). split.
  - split; [lia|]. vm_compute. discriminate.
  - repeat split.
  - reflexivity.
  - reflexivity.
  - reflexivity.
  - split; repeat constructor.
  - split; [reflexivity|]. change (B2R (e_kappa se : f64)) with (fkap se). rewrite K. lra.
  - intros i j Hi Hj. rewrite !se_shape by auto. destruct i as [|[|]]; [| |lia]; (destruct j as [|[|]]; [| |lia]); reflexivity.
  - split; [lra|]. intros z. unfold quad, mulmv, dot. cbn [Rsum]. rewrite !se_shape by lia. nra.
  - split; [lra|]. intros i j Hi Hj. rewrite se_shape by auto. destruct i as [|[|]]; [| |lia]; (destruct j as [|[|]]; [| |lia]); rewrite Rabs_pos_eq; lra.
  - split; [lra|]. intros i Hi. destruct i as [|[|]]; [| |lia]; unfold fcoords; cbn [se ell_from_covariance ell_new_with_matrix e_xc ints a_from adata map nth]; rewrite int_val by lia; apply Rabs_le; lra.
Qed.
Lemma sg_ok : grad_ok 2 sg.
Proof.
  assert (B : 1000 <= bpow radix2 200). { eapply Rle_trans; [apply small100|]. apply bpow_le. lia. }
  split; [reflexivity|]. split; [reflexivity|]. split; [repeat constructor|].
  intros i Hi. destruct i as [|[|]]; [| |lia]; unfold fcoords; cbn [sg ints a_from adata map nth]; rewrite int_val by lia; apply Rabs_le; lra.
Qed.
Lemma se_slack : slack 2 1 4 3 (fkap se) <= 1 / 10.
Proof.
  assert (K : fkap se = 1) by (apply (int_val 1); lia). rewrite K. unfold slack. cbn [INR].
  assert (S : sqrt ((1 + 1) / (1 * 1)) <= 2). { rewrite <- (sqrt_square 2) by lra. apply sqrt_le_1; lra. }
  pose proof (sqrt_pos ((1 + 1) / (1 * 1))). set (s := sqrt ((1 + 1) / (1 * 1))) in *.
  assert (U : bpow radix2 (-53) <= bpow radix2 (-30)) by (apply bpow_le; lia). change (bpow radix2 (-30)) with (/ 1073741824) in U. pose proof (bpow_gt_0 radix2 (-53)).
  apply Rle_trans with (/ 1073741824 * (3200 * ((1 + 1) * (1 + 1)) * (4 / 1) + 20 * (3 * s))); [apply Rmult_le_compat_r; [|exact U]|]; lra.
Qed.
Definition between (lo hi : Z) (x : f64) : bool := is_finite x && Bleb (fofZ lo) x && Bleb x (fofZ hi).
Lemma between_val lo hi x : (Z.abs lo <= 100)%Z -> (Z.abs hi <= 100)%Z -> between lo hi x = true -> is_finite x = true /\ IZR lo <= B2R x <= IZR hi.
Proof.
  intros H1 H2 H. unfold between in H. apply andb_true_iff in H as [H H3]. apply andb_true_iff in H as [H H4].
  destruct (fofZ_small lo ltac:(lia)) as [E1 G1]. destruct (fofZ_small hi ltac:(lia)) as [E2 G2]. split; [exact H|].
  rewrite fleb_fin in H3, H4 by auto. rewrite E1 in H4. rewrite E2 in H3. revert H3 H4. do 2 (case Rle_bool_spec; [|discriminate]). auto.
Qed.
Lemma se_ends (r : res (Ell F * CutStatus)) : match r with Ok (e', Success) => between 4 100 (e_tsq e') = true | _ => False end ->
  exists e', r = Ok (e', Success) /\ moderate (e_tsq e') /\ 2 * B2R (fofZ 1) <= sqrt (B2R (e_tsq e' : f64)).
Proof.
  pose proof small100 as [A B]. destruct r as [[e' []]|]; try contradiction. intros K. destruct (between_val 4 100 _ ltac:(lia) ltac:(lia) K) as [K1 K2]. exists e'. split; [reflexivity|].
  split; [split; [exact K1|lra]|]. rewrite int_val by lia. rewrite <- (sqrt_square (2 * 1)) by lra. apply sqrt_le_1; lra.
Qed.
Definition sb_cut : SingleCut F := mkSingle (N := F) (fofZ 1).
Lemma step_case : tame 2 se 1 4 3 /\ grad_ok 2 sg /\ slack 2 1 4 3 (fkap se) <= 1 / 10 /\ moderate_or_zero (fofZ 1) /\
  (exists e', ell_update_central single_cut se (sg, sb_cut) = Ok (e', Success) /\ moderate (e_tsq e') /\ 2 * B2R (fofZ 1) <= sqrt (B2R (e_tsq e' : f64))) /\
  (exists e', ell_update_bias single_cut se (sg, sb_cut) = Ok (e', Success) /\ moderate (e_tsq e') /\ 2 * B2R (fofZ 1) <= sqrt (B2R (e_tsq e' : f64))) /\
  (exists e', ell_update_q single_cut se (sg, sb_cut) = Ok (e', Success) /\ moderate (e_tsq e') /\ 2 * B2R (fofZ 1) <= sqrt (B2R (e_tsq e' : f64))).
Proof.
  split; [exact se_tame|]. split; [exact sg_ok|]. split; [exact se_slack|]. split.
  { split; [reflexivity|]. right. rewrite int_val by lia. pose proof small100. lra. }
  split; [|split]; apply se_ends; vm_compute; reflexivity.
Qed.
