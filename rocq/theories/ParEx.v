(** Concrete pairs of cuts for the step in binary64 (C109). *)
From Coq Require Import ZArith Reals Lra Lia Bool List.
From Flocq Require Import Core IEEE754.BinarySingleNaN.
From Verif Require Import Num Res Arr CuttingPlane EllCalc Ell Spec FloatLemmas AccSpec StepAccSpec ParAccSpec Replay StepEx.
Import ListNotations.
Local Open Scope R_scope.

(** the ellipsoid of StepEx; the cuts at the depths 1 and 3 (inside, the half width is
    sqrt 14) and at the depths 1 and 4 (the second one outside) *)
Definition p_in : ParallelCut F := mkParallel (N := F) (fofZ 1) (Some (fofZ 3)).
Definition p_far : ParallelCut F := mkParallel (N := F) (fofZ 1) (Some (fofZ 4)).
Definition p_one : ParallelCut F := mkParallel (N := F) (fofZ 1) None.
Lemma se_pair_slack : pair_slack 2 1 4 3 (fkap se) 4 <= 1 / 10.
Proof.
  assert (K : fkap se = 1) by (apply (int_val 1); lia). rewrite K. unfold pair_slack, slack. cbn [INR].
  assert (S : sqrt ((1 + 1) / (1 * 1)) <= 2). { rewrite <- (sqrt_square 2) by lra. apply sqrt_le_1; lra. }
  pose proof (sqrt_pos ((1 + 1) / (1 * 1))). set (s := sqrt ((1 + 1) / (1 * 1))) in *.
  assert (U : bpow radix2 (-53) <= bpow radix2 (-30)) by (apply bpow_le; lia). change (bpow radix2 (-30)) with (/ 1073741824) in U. pose proof (bpow_gt_0 radix2 (-53)).
  apply Rle_trans with (4 * 4 * (/ 1073741824 * (3200 * ((1 + 1) * (1 + 1)) * (4 / 1) + 20 * (3 * s)))); [|lra]. apply Rmult_le_compat_l; [lra|]. apply Rmult_le_compat_r; [|exact U]; lra.
Qed.
Definition fourteen (x : f64) : bool := Beqb x (fofZ 14).
Lemma fourteen_ok (x : f64) : is_finite x = true -> fourteen x = true -> B2R x = 14.
Proof.
  intros H K. unfold fourteen in K. destruct (fofZ_small 14 ltac:(lia)) as [E G]. rewrite Beqb_correct in K by auto. rewrite E in K. revert K. case Req_bool_spec; [auto|discriminate].
Qed.
Definition ok14 (b1 : f64) (out : bool) (r : res (Ell F * CutStatus)) : bool :=
  match r with Ok (e', Success) => is_finite (e_tsq e' : f64) && fourteen (e_tsq e') && Bool.eqb (Bleb (e_tsq e') (fmul b1 b1)) out | _ => false end.
Lemma in_ends (b1 : f64) out (r : res (Ell F * CutStatus)) : ok14 b1 out r = true ->
  exists e', r = Ok (e', Success) /\ moderate (e_tsq e') /\ 2 * B2R (fofZ 1) <= sqrt (B2R (e_tsq e' : f64)) /\ thick (B2R (e_tsq e' : f64)) (B2R (fofZ 1)) (B2R (fofZ 3)) 4 /\ thick (B2R (e_tsq e' : f64)) 0 (B2R (fofZ 3)) 4 /\ Bleb (e_tsq e') (fmul b1 b1) = out.
Proof.
  pose proof small100 as [A B]. unfold ok14. destruct r as [[e' []]|]; try discriminate. intros K. apply andb_true_iff in K as [K K3]. apply andb_true_iff in K as [K1 K2]. exists e'. split; [reflexivity|].
  pose proof (fourteen_ok _ K1 K2) as E. split; [split; [exact K1|lra]|]. rewrite E, !int_val by lia. split; [rewrite <- (sqrt_square (2 * 1)) by lra; apply sqrt_le_1; lra|].
  split; [split; lra|]. split; [split; lra|]. apply eqb_prop. exact K3.
Qed.
Lemma par_case : tame 2 se 1 4 3 /\ grad_ok 2 sg /\ pair_slack 2 1 4 3 (fkap se) 4 <= 1 / 10 /\ slack 2 1 4 3 (fkap se) <= 1 / 10 /\
  moderate_or_zero (fofZ 1) /\ moderate (fofZ 3) /\ moderate (fofZ 4) /\ B2R (fofZ 1) < B2R (fofZ 3) /\
  (forall u, In u [ell_update_bias parallel_cut se (sg, p_in); ell_update_q parallel_cut se (sg, p_in); ell_update_central parallel_cut se (sg, p_in)] ->
   exists e', u = Ok (e', Success) /\ moderate (e_tsq e') /\ 2 * B2R (fofZ 1) <= sqrt (B2R (e_tsq e' : f64)) /\ thick (B2R (e_tsq e' : f64)) (B2R (fofZ 1)) (B2R (fofZ 3)) 4 /\ thick (B2R (e_tsq e' : f64)) 0 (B2R (fofZ 3)) 4 /\ Bleb (e_tsq e') (fmul (fofZ 3) (fofZ 3)) = false) /\
  (forall u, In u [ell_update_bias parallel_cut se (sg, p_far); ell_update_q parallel_cut se (sg, p_far); ell_update_central parallel_cut se (sg, p_far)] ->
   exists e', u = Ok (e', Success) /\ moderate (e_tsq e') /\ 2 * B2R (fofZ 1) <= sqrt (B2R (e_tsq e' : f64)) /\ thick (B2R (e_tsq e' : f64)) (B2R (fofZ 1)) (B2R (fofZ 3)) 4 /\ thick (B2R (e_tsq e' : f64)) 0 (B2R (fofZ 3)) 4 /\ Bleb (e_tsq e') (fmul (fofZ 4) (fofZ 4)) = true) /\
  (forall u, In u [ell_update_bias parallel_cut se (sg, p_one); ell_update_q parallel_cut se (sg, p_one); ell_update_central parallel_cut se (sg, p_one)] ->
   exists e', u = Ok (e', Success) /\ moderate (e_tsq e') /\ 2 * B2R (fofZ 1) <= sqrt (B2R (e_tsq e' : f64)) /\ thick (B2R (e_tsq e' : f64)) (B2R (fofZ 1)) (B2R (fofZ 3)) 4 /\ thick (B2R (e_tsq e' : f64)) 0 (B2R (fofZ 3)) 4 /\ Bleb (e_tsq e') (fmul (fofZ 4) (fofZ 4)) = true).
Proof.
  pose proof small100 as [A B]. split; [exact se_tame|]. split; [exact sg_ok|]. split; [exact se_pair_slack|]. split; [exact se_slack|].
  split. { split; [reflexivity|]. right. rewrite int_val by lia. lra. }
  split. { split; [reflexivity|]. rewrite int_val by lia. lra. }
  split. { split; [reflexivity|]. rewrite int_val by lia. lra. }
  split. { rewrite !int_val by lia. lra. }
  split; [|split]; intros u H; repeat (destruct H as [<-|H]; [apply in_ends; vm_compute; reflexivity|]); destruct H.
Qed.
