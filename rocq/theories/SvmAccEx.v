(** A case for C124: the data of the unit test. *)
From Coq Require Import ZArith Reals Lra Lia List Bool Arith.
From Flocq Require Import Core IEEE754.BinarySingleNaN.
From Verif Require Import Num Res Arr ArrLemmas CuttingPlane Spec LmiSpec FloatLemmas StepAccSpec Svm SvmSpec SvmAccSpec.
Import ListNotations.
Local Open Scope R_scope.
#[local] Opaque fadd fsub fmul fdiv fsqrt fofZ.

Notation F0 := (FNum lm0).
Notation svm_data0 := (mkArr (N := F0) [nZ 1; nZ 0; nZ (-1); nZ 0] 2 2).
Notation svm_x0 := (mkArr (N := F0) [nZ 1; nZ 0; nZ 0] 3 0).
Lemma small_val z : (Z.abs z <= 1)%Z -> Rabs (B2R (fofZ z)) <= 1 /\ is_finite (fofZ z) = true.
Proof. intros Hz. destruct (fofZ_small z ltac:(lia)) as [-> Fi]. split; [|exact Fi]. rewrite <- abs_IZR. apply IZR_le. exact Hz. Qed.
Lemma one_300 : 1 <= bpow radix2 300. Proof. replace 1 with (bpow radix2 0) by reflexivity. apply bpow_le. lia. Qed.
Lemma svm_case_range : svm_range 2 2 1 1 svm_data0 [1; -1]%Z svm_x0.
Proof.
  split; try lia; try (cbn; lia); try apply one_300.
  - repeat split.
  - repeat constructor; apply small_val; lia.
  - intros i j Hi Hj. unfold fentry. destruct i as [|[|i]]; [| |lia]; (destruct j as [|[|j]]; [| |lia]); cbn [Nat.mul Nat.add adata nth]; apply small_val; lia.
  - intros i Hi. destruct i as [|[|i]]; [left; reflexivity|right; reflexivity|lia].
  - repeat constructor; apply small_val; lia.
  - intros j Hj. unfold fcoords. destruct j as [|[|[|j]]]; [| | |lia]; cbn [adata nth]; apply small_val; lia.
Qed.
Definition svm_is (o : Svm F0) (x : Arr F0) (ga : F0) : bool :=
  match svm_assess o x n0 with Ok (_, ga', ((_, c), true)) => neqb ga' ga && neqb (sc_beta c) ga | _ => false end.
Lemma svm_case_run : svm_is (svm_new svm_data0 [1; -1]%Z) svm_x0 (nZ 0) = true /\ svm_is (svm_new svm_data0 [1; -1]%Z) (mkArr (N := F0) [nlit 5 (-1); nZ 0; nZ 0] 3 0) (nlit 5 (-1)) = true.
Proof. vm_compute. split; reflexivity. Qed.
