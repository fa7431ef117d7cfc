(** Two concrete matrices for the LDL' factorisation in binary64. *)
From Coq Require Import ZArith Reals Lra Lia Bool List.
From Flocq Require Import Core IEEE754.BinarySingleNaN.
From Verif Require Import Num Res Arr Spec RealLin Ldlt LdltSpec LdltProofs LdltFloat FloatLemmas LdltAccSpec Replay.
Import ListNotations.
Local Open Scope R_scope.

(** 2^700, 1 and 2^-400 *)
Definition p700 : f64 := @B754_finite fprec femax false 4503599627370496 648 eq_refl.
Definition p0 : f64 := @B754_finite fprec femax false 4503599627370496 (-52) eq_refl.
Definition m400 : f64 := @B754_finite fprec femax false 4503599627370496 (-452) eq_refl.
Definition z0 : f64 := B754_zero false.
Lemma p700_val : B2R p700 = bpow radix2 700.
Proof. change (IZR (2 ^ 52) * bpow radix2 648 = bpow radix2 700). change (IZR (2 ^ 52)) with (bpow radix2 52). now rewrite <- bpow_plus. Qed.
Lemma p0_val : B2R p0 = 1.
Proof. change (IZR (2 ^ 52) * bpow radix2 (-52) = bpow radix2 0). change (IZR (2 ^ 52)) with (bpow radix2 52). now rewrite <- bpow_plus. Qed.
Lemma m400_val : B2R m400 = bpow radix2 (-400).
Proof. change (IZR (2 ^ 52) * bpow radix2 (-452) = bpow radix2 (-400)). change (IZR (2 ^ 52)) with (bpow radix2 52). now rewrite <- bpow_plus. Qed.

(** [[2^-400, 0, 2^700], [0, 1, 0], [2^700, 0, 1]] *)
Definition ovf (i j : nat) : f64 := nth (i * 3 + j) [m400; z0; p700; z0; p0; z0; p700; z0; p0] z0.
Lemma ovf_wrong : (forall i j, (i < 3)%nat -> (j < 3)%nat -> is_finite (ovf i j) = true) /\ sym 3 (real_of ovf) /\ moderate_diag 3 ovf /\
  (exists m', ldlt_factor (N := F) (fun i j => Ok (ovf i j)) (ldlt_new 3) = Ok (m', true)) /\
  ~ pd 3 (diag_by 1000000 (real_of ovf)).
Proof.
  assert (B1 : 0 < bpow radix2 (-400) <= 1) by (split; [apply bpow_gt_0|apply (bpow_le radix2 (-400) 0); lia]).
  assert (B2 : 1 <= bpow radix2 400) by (apply (bpow_le radix2 0 400); lia).
  assert (B3 : IZR (2 ^ 30) <= bpow radix2 700) by (apply (bpow_le radix2 30 700); lia).
  change (2 ^ 30)%Z with 1073741824%Z in B3.
  split; [|split; [|split; [|split]]].
  - intros i j Hi Hj. destruct i as [|[|[|]]]; [| | |lia]; (destruct j as [|[|[|]]]; [| | |lia]); reflexivity.
  - intros i j Hi Hj. destruct i as [|[|[|]]]; [| | |lia]; (destruct j as [|[|[|]]]; [| | |lia]); reflexivity.
  - intros i Hi. destruct i as [|[|[|]]]; [| | |lia]; cbn [ovf nth Nat.mul Nat.add]; rewrite ?m400_val, ?p0_val; lra.
  - assert (K : match ldlt_factor (N := F) (fun i j => Ok (ovf i j)) (ldlt_new 3) with Ok (_, b) => b = true | Panic => False end) by (vm_compute; reflexivity).
    destruct (ldlt_factor (N := F) (fun i j => Ok (ovf i j)) (ldlt_new 3)) as [[m' b]|]; [|destruct K]. exists m'. now rewrite K.
  - intros PD. specialize (PD (fun i => match i with 0%nat => 1 | 1%nat => 0 | _ => -1 end)). enough (1000001 * bpow radix2 (-400) - 2 * bpow radix2 700 + 1000001 > 0) by lra. refine (Rlt_le_trans _ _ _ (PD _) _); [exists 0%nat; split; [lia|lra]|]. clear PD. unfold diag_by, real_of, quad, mulmv, dot. cbn [Rsum ovf nth Nat.mul Nat.add Nat.eqb]. rewrite ?m400_val, ?p0_val, ?p700_val. change (B2R z0) with 0. lra.
Qed.

(** A positive definite example and one that is not. *)
Definition gd (i j : nat) : f64 := nth (i * 3 + j) (map fofZ [25; 15; -5; 15; 18; 0; -5; 0; 11]%Z) z0.
Definition bd (i j : nat) : f64 := nth (i * 2 + j) (map fofZ [1; 2; 2; 1]%Z) z0.
Lemma small_range k : (1 <= k <= 100)%Z -> bpow radix2 (-400) <= B2R (fofZ k) <= bpow radix2 400.
Proof.
  intros Hk. destruct (fofZ_small k ltac:(lia)) as [E _]. change (val (fofZ k)) with (B2R (fofZ k)) in E. rewrite E. assert (IZR 1 <= IZR k <= IZR 100) by (split; apply IZR_le; lia).
  assert (bpow radix2 (-400) <= 1) by (apply (bpow_le radix2 (-400) 0); lia). assert (128 <= bpow radix2 400) by (apply (bpow_le radix2 7 400); lia). lra.
Qed.
Lemma gd_case : sym 3 (real_of gd) /\ moderate_diag 3 gd /\
  exists m', ldlt_factor (N := F) (fun i j => Ok (gd i j)) (ldlt_new 3) = Ok (m', true) /\ forall i, (i < 3)%nat -> is_finite (pivot 3 m' i) = true.
Proof.
  split; [|split].
  - intros i j Hi Hj. destruct i as [|[|[|]]]; [| | |lia]; (destruct j as [|[|[|]]]; [| | |lia]); reflexivity.
  - intros i Hi. destruct i as [|[|[|]]]; [| | |lia]; cbn [gd nth map Nat.mul Nat.add]; apply small_range; lia.
  - assert (K : match ldlt_factor (N := F) (fun i j => Ok (gd i j)) (ldlt_new 3) with Ok (m', b) => b = true /\ is_finite (pivot 3 m' 0) = true /\ is_finite (pivot 3 m' 1) = true /\ is_finite (pivot 3 m' 2) = true | Panic => False end) by (vm_compute; auto).
    destruct (ldlt_factor (N := F) (fun i j => Ok (gd i j)) (ldlt_new 3)) as [[m' b]|]; [|destruct K]. destruct K as (-> & K0 & K1 & K2). exists m'. split; auto.
    intros i Hi. destruct i as [|[|[|]]]; auto; lia.
Qed.
Lemma bd_case : sym 2 (real_of bd) /\ moderate_diag 2 bd /\
  exists m', ldlt_factor (N := F) (fun i j => Ok (bd i j)) (ldlt_new 2) = Ok (m', false) /\ forall i, (i < snd (l_pos m'))%nat -> is_finite (pivot 2 m' i) = true.
Proof.
  split; [|split].
  - intros i j Hi Hj. destruct i as [|[|]]; [| |lia]; (destruct j as [|[|]]; [| |lia]); reflexivity.
  - intros i Hi. destruct i as [|[|]]; [| |lia]; cbn [bd nth map Nat.mul Nat.add]; apply small_range; lia.
  - assert (K : match ldlt_factor (N := F) (fun i j => Ok (bd i j)) (ldlt_new 2) with Ok (m', b) => b = false /\ snd (l_pos m') = 2%nat /\ is_finite (pivot 2 m' 0) = true /\ is_finite (pivot 2 m' 1) = true | Panic => False end) by (vm_compute; auto).
    destruct (ldlt_factor (N := F) (fun i j => Ok (bd i j)) (ldlt_new 2)) as [[m' b]|]; [|destruct K]. destruct K as (-> & K0 & K1 & K2). exists m'. split; auto.
    intros i Hi. rewrite K0 in Hi. destruct i as [|[|]]; auto; lia.
Qed.
