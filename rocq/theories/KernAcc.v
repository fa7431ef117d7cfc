(** Inner product and matrix-vector product in binary64 (C100). *)
From Coq Require Import ZArith Reals Lra Lia Bool Psatz Arith List.
From Flocq Require Import Core IEEE754.BinarySingleNaN.
From Verif Require Import Num Res Arr ArrLemmas Spec RealLin FloatLemmas FloatErr StepAccSpec Replay.
Import ListNotations.
Local Open Scope R_scope.
#[local] Opaque fadd fsub fmul fdiv fsqrt fofZ.

Lemma nu8 n : (Z.of_nat n <= 2 ^ 26)%Z -> 8 * INR n * uu <= 1.
Proof.
  intros H. assert (A : INR n <= bpow radix2 26). { rewrite INR_IZR_INZ. change (bpow radix2 26) with (IZR (2 ^ 26)). now apply IZR_le. }
  assert (B : INR n * uu <= bpow radix2 (-27)). { change (-27)%Z with (26 + -53)%Z. rewrite bpow_plus. apply Rmult_le_compat_r; [apply bpow_ge_0|auto]. }
  assert (C : bpow radix2 (-27) <= bpow radix2 (-3)) by (apply bpow_le; lia). change (bpow radix2 (-3)) with (/ 8) in C. lra.
Qed.
Section S.
Variable lm : Libm.
Notation F := (FNum lm).
Lemma vget_fin (a : Arr F) i : all_finite a -> (i < length (adata a))%nat -> fin (vget a i : f64) = true.
Proof. intros A Hi. unfold all_finite in A. rewrite Forall_forall in A. apply A. unfold vget. apply nth_In. auto. Qed.
Lemma dot_f64 n (a b : Arr F) (r : f64) : (Z.of_nat n <= 2 ^ 26)%Z -> is_vec n a -> is_vec n b -> a_dot a b = Ok r -> is_finite r = true ->
  Rabs (B2R r - dot n (fcoords a) (fcoords b)) <= 3 * INR n * uu * Rsum n (fun i => Rabs (fcoords a i * fcoords b i)) + 4 * INR n * ee.
Proof.
  intros Hn Ha Hb E Hr. rewrite (a_dot_ok n a b Ha Hb) in E. injection E as <-.
  exact (accum_err_z lm (nsum0 (n := F)) (fun i => vget a i) (fun i => vget b i) eq_refl n Hr (nu8 n Hn)).
Qed.
Lemma dot_finite n (a b : Arr F) : (Z.of_nat n <= 2 ^ 26)%Z -> is_vec n a -> is_vec n b -> all_finite a -> all_finite b ->
  (forall i, (i < n)%nat -> Rabs (fcoords a i * fcoords b i) <= bpow radix2 600) -> exists r : f64, a_dot a b = Ok r /\ is_finite r = true.
Proof.
  intros Hn Ha Hb Fa Fb H. rewrite (a_dot_ok n a b Ha Hb). eexists. split; [reflexivity|].
  apply (accum_small lm (nsum0 (n := F)) (fun i => vget a i) (fun i => vget b i) eq_refl eq_refl n Hn). intros k Hk. destruct Ha as [La _]. destruct Hb as [Lb _].
  split; [apply vget_fin; auto; lia|]. split; [apply vget_fin; auto; lia|exact (H k Hk)].
Qed.
Lemma mv_f64 r c (a x y : Arr F) i : (Z.of_nat c <= 2 ^ 26)%Z -> (0 < c)%nat -> is_mat r c a -> is_vec c x -> a_dot_mv a x = Ok y -> (i < r)%nat ->
  is_finite (nth i (adata y) (n0 (N := F)) : f64) = true ->
  Rabs (fcoords y i - Rsum c (fun j => fentry c a i j * fcoords x j)) <= 3 * INR c * uu * Rsum c (fun j => Rabs (fentry c a i j * fcoords x j)) + 4 * INR c * ee.
Proof.
  intros Hc H0 Ha Hx E Hi Hf. rewrite (a_dot_mv_ok r c a x H0 Ha Hx) in E. injection E as <-. unfold fcoords at 1. cbn [adata] in Hf |- *.
  rewrite (nth_indep _ _ ((fun i => accum (n0 (N := F)) (fun j => nmul (n := F) (mget c (adata a) i j) (vget x j)) c) 0%nat)) in Hf |- * by (rewrite map_length, seq_length; auto).
  rewrite (map_nth (fun i => accum (n0 (N := F)) (fun j => nmul (n := F) (mget c (adata a) i j) (vget x j)) c)) in Hf |- *. rewrite seq_nth in Hf |- * by auto. cbn [Nat.add] in Hf |- *.
  exact (accum_err lm (fun j => mget c (adata a) i j) (fun j => vget x j) c Hf (nu8 c Hc)).
Qed.
End S.

(** the hypotheses are met by small integer vectors *)
Definition kx : Arr F := ints [3; -7; 2]%Z.
Definition ky : Arr F := ints [5; 1; -4]%Z.
Lemma k_case : is_vec 3 kx /\ is_vec 3 ky /\ all_finite kx /\ all_finite ky /\ (forall i, (i < 3)%nat -> Rabs (fcoords kx i * fcoords ky i) <= bpow radix2 600) /\ a_dot kx ky = Ok (fofZ 0).
Proof.
  assert (V : forall k, (Z.abs k <= 100)%Z -> B2R (fofZ k) = IZR k) by (intros k Hk; exact (proj1 (fofZ_small k ltac:(lia)))).
  assert (B : 100 <= bpow radix2 600). { apply Rle_trans with (bpow radix2 7); [change (bpow radix2 7) with 128; lra|apply bpow_le; lia]. }
  split; [split; reflexivity|]. split; [split; reflexivity|]. split; [repeat constructor|]. split; [repeat constructor|]. split.
  - intros i Hi. destruct i as [|[|[|]]]; [| | |lia]; unfold fcoords; cbn [kx ky ints a_from adata map nth]; rewrite !V by lia; apply Rabs_le; lra.
  - vm_compute. reflexivity.
Qed.
