(** C95: the switch [use_parallel_cut] of the cut calculator. *)
From Coq Require Import ZArith Reals List Bool Lra.
From Flocq Require Import Core IEEE754.BinarySingleNaN.
From Verif Require Import Num Res CuttingPlane EllCalc.
Import ListNotations.

Section Flag.
Context {N : Num}.
(** The calculator of dimension [n] with the switch in the given position: what
    [let mut c = EllCalc::new(n); c.use_parallel_cut = flag] builds. *)
Definition calc_with (n : nat) (flag : bool) : EllCalc N :=
  mkCalc (ec_n_f (calc_new n)) (ec_helper (calc_new n)) flag.

Lemma with_on n : calc_with n true = calc_new n.
Proof. reflexivity. Qed.

Lemma off_bias n (b0 b1 tsq : N) :
  calc_single_or_parallel_bias_cut (calc_with n false) (mkParallel b0 (Some b1)) tsq =
  if nltb b1 b0 then (NoSoln, (n0, n0, n0)) else calc_single_or_parallel_bias_cut (calc_new n) (mkParallel b0 None) tsq.
Proof.
  cbn. unfold calc_parallel_bias_cut. cbn. rewrite orb_true_r. reflexivity.
Qed.
Lemma off_q n (b0 b1 tsq : N) :
  calc_single_or_parallel_q (calc_with n false) (mkParallel b0 (Some b1)) tsq =
  if nltb b1 b0 then (NoSoln, (n0, n0, n0)) else calc_single_or_parallel_q (calc_new n) (mkParallel b0 None) tsq.
Proof.
  cbn. unfold calc_parallel_q. cbn. rewrite orb_true_r. reflexivity.
Qed.
Lemma off_central n (b0 b1 tsq : N) :
  calc_single_or_parallel_central_cut (calc_with n false) (mkParallel b0 (Some b1)) tsq =
  if nltb b1 n0 then (NoSoln, (n0, n0, n0)) else calc_single_or_parallel_central_cut (calc_new n) (mkParallel b0 None) tsq.
Proof.
  cbn. unfold calc_parallel_central_cut. cbn. rewrite orb_true_r. reflexivity.
Qed.
Lemma flag_single n flag (b0 tsq : N) :
  calc_single_or_parallel_bias_cut (calc_with n flag) (mkParallel b0 None) tsq = calc_single_or_parallel_bias_cut (calc_new n) (mkParallel b0 None) tsq /\
  calc_single_or_parallel_q (calc_with n flag) (mkParallel b0 None) tsq = calc_single_or_parallel_q (calc_new n) (mkParallel b0 None) tsq /\
  calc_single_or_parallel_central_cut (calc_with n flag) (mkParallel b0 None) tsq = calc_single_or_parallel_central_cut (calc_new n) (mkParallel b0 None) tsq.
Proof. auto. Qed.
End Flag.
