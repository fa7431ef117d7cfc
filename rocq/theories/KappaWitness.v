(** Binary64 computations around the sign of kappa. *)
From Coq Require Import ZArith Reals Floats.SpecFloat List Bool Arith Lia Lra.
From Flocq Require Import Core IEEE754.BinarySingleNaN.
From Verif Require Import Num Res Arr CuttingPlane EllCalc Ell Replay EllRun KappaSpec FloatLemmas Examples.
Import ListNotations.

(** 2^-537 and 1.1 * 2^-537 *)
Definition tiny : f64 := fdiv (fofZ 1) (fofZ (2 ^ 537)).
Definition tiny_beta : f64 := fmul (fdiv (fofZ 11) (fofZ 10)) tiny.

(** A ball of radius 1 in the plane, the gradient (2^-537, 0), a cut whose hyperplane
    misses the ball (distance 1.1 from the centre): the update says Success and kappa
    comes out negative. *)
Lemma tiny_negative :
  match (e <- ell_at 1 (ints [0; 0]%Z) ;; ell_update_bias single_cut e (a_from (N := F) [tiny; fofZ 0], mkSingle (N := F) tiny_beta)) with
  | Ok (e', st) => is_success st = true /\ Bltb (e_kappa e' : f64) (fofZ 0) = true
  | Panic => False
  end.
Proof. vm_compute. auto. Qed.

(** One dimension: the interval [-1, 1], two parallel cuts through 0 and 0.03 in
    direction 1.  Kappa comes out around -9e15. *)
Lemma one_negative :
  match (e <- ell_at 1 (ints [0]%Z) ;; ell_update_central parallel_cut e (ints [1]%Z, mkParallel (N := F) (fofZ 0) (Some (flit 3 (-2))))) with
  | Ok (e', st) => is_success st = true /\ Bltb (e_kappa e' : f64) (fofZ (- 10 ^ 15)) = true
  | Panic => False
  end.
Proof. vm_compute. auto. Qed.

Lemma start_calc (N : Num) (v : N) (xc : Arr N) e : ell_new_with_scalar v xc = Ok e -> e_helper e = mkCalc (nN (a_len xc)) (core_new (nN (a_len xc))) true /\ e_kappa e = v.
Proof. intros E. unfold ell_new_with_scalar in E. apply bind_inv in E as (m & _ & E). inversion E; subst. split; reflexivity. Qed.

Lemma tiny_refuted : exists (e : Ell F) g (c : SingleCut F) (e' : Ell F), calc_of (lm := lm0) 2 (e_helper e) /\ clear (e_kappa e) /\ clear_single (lm := lm0) c /\
  apply_cut single_cut Bias e (g, c) = Ok (e', Success) /\ Bltb (e_kappa e' : f64) (fofZ 0) = true.
Proof.
  pose proof tiny_negative as T. destruct (ell_at 1 (ints [0; 0]%Z)) as [e|] eqn:E; [|destruct T]. cbv [bind] in T.
  exists e, (a_from (N := F) [tiny; fofZ 0]), (mkSingle (N := F) tiny_beta).
  destruct (ell_update_bias single_cut e (a_from (N := F) [tiny; fofZ 0], mkSingle (N := F) tiny_beta)) as [[e' st]|] eqn:Eu; [|destruct T]. exists e'.
  apply start_calc in E as [H1 H2]. split; [exists true; exact H1|]. split; [rewrite H2; reflexivity|]. split; [vm_compute; reflexivity|].
  destruct T as [T1 T2]. destruct st; try discriminate T1. split; [exact Eu|exact T2].
Qed.
Lemma one_refuted : exists (e : Ell F) g (c : ParallelCut F) (e' : Ell F), calc_of (lm := lm0) 1 (e_helper e) /\ clear (e_kappa e) /\ clear_parallel (lm := lm0) c /\
  apply_cut parallel_cut Central e (g, c) = Ok (e', Success) /\ Bltb (e_kappa e' : f64) (fofZ (- 10 ^ 15)) = true.
Proof.
  pose proof one_negative as T. destruct (ell_at 1 (ints [0]%Z)) as [e|] eqn:E; [|destruct T]. cbv [bind] in T.
  exists e, (ints [1]%Z), (mkParallel (N := F) (fofZ 0) (Some (flit 3 (-2)))).
  destruct (ell_update_central parallel_cut e (ints [1]%Z, mkParallel (N := F) (fofZ 0) (Some (flit 3 (-2))))) as [[e' st]|] eqn:Eu; [|destruct T]. exists e'.
  apply start_calc in E as [H1 H2]. split; [exists true; exact H1|]. split; [rewrite H2; reflexivity|]. split; [split; vm_compute; reflexivity|].
  destruct T as [T1 T2]. destruct st; try discriminate T1. split; [exact Eu|exact T2].
Qed.

Lemma new_calc (lm : Libm) (v : FNum lm) (xc : Arr (FNum lm)) e : ell_new_with_scalar v xc = Ok e -> calc_of (lm := lm) (a_len xc) (e_helper e) /\ e_kappa e = v.
Proof. intros E. apply start_calc in E as [H1 H2]. split; [exists true; exact H1|exact H2]. Qed.
Lemma new_vec_calc (lm : Libm) (v xc : Arr (FNum lm)) e : ell_new v xc = Ok e -> calc_of (lm := lm) (a_len xc) (e_helper e) /\ e_kappa e = n1 (N := FNum lm).
Proof. intros E. unfold ell_new in E. apply bind_inv in E as (m & _ & E). inversion E; subst. split; [exists true; reflexivity|reflexivity]. Qed.

(** the default tolerance *)
Lemma default_tolerance (lm : Libm) : is_finite (tolerance (options_default (N := FNum lm)) : f64) = true /\
  (bpow radix2 (-1000) <= B2R (tolerance (options_default (N := FNum lm)) : f64))%R.
Proof.
  set (t := (tolerance (options_default (N := FNum lm)) : f64)). assert (Ft : is_finite t = true) by (vm_compute; reflexivity). split; [exact Ft|].
  set (b := fdiv (fofZ 1) (fofZ (2 ^ 1000))). assert (Fb : is_finite b = true) by (vm_compute; reflexivity).
  assert (L : Bleb b t = true) by (vm_compute; reflexivity). rewrite (fleb_fin b t Fb Ft) in L. destruct (Rle_bool_spec (B2R b) (B2R t)); [|discriminate].
  replace (bpow radix2 (-1000)) with (B2R b); auto.
  assert (S : B2SF b = S754_finite false (2 ^ 52) (-1052)) by (vm_compute; reflexivity).
  destruct b as [s|s| |s m e Hb]; try discriminate S. cbn in S. inversion S; subst. unfold B2R, F2R. cbn [cond_Zopp Defs.Fnum Defs.Fexp].
  change (IZR (Z.pos (2 ^ 52)) * bpow radix2 (-1052) = bpow radix2 (-1000))%R.
  change (IZR (Z.pos (2 ^ 52))) with (bpow radix2 52). rewrite <- bpow_plus. reflexivity.
Qed.
