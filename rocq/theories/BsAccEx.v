(** Concrete cases for C118. *)
From Coq Require Import ZArith Reals Lra Lia Bool List.
From Flocq Require Import Core IEEE754.BinarySingleNaN.
From Verif Require Import Num Res CuttingPlane FloatLemmas FloatErr BsAccSpec Replay.
Local Open Scope R_scope.

(** Accepts from 3 on and counts the accepted probes. *)
Notation from3 := (fun (n : nat) (g : f64) => Ok ((if Bleb (fofZ 3) g then S n else n), Bleb (fofZ 3) g)).
Lemma from3_thr : threshold lm0 (from3 : OracleBS (FNum lm0) nat) 3.
Proof.
  intros b g. eexists _, _. split; [reflexivity|]. intros Fg.
  destruct (fofZ_small 3 ltac:(cbn; lia)) as [E F3]. rewrite (fleb_fin _ _ F3 Fg), E. reflexivity.
Qed.
(** On (0, 100): 33 probes with the tolerance 1e-8, all 2000 with the default options. *)
Lemma from3_run :
  match bsearch (from3 : OracleBS (FNum lm0) nat) (mkOptions (N := FNum lm0) 2000 (flit 1 (-8))) 0%nat ((fofZ 0, fofZ 100) : FNum lm0 * FNum lm0) with
  | Ok (_, _, (true, k)) => Nat.eqb k 33 | _ => false end = true.
Proof. vm_compute. reflexivity. Qed.
Lemma from3_default :
  match bsearch (from3 : OracleBS (FNum lm0) nat) opts0 0%nat ((fofZ 0, fofZ 100) : FNum lm0 * FNum lm0) with
  | Ok (_, _, (true, k)) => Nat.eqb k (Nat.mul 20 100) | _ => false end = true.
Proof. vm_compute. reflexivity. Qed.

Lemma from3_tol : fin (tolerance opts0) = true /\ val (tolerance opts0) <= bpow radix2 (-55) * Rabs 3.
Proof.
  assert (C : Bltb (tolerance opts0) (@B754_finite fprec femax false 4503599627370496 (-107) eq_refl) = true) by (vm_compute; reflexivity).
  assert (Fi : fin (tolerance opts0) = true) by (vm_compute; reflexivity).
  split; [exact Fi|].
  rewrite (fltb_fin _ (@B754_finite fprec femax false 4503599627370496 (-107) eq_refl) Fi eq_refl) in C. revert C. case Rlt_bool_spec; [intros C _|discriminate].
  assert (V : val (@B754_finite fprec femax false 4503599627370496 (-107) eq_refl) = bpow radix2 (-55)).
  { simpl. unfold F2R. cbn [Fnum Fexp]. change (IZR 4503599627370496) with (bpow radix2 52). rewrite <- bpow_plus. reflexivity. }
  rewrite V in C. rewrite Rabs_pos_eq by lra. pose proof (bpow_gt_0 radix2 (-55)). lra.
Qed.
Lemma from3_hyp : fin (fofZ 0) = true /\ fin (fofZ 100) = true /\ fin (fsub (fofZ 100) (fofZ 0)) = true /\
  val (fofZ 0) < 3 <= val (fofZ 100) /\ fin (tolerance opts0) = true /\ val (tolerance opts0) <= bpow radix2 (-55) * Rabs 3 /\
  bs_slack (fofZ 0) (fofZ 100) <= / 1000000000000.
Proof.
  destruct (fofZ_small 0 ltac:(cbn; lia)) as [E0 F0]. destruct (fofZ_small 100 ltac:(cbn; lia)) as [E1 F1].
  split; [exact F0|]. split; [exact F1|]. split; [vm_compute; reflexivity|].
  split; [rewrite E0, E1; lra|]. split; [apply from3_tol|]. split; [apply from3_tol|].
  unfold bs_slack. rewrite E0, E1. rewrite Rabs_R0, Rabs_pos_eq, Rmax_right by lra.
  assert (H : bpow radix2 (-1072) <= bpow radix2 (-50)) by (apply bpow_le; lia).
  change (bpow radix2 (-50)) with (/ 1125899906842624) in *. lra.
Qed.

(** The doubles 1 + 2^-52 and 1 + 2^-51: the probe between them is the upper one. *)
Notation next1 := (@B754_finite fprec femax false 4503599627370497 (-52) eq_refl).
Notation next2 := (@B754_finite fprec femax false 4503599627370498 (-52) eq_refl).
Notation from_next2 := (fun (n : nat) (g : f64) => Ok ((if Bleb next2 g then S n else n), Bleb next2 g)).
Lemma next_thr : threshold lm0 (from_next2 : OracleBS (FNum lm0) nat) (val next2).
Proof.
  intros b g. eexists _, _. split; [reflexivity|]. intros Fg.
  rewrite (fleb_fin next2 g eq_refl Fg). reflexivity.
Qed.
Definition says_no {V} (m1 m2 : nat) (r : res (nat * V * (bool * nat))) : bool :=
  match r with Ok (n, _, (false, k)) => Nat.eqb n m1 && Nat.eqb k m2 | _ => false end.
Lemma says_no_ok {V} (r : res (nat * V * (bool * nat))) (m1 m2 : nat) : says_no m1 m2 r = true ->
  exists iv, r = Ok (m1, iv, (false, m2)).
Proof.
  destruct r as [[[n iv] [[|] k]]|]; try discriminate. intros H. apply andb_prop in H as [H1 H2].
  apply Nat.eqb_eq in H1, H2. subst. eauto.
Qed.
Lemma next_run : says_no 2000 2000 (bsearch (from_next2 : OracleBS (FNum lm0) nat) opts0 0%nat ((next1, next2) : FNum lm0 * FNum lm0)) = true.
Proof. vm_compute. reflexivity. Qed.
Lemma flag_refuted : exists (ora : OracleBS (FNum lm0) nat) (l u : f64) n iv k,
  threshold lm0 ora (B2R u) /\ is_finite l = true /\ is_finite u = true /\ is_finite (fsub u l) = true /\ B2R l < B2R u /\
  (forall m g, ora m g = Ok ((if Bleb u g then S m else m), Bleb u g)) /\
  bsearch ora opts0 0%nat ((l, u) : FNum lm0 * FNum lm0) = Ok (n, iv, (false, k)) /\ (0 < n)%nat.
Proof.
  destruct (says_no_ok _ _ _ next_run) as (iv & E).
  exists from_next2, next1, next2, 2000%nat, iv, 2000%nat.
  split; [exact next_thr|]. split; [reflexivity|]. split; [reflexivity|]. split; [vm_compute; reflexivity|].
  split. { cbn [B2R]. unfold F2R. cbn [Fnum Fexp cond_Zopp]. apply Rmult_lt_compat_r; [apply bpow_gt_0|lra]. }
  split; [reflexivity|]. split; [exact E|]. apply Nat.lt_0_succ.
Qed.
