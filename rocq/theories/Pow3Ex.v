(** A round of power_iteration3 on ten times the repository's test matrix (C116). *)
From Coq Require Import ZArith Reals Lra Lia Psatz List Bool Arith.
From Flocq Require Import Core IEEE754.BinarySingleNaN.
From Verif Require Import Num Res Arr ArrLemmas Spec RealLin PowerIter PowerSpec FloatLemmas FloatErr FcosAcc StepAccSpec StepEx LdltFloat Replay PowAcc PowAccSpec PowAccRun PowAccEx Pow3Spec Pow3.
Import ListNotations.
Local Open Scope R_scope.

Definition same (x : f64) (z : Z) : bool := is_finite x && Beqb x (fofZ z).
Definition round3 : bool :=
  match visited3 pm pv 1, power_iteration3 pm pv (popt 1 (ptol : F)) with
  | Ok (w, b), Ok (_, (q, k)) => same (vget w 0) (-41) && same (vget w 1) (-5) && same (vget w 2) 97 && negb b && is_finite (q : f64) && (k =? 1)%nat
  | _, _ => false
  end.
Lemma round3_ok : round3 = true. Proof. vm_compute. reflexivity. Qed.
Lemma same_val (x : f64) z : (Z.abs z <= 100)%Z -> same x z = true -> val x = IZR z.
Proof.
  intros Hz H. apply andb_true_iff in H as [Fx E]. destruct (fofZ_small z ltac:(lia)) as [Vz Fz]. rewrite <- Vz. rewrite Beqb_correct in E by assumption. revert E. case Req_bool_spec; [auto|discriminate].
Qed.
Lemma pow3_case : is_mat 3 3 pm /\ is_vec 3 pv /\ exists x q w, power_iteration3 pm pv (popt 1 (ptol : F)) = Ok (x, (q, 1%nat)) /\ visited3 pm pv 1 = Ok (w, false) /\ x = w /\
  is_finite (q : f64) = true /\ dot 3 (fcoords w) (fcoords w) = 11115 /\ Rabs (val (q : f64) - 528080 / 11115) <= / 1000000000000.
Proof.
  assert (HM : is_mat 3 3 pm) by (repeat split; vm_compute; lia). assert (HV : is_vec 3 pv) by (repeat split; reflexivity). split; [exact HM|]. split; [exact HV|].
  destruct (pow3_value lm0 3 pm ltac:(lia) ltac:(lia) HM pv 1 (ptol : F) HV) as (x & q & k & w & b & E & _ & V & X & _ & B).
  pose proof round3_ok as R. unfold round3 in R. rewrite E in R. assert (K : Nat.min (S k) 1 = 1%nat) by lia. rewrite K in V. rewrite V in R.
  apply andb_true_iff in R as [R Rk]. apply andb_true_iff in R as [R Fq]. apply andb_true_iff in R as [R Rb]. apply andb_true_iff in R as [R R2]. apply andb_true_iff in R as [R0 R1].
  apply Nat.eqb_eq in Rk. subst k. destruct b; [discriminate Rb|]. exists x, q, w. split; [exact E|]. split; [exact V|]. split; [apply X; auto|]. split; [exact Fq|].
  apply same_val in R0; [|lia]. apply same_val in R1; [|lia]. apply same_val in R2; [|lia].
  assert (C0 : fcoords w 0%nat = -41) by exact R0. assert (C1 : fcoords w 1%nat = -5) by exact R1. assert (C2 : fcoords w 2%nat = 97) by exact R2.
  assert (D : dot 3 (fcoords w) (fcoords w) = 11115). { cbn [dot Rsum]. unfold dot. cbn [Rsum]. rewrite C0, C1, C2. lra. } split; [exact D|]. specialize (B Fq). cbv beta iota in B. rewrite D in B.
  assert (Q : quad 3 (fentry 3 pm) (fcoords w) = 528080). { unfold quad, mulmv, dot. cbn [Rsum]. rewrite !pm_val by lia. cbn [nth pml Nat.mul Nat.add]. rewrite C0, C1, C2. lra. } rewrite Q in B.
  eapply Rle_trans; [apply B; split|].
  - apply Rle_trans with 1; [exact (bpow_le radix2 (-900) 0 ltac:(lia))|lra].
  - apply Rle_trans with (bpow radix2 14); [change (bpow radix2 14) with 16384; lra|apply bpow_le; lia].
  - destruct pm_frob as [P _]. assert (bpow radix2 (-120) <= bpow radix2 (-60)) by (apply bpow_le; lia). change (bpow radix2 (-60)) with (/ 1152921504606846976) in H. change uu with (/ 9007199254740992). replace (INR 3) with 3 by (cbn; ring). lra.
Qed.
