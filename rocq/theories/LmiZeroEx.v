(** The homogeneous LMI oracle in binary64 on the matrices of the repository's test: a
    point that is accepted and one that is cut off. *)
From Coq Require Import ZArith Reals Lra Lia Bool List.
From Flocq Require Import Core IEEE754.BinarySingleNaN.
From Verif Require Import Num Res Arr CuttingPlane Spec RealLin Ldlt LdltSpec LdltProofs LdltFloat FloatLemmas LdltAccSpec StepAccSpec Lmi LmiSpec LmiProofs LmiFloat LmiAccSpec LmiAccEx Replay.
Import ListNotations.
Local Open Scope R_scope.

Definition z_o : LMI0 F := mkLMI0 (N := F) t_f (ldlt_new (N := F) 2).
Lemma z_new : lmi0_new (N := F) t_f = Ok z_o.
Proof. reflexivity. Qed.
Lemma z_fits : lmi0_fits 2 3 (fun _ => 10) 500 z_o.
Proof.
  assert (B2 : 512 <= bpow radix2 400) by (apply (bpow_le radix2 9 400); lia).
  assert (B1 : bpow radix2 (-400) <= 1) by (apply (bpow_le radix2 (-400) 0); lia).
  destruct t_fits as [A1 A2 A3 A4 A5 A6 A7]. constructor.
  - destruct A1 as (_ & A & B). split; [exact A|exact B].
  - exact A2.
  - exact (proj2 A3).
  - exact (proj2 A4).
  - exact A5.
  - exact A6.
  - intros i j Hi Hj. unfold fentry0. cbn [z_o lmi0_f t_f Rsum nth]. rewrite !fentry_fmat.
    (destruct i as [|[|]]; [| |lia]); (destruct j as [|[|]]; [| |lia]); cbn [Nat.mul Nat.add map nth]; rewrite !fofZ_v by lia; rewrite <- ?abs_IZR; cbn [Z.abs]; lra.
Qed.
Lemma z_accepts : exists o', lmi0_assess (N := F) z_o (t_pt 2 3 (-10)) = Ok (o', None) /\ pivots0_ok 2 2 o'.
Proof.
  assert (K : match lmi0_assess (N := F) z_o (t_pt 2 3 (-10)) with Ok (o', None) => is_finite (pivot 2 (lmi0_mgr o') 0) = true /\ is_finite (pivot 2 (lmi0_mgr o') 1) = true | _ => False end) by (vm_compute; auto).
  destruct (lmi0_assess (N := F) z_o (t_pt 2 3 (-10))) as [[o' [c|]]|]; try destruct K. exists o'. split; auto. intros i Hi. destruct i as [|[|]]; auto; lia.
Qed.
Lemma z_rejects : exists o' g ep, lmi0_assess (N := F) z_o (t_pt 0 1 0) = Ok (o', Some (g, ep)) /\ pivots0_ok 2 (snd (l_pos (lmi0_mgr o'))) o' /\ all_finite g /\
  snd (l_pos (lmi0_mgr o')) = 2%nat.
Proof.
  assert (K : match lmi0_assess (N := F) z_o (t_pt 0 1 0) with
    | Ok (o', Some (g, ep)) => snd (l_pos (lmi0_mgr o')) = 2%nat /\ is_finite (pivot 2 (lmi0_mgr o') 0) = true /\ is_finite (pivot 2 (lmi0_mgr o') 1) = true /\ forallb (fun v : f64 => is_finite v) (adata g) = true
    | _ => False end) by (vm_compute; auto).
  destruct (lmi0_assess (N := F) z_o (t_pt 0 1 0)) as [[o' [[g ep]|]]|]; try destruct K as []. destruct H0 as (K2 & K3 & K4). exists o', g, ep. split; [reflexivity|].
  split; [|split; [|exact H]].
  - rewrite H. intros i Hi. destruct i as [|[|]]; auto; lia.
  - apply Forall_forall. intros v Hv. exact (proj1 (forallb_forall _ _) K4 v Hv).
Qed.
Lemma z_case : lmi0_new (N := F) t_f = Ok z_o /\ lmi0_fits 2 3 (fun _ => 10) 500 z_o /\
  (point_ok 3 (fun _ => 10) (t_pt 2 3 (-10)) /\ exists o', lmi0_assess (N := F) z_o (t_pt 2 3 (-10)) = Ok (o', None) /\ pivots0_ok 2 2 o') /\
  (point_ok 3 (fun _ => 10) (t_pt 0 1 0) /\ exists o' g ep, lmi0_assess (N := F) z_o (t_pt 0 1 0) = Ok (o', Some (g, ep)) /\ pivots0_ok 2 (snd (l_pos (lmi0_mgr o'))) o' /\ all_finite g) /\
  lmi_tol 2 3 500 <= 1 / 10000000000.
Proof.
  split; [exact z_new|]. split; [exact z_fits|]. split; [split; [apply t_point; lia|exact z_accepts]|]. split; [|exact t_tol]. split; [apply t_point; lia|].
  destruct z_rejects as (o' & g & ep & E & H1 & H2 & _). exists o', g, ep. auto.
Qed.
