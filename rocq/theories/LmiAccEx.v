(** The matrices of the repository's LMI test in binary64: a point that is accepted and
    one that is cut off. *)
From Coq Require Import ZArith Reals Lra Lia Bool List.
From Flocq Require Import Core IEEE754.BinarySingleNaN.
From Verif Require Import Num Res Arr CuttingPlane Spec RealLin Ldlt LdltSpec LdltProofs LdltFloat FloatLemmas LdltAccSpec StepAccSpec Lmi LmiSpec LmiProofs LmiFloat LmiAccSpec Replay.
Import ListNotations.
Local Open Scope R_scope.

(** /repo/tests/lmi_tests.rs: the first of the two inequalities *)
Definition t_f : list (Arr F) := [fmat 2 [-7; -11; -11; 3]%Z; fmat 2 [7; -18; -18; 8]%Z; fmat 2 [-2; -8; -8; 1]%Z].
Definition t_b : Arr F := fmat 2 [33; -9; -9; 26]%Z.
Definition t_o : LMI F := lmi_new (N := F) t_f t_b.
Definition t_pt (a b c : Z) : Arr F := mkArr (N := F) (map fofZ [a; b; c]) 3 0.

Lemma fofZ_v k : (-100 <= k <= 100)%Z -> B2R (fofZ k) = IZR k.
Proof. intros H. exact (proj1 (fofZ_small k ltac:(lia))). Qed.
Lemma fofZ_f k : (-100 <= k <= 100)%Z -> is_finite (fofZ k) = true.
Proof. intros H. exact (proj2 (fofZ_small k ltac:(lia))). Qed.
Lemma fentry_fmat n l i j : fentry (lm := lm0) n (fmat n l) i j = B2R (nth (i * n + j) (map fofZ l) (n0 (N := F)) : f64).
Proof. reflexivity. Qed.
Lemma t_fits : lmi_fits 2 3 (fun _ => 10) 500 t_o.
Proof.
  assert (B2 : 512 <= bpow radix2 400) by (apply (bpow_le radix2 9 400); lia).
  assert (B1 : bpow radix2 (-400) <= 1) by (apply (bpow_le radix2 (-400) 0); lia).
  constructor.
  - apply lmi_new_ok; [now apply fmat_square|]. repeat constructor; now apply fmat_square.
  - cbn [t_o lmi_new lmi_f t_f length]. split; [lia|]. split; [discriminate|]. split; [lia|discriminate].
  - split; [|change (lmi_f t_o) with t_f; unfold t_f; apply Forall_cons; [|apply Forall_cons; [|apply Forall_cons; [|constructor]]]];
      (unfold all_finite; cbn [adata t_o lmi_new lmi_b t_b fmat map]; repeat apply Forall_cons; try (apply fofZ_f; lia); constructor).
  - split; [|change (lmi_f t_o) with t_f; unfold t_f; apply Forall_cons; [|apply Forall_cons; [|apply Forall_cons; [|constructor]]]]; intros i j Hi Hj; (destruct i as [|[|]]; [| |lia]); (destruct j as [|[|]]; [| |lia]); reflexivity.
  - intros q Hq. lra.
  - lra.
  - intros i j Hi Hj. change (lmi_b t_o) with (fmat 2 [33; -9; -9; 26]%Z). cbn [t_o lmi_new lmi_b lmi_f t_f t_b Rsum nth]. rewrite !fentry_fmat.
    (destruct i as [|[|]]; [| |lia]); (destruct j as [|[|]]; [| |lia]); cbn [Nat.mul Nat.add map nth]; rewrite !fofZ_v by lia; rewrite <- ?abs_IZR; cbn [Z.abs]; lra.
Qed.
Lemma t_point a b c : (-10 <= a <= 10)%Z -> (-10 <= b <= 10)%Z -> (-10 <= c <= 10)%Z -> point_ok 3 (fun _ => 10) (t_pt a b c).
Proof.
  intros Ha Hb Hc. assert (G : forall z, (-10 <= z <= 10)%Z -> Rabs (B2R (fofZ z)) <= 10).
  { intros z Hz. rewrite fofZ_v by lia. rewrite <- abs_IZR. apply IZR_le. lia. }
  split; [reflexivity|]. split.
  - unfold all_finite. cbn [adata t_pt map]. repeat apply Forall_cons; try (apply fofZ_f; lia); constructor.
  - intros q Hq. unfold fcoords. cbn [adata t_pt map]. destruct q as [|[|[|]]]; cbn [nth]; [| | |lia]; apply G; auto.
Qed.
Lemma t_accepts : exists o', lmi_assess (N := F) t_o (t_pt 0 0 0) = Ok (o', None) /\ pivots_ok 2 2 o'.
Proof.
  assert (K : match lmi_assess (N := F) t_o (t_pt 0 0 0) with Ok (o', None) => is_finite (pivot 2 (lmi_mgr o') 0) = true /\ is_finite (pivot 2 (lmi_mgr o') 1) = true | _ => False end) by (vm_compute; auto).
  destruct (lmi_assess (N := F) t_o (t_pt 0 0 0)) as [[o' [c|]]|]; try destruct K. exists o'. split; auto. intros i Hi. destruct i as [|[|]]; auto; lia.
Qed.
Lemma t_rejects : exists o' g bt, lmi_assess (N := F) t_o (t_pt 1 1 1) = Ok (o', Some (g, bt)) /\ pivots_ok 2 (snd (l_pos (lmi_mgr o'))) o' /\ all_finite g /\
  snd (l_pos (lmi_mgr o')) = 2%nat.
Proof.
  assert (K : match lmi_assess (N := F) t_o (t_pt 1 1 1) with
    | Ok (o', Some (g, bt)) => snd (l_pos (lmi_mgr o')) = 2%nat /\ is_finite (pivot 2 (lmi_mgr o') 0) = true /\ is_finite (pivot 2 (lmi_mgr o') 1) = true /\ forallb (fun v : f64 => is_finite v) (adata g) = true
    | _ => False end) by (vm_compute; auto).
  destruct (lmi_assess (N := F) t_o (t_pt 1 1 1)) as [[o' [[g bt]|]]|]; try destruct K as []. destruct H0 as (K2 & K3 & K4). exists o', g, bt. split; [reflexivity|].
  split; [|split; [|exact H]].
  - rewrite H. intros i Hi. destruct i as [|[|]]; auto; lia.
  - apply Forall_forall. intros v Hv. exact (proj1 (forallb_forall _ _) K4 v Hv).
Qed.
Lemma t_tol : lmi_tol 2 3 500 <= 1 / 10000000000.
Proof. unfold lmi_tol. cbn [INR]. change (bpow radix2 (-53)) with (/ IZR (2 ^ 53)). change (IZR (2 ^ 53)) with 9007199254740992. lra. Qed.
Lemma t_case : lmi_fits 2 3 (fun _ => 10) 500 t_o /\
  (point_ok 3 (fun _ => 10) (t_pt 0 0 0) /\ exists o', lmi_assess (N := F) t_o (t_pt 0 0 0) = Ok (o', None) /\ pivots_ok 2 2 o') /\
  (point_ok 3 (fun _ => 10) (t_pt 1 1 1) /\ exists o' g bt, lmi_assess (N := F) t_o (t_pt 1 1 1) = Ok (o', Some (g, bt)) /\ pivots_ok 2 (snd (l_pos (lmi_mgr o'))) o' /\ all_finite g) /\
  lmi_tol 2 3 500 <= 1 / 10000000000.
Proof.
  split; [exact t_fits|]. split; [split; [apply t_point; lia|exact t_accepts]|]. split; [|exact t_tol]. split; [apply t_point; lia|].
  destruct t_rejects as (o' & g & bt & E & H1 & H2 & _). exists o', g, bt. auto.
Qed.
