(** Concrete queries of the example oracles. *)
From Coq Require Import ZArith Reals List Bool Arith Lia Lra.
From Flocq Require Import Core IEEE754.BinarySingleNaN.
From Verif Require Import Num Res Arr CuttingPlane EllCalc Ell Spec EllReal LmiSpec Examples ExSpec ExProofs Replay.
Import ListNotations.

(** a query the round-robin oracle answers with a different cut than the
    sequential one, and one both accept *)
Lemma ex1_queries : match ex1_assess (N := F) tt (ints [5; 6]%Z) neginf, ex1rr_assess (N := F) 0%Z (ints [5; 6]%Z) neginf,
    ex1_assess (N := F) tt (ints [2; 1]%Z) neginf, ex1rr_assess (N := F) 1%Z (ints [2; 1]%Z) neginf with
  | Ok (_, _, ((g1, b1), false)), Ok (i2, _, ((g2, b2), false)), Ok (_, g3, (_, true)), Ok (i4, g4, (_, true)) =>
      map ftrunc (adata g1) = [1; 1]%Z /\ ftrunc (sc_beta b1) = 8%Z /\ i2 = 1%Z /\ map ftrunc (adata g2) = [-1; 1]%Z /\ ftrunc (sc_beta b2) = 2%Z /\
      ftrunc g3 = 3%Z /\ ftrunc g4 = 3%Z /\ i4 = 1%Z
  | _, _, _, _ => False end.
Proof. vm_compute. repeat split. Qed.
Lemma ex4_queries : match ex4_assess (N := F) (-1)%Z (ints [-5; 0]%Z) neginf, ex4_assess (N := F) 3%Z (ints [1; -2]%Z) (fofZ 5), ex4_assess (N := F) 3%Z (ints [1; -2]%Z) (fofZ 9) with
  | Ok (_, _, ((g1, b1), false)), Ok (_, g2, (_, true)), Ok (i3, g3, ((_, b3), false)) =>
      map ftrunc (adata g1) = [-1; 0]%Z /\ ftrunc (sc_beta b1) = 4%Z /\ ftrunc g2 = 8%Z /\ ftrunc g3 = 9%Z /\ ftrunc (sc_beta b3) = 1%Z /\ i3 = 3%Z
  | _, _, _ => False end.
Proof. vm_compute. repeat split. Qed.
Lemma ex3_queries : match ex3_assess (N := F) (mkEx3 (N := F) 2%Z (fofZ 0)) (ints [1; 0]%Z), ex3_assess (N := F) (mkEx3 (N := F) 2%Z (fofZ 3)) (ints [1; 0]%Z) with
  | Ok (o1, Some (g, b)), Ok (o2, None) => ex3_idx o1 = 3%Z /\ map ftrunc (adata g) = [2; -3]%Z /\ ftrunc (sc_beta b) = 2%Z /\ ex3_idx o2 = 2%Z
  | _, _ => False end.
Proof. vm_compute. repeat split. Qed.
(** the run of example4.rs 65-77 returns a point *)
Lemma ex4_run : match (e <- ell_at 10 (ints [0; 0]%Z) ;; cutting_plane_optim (N := F) ex4_assess space (opts (-10)) (-1)%Z e neginf) with
  | Ok (_, _, g, (Some x, k)) => ftrunc (nmul (n := F) g (fofZ 1000)) = 11999%Z /\ length (adata x) = 2%nat /\ k = 82%nat
  | _ => False end.
Proof. vm_compute. repeat split. Qed.
Lemma probs_inhabited : prob1 2 1 /\ obj1 2 1 = 3%R /\ prob4 1 (-2) /\ obj4 1 (-2) = 8%R /\ probq (1 / 2) 1 /\ (0 < objq (1 / 2) 1)%R.
Proof.
  unfold prob1, obj1, prob4, obj4, probq, objq. repeat split; try lra.
  apply Rdiv_lt_0_compat; [lra|apply exp_pos].
Qed.
