(** Concrete runs with the SVM oracle in binary64. *)
From Coq Require Import ZArith List Bool Arith.
From Flocq Require Import Core IEEE754.BinarySingleNaN.
From Verif Require Import Num Res Arr CuttingPlane EllCalc Ell Svm Replay.
Import ListNotations.

(** one feature, samples 1 and 3 with labels +1 and -1; the search starts at 0 with radius^2 10 *)
Definition svm_two : Svm F := svm_new (N := F) (mkArr (N := F) (adata (ints [1; 3]%Z)) 2 1) [1%Z; (-1)%Z].
Definition svm_run (iters : nat) := e <- ell_at 10 (ints [0; 0]%Z) ;;
  cutting_plane_optim (N := F) svm_assess space (mkOptions (N := F) iters (flit 1 (-6))) svm_two e neginf.
Definition milli (v : F) : Z := ftrunc (nmul (n := F) v (fofZ 1000)).
(** gamma goes 0, -2.981 after one and two iterations, and 0.981, 0 after five and six *)
Lemma svm_gets_worse : match svm_run 1, svm_run 2, svm_run 5, svm_run 6 with
  | Ok (_, _, g1, (Some x1, _)), Ok (_, _, g2, (Some x2, _)), Ok (_, _, g5, (Some x5, _)), Ok (_, _, g6, (Some x6, k)) =>
      milli g1 = 0%Z /\ map milli (adata x1) = [0; 0]%Z /\ milli g2 = (-2981)%Z /\ map milli (adata x2) = [745; 745]%Z /\
      milli g5 = 981%Z /\ milli g6 = 0%Z /\ k = 5
  | _, _, _, _ => False end.
Proof. vm_compute. repeat split. Qed.
(** when all samples have margin 1 the zero gradient turns the search space into NaN *)
Lemma svm_space_nan : match svm_run 6 with
  | Ok (_, e, _, (Some x, _)) => map (fun v : F => is_nan v) (adata (e_xc e)) = [true; true] /\ map (fun v : F => is_nan v) (adata x) = [false; false]
  | _ => False end.
Proof. vm_compute. repeat split. Qed.
(** the repository's own tests, svm_oracle.rs 66-94 *)
Lemma svm_tests : match svm_assess (N := F) (svm_new (N := F) (mkArr (N := F) (adata (ints [0; 0; 1; 1; 0; 1; 1; 0]%Z)) 4 2) [1; 1; -1; -1]%Z) (ints [0; 0; 0]%Z) neginf with
  | Ok (_, g, ((gr, b), s)) => s = true /\ milli g = 0%Z /\ length (adata gr) = 3
  | _ => False end.
Proof. vm_compute. repeat split. Qed.
