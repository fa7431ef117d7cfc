(** linspace and arange in binary64: runs (C121). *)
From Coq Require Import ZArith List Bool Arith.
From Flocq Require Import Core IEEE754.BinarySingleNaN.
From Verif Require Import Num Res Arr.
Import ListNotations.
Notation F := (FNum lm0).

(** the two numbers at [i] and [j] of the array compare as [c] says *)
Definition at_pos (r : res (Arr F)) (i : nat) (c : f64 -> bool) : bool :=
  match r with Ok l => (i <? length (adata l))%nat && c (nth i (adata l) (n0 (N := F))) | Panic => false end.

Lemma last_below : at_pos (linspace (N := F) (fofZ 0) (fofZ 1) 50) 49 (fun x => Bltb x (fofZ 1)) = true.
Proof. vm_compute. reflexivity. Qed.
Lemma last_above : at_pos (linspace (N := F) (fofZ 0) (fofZ 7) 26) 25 (fun x => Bltb (fofZ 7) x) = true.
Proof. vm_compute. reflexivity. Qed.
Lemma reaches_end : at_pos (arange (N := F) (fofZ (2 ^ 53)) (fofZ (2 ^ 53 + 4))) 3 (fun x => Beqb x (fofZ (2 ^ 53 + 4))) = true.
Proof. vm_compute. reflexivity. Qed.
Lemma repeats : at_pos (arange (N := F) (fofZ (2 ^ 53)) (fofZ (2 ^ 53 + 4))) 1 (fun x => Beqb x (fofZ (2 ^ 53))) = true.
Proof. vm_compute. reflexivity. Qed.
(** 2^-60 below an integer: one more point than floor(end - start) *)
Lemma one_more : at_pos (arange (N := F) (fdiv (fofZ 1) (fofZ (2 ^ 60))) (fofZ 3)) 2 (fun x => Beqb x (fofZ 2)) = true.
Proof. vm_compute. reflexivity. Qed.
