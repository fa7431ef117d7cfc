(** Array arithmetic in f64. *)
From Coq Require Import List ZArith.
From Flocq Require Import Core IEEE754.BinarySingleNaN.
From Verif Require Import Num Res Arr ArrLemmas.
Import ListNotations.

Lemma divide_49 : exists (a : Arr (FNum lm0)) (s : FNum lm0),
  is_finite s = true /\ is_finite (vget a 0) = true /\
  Beqb (vget a 0 /! s) (fofZ 1) = true /\ Bltb (vget (a_divs a s) 0) (fofZ 1) = true.
Proof.
  exists (mkArr (N := FNum lm0) [fofZ 49] 1 0), (fofZ 49).
  split; [vm_compute; reflexivity|]. split; [vm_compute; reflexivity|]. split; vm_compute; reflexivity.
Qed.
