(** A concrete square root in binary64 (C120). *)
From Coq Require Import ZArith Reals Lra Lia Bool Arith List.
From Flocq Require Import Core IEEE754.BinarySingleNaN.
From Verif Require Import Num Res Arr Spec Ldlt LdltLemmas LdltAccSpec LdltAccEx Replay.
Import ListNotations.
(** the root, when the matrix was accepted, as integers *)
Definition root_is (l : list Z) (r : res (LDLT F * bool)) : bool :=
  match r with
  | Ok (m', true) => match ldlt_sqrt m' with Ok r => if list_eq_dec Z.eq_dec (map (@ftrunc) (adata r)) l then true else false | Panic => false end
  | _ => false end.
(** [[25,15,-5],[15,18,0],[-5,0,11]] has the root [[5,3,-1],[0,3,1],[0,0,3]] *)
Lemma gd_root : root_is [5; 3; -1; 0; 3; 1; 0; 0; 3]%Z (ldlt_factor (N := F) (fun i j => Ok (gd i j)) (ldlt_new 3)) = true.
Proof. vm_compute. reflexivity. Qed.
