(** The constant std::f64::consts::PI is PI up to 2^-50. *)
From Coq Require Import ZArith Reals Lra Lia Machin.
From Flocq Require Import Core IEEE754.BinarySingleNaN.
From Verif Require Import Num FloatLemmas.
Local Open Scope R_scope.

Lemma pi_close : Rabs (IZR 7074237752028440 / IZR (2 ^ 51) - PI) <= / IZR (2 ^ 50).
Proof.
  destruct (PI_2_3_7_ineq 8) as [A B]. cbn [Nat.mul Nat.add sum_f_R0] in A, B. unfold tg_alt, PI_2_3_7_tg, Ratan_seq in A, B. cbn [Nat.mul Nat.add] in A, B.
  cbn [INR pow] in A, B. 
  apply Rabs_le. change (2 ^ 51)%Z with 2251799813685248%Z. change (2 ^ 50)%Z with 1125899906842624%Z. split; lra.
Qed.
