(** C127: when the LDL' manager panics, in any number type. *)
From Coq Require Import ZArith List Bool.
From Flocq Require Import IEEE754.BinarySingleNaN.
From Verif Require Import Num Res Arr Ldlt LdltSpec LdltPanic Replay.
Import ListNotations.

(** A factorisation never panics if the matrix can be read on the lower triangle, whatever the
    numbers in it and whatever has been done with the manager before. *)
Theorem C127_total : forall (N : Num) n (m : LDLT N) get G, mgr n m -> reads n get G ->
  (exists m' b, ldlt_factor get m = Ok (m', b)) /\ (exists m' b, ldlt_factor_semi get m = Ok (m', b)).
Proof. exact @factor_total. Qed.
Print Assumptions C127_total.

(** After a factorisation of either kind and any number of witness calls: the root panics
    exactly if the matrix was rejected, the witness exactly if it was accepted, and is_spd
    still tells the verdict. *)
Theorem C127_panics : forall (N : Num) n (m : LDLT N) get m' b k m'', mgr n m -> judged get m m' b -> do_ops (repeat OpWitness k) m' = Ok m'' ->
  (ldlt_sqrt m'' = Panic <-> b = false) /\ (ldlt_witness m'' = Panic <-> b = true) /\ ldlt_is_spd m'' = b.
Proof. exact @panics_iff. Qed.
Print Assumptions C127_panics.

(** A new manager counts as having accepted. *)
Theorem C127_new : forall (N : Num) n, exists r, ldlt_sqrt (ldlt_new (N := N) n) = Ok r /\ ldlt_witness (ldlt_new (N := N) n) = Panic.
Proof. exact @fresh. Qed.
Print Assumptions C127_new.

(** In binary64: an indefinite matrix, two witnesses, then a definite matrix and its root;
    and the same with a matrix of NaN as the second. *)
Example C127_case : ldlt_story (four 1 2 2 1) (four 2 1 1 2) = true /\ ldlt_story (four 1 2 2 1) (mkArr (N := F) [B754_nan; B754_nan; B754_nan; B754_nan] 2 2) = true.
Proof. exact story_case. Qed.
