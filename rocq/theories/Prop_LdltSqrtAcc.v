(** C120: LDLTMgr::sqrt in binary64. *)
From Coq Require Import ZArith Reals List.
From Flocq Require Import Core IEEE754.BinarySingleNaN.
From Verif Require Import Num Res Arr Spec Ldlt LdltLemmas LdltSpec LdltAccSpec StepAccSpec LdltSqrtAcc LdltAccEx LdltSqrtEx Replay.
Import ListNotations.
Local Open Scope R_scope.

(** After an accepted factorisation with finite pivots, sqrt returns a finite upper
    triangular matrix R with positive diagonal, and R'R is the matrix up to a relative
    12 n 2^-53 of the geometric mean of the two diagonal entries. *)
Theorem C120_root (lm : Libm) n get (G : nat -> nat -> f64) (m m' : LDLT (FNum lm)) :
  (Z.of_nat n <= 2 ^ 26)%Z -> mgr n m -> reads (N := FNum lm) n get G -> sym n (real_of G) -> moderate_diag n G ->
  ldlt_factor get m = Ok (m', true) -> (forall i, (i < n)%nat -> is_finite (pivot n m' i) = true) ->
  exists r, ldlt_sqrt m' = Ok r /\ (arows r = n /\ acols r = n /\ length (adata r) = (n * n)%nat) /\ all_finite r /\
    (forall i j, (j < i)%nat -> (i < n)%nat -> fentry n r i j = 0) /\ (forall i, (i < n)%nat -> 0 < fentry n r i i) /\
    forall i j, (i < n)%nat -> (j < n)%nat -> Rabs (mulmm n (fun a b => fentry n r b a) (fentry n r) i j - real_of G i j) <= 12 * INR n * bpow radix2 (-53) * sqrt (real_of G i i * real_of G j j).
Proof. exact (sqrt_f64 n get G m m'). Qed.
Print Assumptions C120_root.

(** A matrix to which it applies, and its root. *)
Example C120_case : (sym 3 (real_of gd) /\ moderate_diag 3 gd /\
    exists m', ldlt_factor (N := F) (fun i j => Ok (gd i j)) (ldlt_new 3) = Ok (m', true) /\ forall i, (i < 3)%nat -> is_finite (pivot 3 m' i) = true) /\
  root_is [5; 3; -1; 0; 3; 1; 0; 0; 3]%Z (ldlt_factor (N := F) (fun i j => Ok (gd i j)) (ldlt_new 3)) = true.
Proof. exact (conj gd_case gd_root). Qed.
