(** C99: what the Boolean of [factor] means in binary64. *)
From Coq Require Import ZArith Reals Lia.
From Flocq Require Import Core IEEE754.BinarySingleNaN.
From Verif Require Import Num Res Arr Spec Ldlt LdltSpec Replay LdltAccSpec LdltAcc LdltAccEx.
Local Open Scope R_scope.

(** Accepted with finite pivots: after the diagonal has been raised by 4 n^2 2^-53,
    relative, the matrix is positive definite. *)
Theorem C99_accepts (lm : Libm) n get (G : nat -> nat -> f64) (m m' : LDLT (FNum lm)) :
  (Z.of_nat n <= 2 ^ 26)%Z -> mgr n m -> reads (N := FNum lm) n get G -> sym n (real_of G) -> moderate_diag n G ->
  ldlt_factor get m = Ok (m', true) -> (forall i, (i < n)%nat -> is_finite (pivot n m' i) = true) ->
  pd n (diag_by (4 * INR n * INR n * bpow radix2 (-53)) (real_of G)).
Proof. exact (factor_accepts_f64 n get G m m'). Qed.
Print Assumptions C99_accepts.

(** Rejected with finite pivots: after the diagonal has been lowered by 16 n^2 2^-53,
    relative, the matrix is not positive definite.  So a matrix that stays positive
    definite under that change is accepted, unless a pivot overflows. *)
Theorem C99_rejects (lm : Libm) n get (G : nat -> nat -> f64) (m m' : LDLT (FNum lm)) :
  (Z.of_nat n <= 2 ^ 26)%Z -> mgr n m -> reads (N := FNum lm) n get G -> sym n (real_of G) -> moderate_diag n G ->
  ldlt_factor get m = Ok (m', false) -> (forall i, (i < snd (l_pos m'))%nat -> is_finite (pivot n m' i) = true) ->
  ~ pd n (diag_by (- (16 * INR n * INR n * bpow radix2 (-53))) (real_of G)).
Proof. exact (factor_rejects_f64 n get G m m'). Qed.
Print Assumptions C99_rejects.

(** Without the condition on the pivots the claim is false: a symmetric matrix of
    finite numbers with a moderate diagonal, indefinite even after its diagonal has
    grown a millionfold, is reported positive definite. *)
Theorem C99_overflow_refuted : exists G : nat -> nat -> f64,
  (forall i j, (i < 3)%nat -> (j < 3)%nat -> is_finite (G i j) = true) /\ sym 3 (real_of G) /\ moderate_diag 3 G /\
  (exists m', ldlt_factor (N := FNum lm0) (fun i j => Ok (G i j)) (ldlt_new 3) = Ok (m', true)) /\ ~ pd 3 (diag_by 1000000 (real_of G)).
Proof. exact (ex_intro _ ovf ovf_wrong). Qed.
Print Assumptions C99_overflow_refuted.

(** Matrices to which the two theorems apply: [[25,15,-5],[15,18,0],[-5,0,11]] and [[1,2],[2,1]]. *)
Example C99_case : (sym 3 (real_of gd) /\ moderate_diag 3 gd /\
    exists m', ldlt_factor (N := FNum lm0) (fun i j => Ok (gd i j)) (ldlt_new 3) = Ok (m', true) /\ forall i, (i < 3)%nat -> is_finite (pivot 3 m' i) = true) /\
  (sym 2 (real_of bd) /\ moderate_diag 2 bd /\
    exists m', ldlt_factor (N := FNum lm0) (fun i j => Ok (bd i j)) (ldlt_new 2) = Ok (m', false) /\ forall i, (i < snd (l_pos m'))%nat -> is_finite (pivot 2 m' i) = true).
Proof. exact (conj gd_case bd_case). Qed.
