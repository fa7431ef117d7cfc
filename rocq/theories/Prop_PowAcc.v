(** C116: the power iterations in binary64. *)
From Coq Require Import ZArith Reals List.
From Flocq Require Import Core IEEE754.BinarySingleNaN.
From Verif Require Import Num Res Arr ArrLemmas Spec PowerIter PowerSpec StepAccSpec PowAccSpec PowAccRun PowAccEx Pow3Spec Pow3 Pow3Ex Replay.
Import ListNotations.
Local Open Scope R_scope.

(** On a matrix far enough from singular, every run of the three variants that return a
    unit vector returns finite numbers: a vector of unit length and its quadratic form, up
    to rounding. A round count below the limit means that the vector is an eigenvector up
    to the tolerance and rounding (variants 1 and 4). *)
Theorem C116_run (lm : Libm) (n : nat) (a x0 : Arr (FNum lm)) (sigma : R) (m : nat) (tol : f64) :
  regular n a sigma -> start_ok n x0 -> is_finite tol = true ->
  let o := mkPOptions (N := FNum lm) m tol in let h := INR n * bpow radix2 (-53) in let size := frob n (fentry n a) in
  (exists x q k, power_iteration a x0 o = Ok (x, (q, k)) /\ (k <= m)%nat /\ unit_answer n a x q /\
    ((k < m)%nat -> miss n a x q <= size * ((1 + 16 * h) * B2R tol + 72 * h) + bpow radix2 (-1000))) /\
  (exists x q k, power_iteration2 a x0 o = Ok (x, (q, k)) /\ (k <= m)%nat /\ unit_answer n a x q) /\
  (exists x q k, power_iteration4 a x0 o = Ok (x, (q, k)) /\ (k <= m)%nat /\ unit_answer n a x q /\
    ((k < m)%nat -> miss n a x q <= sqrt (INR n) * size * ((1 + 42 * h) * B2R tol + 84 * h) + bpow radix2 (-1000))).
Proof. exact (fun H1 H2 H3 => conj (pow_run1 lm n a sigma x0 H1 H2 m tol H3) (conj (pow_run2 lm n a sigma x0 H1 H2 m tol) (pow_run4 lm n a sigma x0 H1 H2 m tol H3))). Qed.
Print Assumptions C116_run.

(** Any square matrix and start vector, of any size, finite or not: an early answer of
    power_iteration with a finite value and a vector of length near 1 is an approximate
    eigenpair, with the deviation of the length from 1 entering the bound. *)
Theorem C116_checked (lm : Libm) (n : nat) (a x0 : Arr (FNum lm)) (m : nat) (tol : f64) (x : Arr (FNum lm)) (q : FNum lm) (k : nat) :
  (0 < n)%nat -> (Z.of_nat n <= 2 ^ 20)%Z -> is_mat n n a -> is_vec n x0 -> is_finite tol = true ->
  power_iteration a x0 (mkPOptions (N := FNum lm) m tol) = Ok (x, (q, k)) -> (k < m)%nat -> is_finite (q : f64) = true -> 1 / 2 <= dot n (fcoords x) (fcoords x) <= 2 ->
  miss n a x q <= frob n (fentry n a) * ((1 + 16 * (INR n * bpow radix2 (-53))) * B2R tol + 36 * (INR n * bpow radix2 (-53)) + 3 / 2 * Rabs (dot n (fcoords x) (fcoords x) - 1)) + bpow radix2 (-1000).
Proof. exact (pow_checked lm n a x0 m tol x q k). Qed.
Print Assumptions C116_checked.

(** ... and the value is the quadratic form of the vector, early or not. *)
Theorem C116_value (lm : Libm) (n : nat) (a x0 : Arr (FNum lm)) (o : POptions (FNum lm)) run (x : Arr (FNum lm)) (q : FNum lm) (k : nat) :
  (0 < n)%nat -> (Z.of_nat n <= 2 ^ 20)%Z -> is_mat n n a -> is_vec n x0 ->
  run = power_iteration a x0 o \/ run = power_iteration2 a x0 o \/ run = power_iteration4 a x0 o -> run = Ok (x, (q, k)) -> is_finite (q : f64) = true -> dot n (fcoords x) (fcoords x) <= 2 ->
  all_finite x /\ Rabs (B2R (q : f64) - quad n (fentry n a) (fcoords x)) <= 13 * (INR n * bpow radix2 (-53)) * frob n (fentry n a) + bpow radix2 (-1020).
Proof. exact (pow_value lm n a x0 o run x q k). Qed.
Print Assumptions C116_value.

(** Ten times the repository's matrix: variants 1 and 4 stop in rounds 23 and 22 with
    tolerance 2^-24. *)
Theorem C116_case : regular 3 pm (/ 4) /\ start_ok 3 pv /\
  (exists x q, power_iteration pm pv (mkPOptions (N := F) 2000 ptol) = Ok (x, (q, 23%nat)) /\ Rabs (dot 3 (fcoords x) (fcoords x) - 1) <= / 10000000000 /\ miss 3 pm x q <= 7 / 1000000) /\
  (exists x q, power_iteration4 pm pv (mkPOptions (N := F) 2000 ptol) = Ok (x, (q, 22%nat)) /\ Rabs (dot 3 (fcoords x) (fcoords x) - 1) <= / 10000000000 /\ miss 3 pm x q <= 11 / 1000000).
Proof. exact pow_case. Qed.
Print Assumptions C116_case.

(** Without the size conditions the answer need not be a unit vector, nor its value near
    an eigenvalue: a 1 by 1 matrix of a positive entry around 1e-162. *)
Theorem C116_small_refuted : exists (a x0 x : Arr F) (tol q : f64) (k m : nat), length (adata a) = 1%nat /\ arows a = 1%nat /\ acols a = 1%nat /\ all_finite a /\ 0 < fentry 1 a 0 0 /\
  length (adata x0) = 1%nat /\ acols x0 = 0%nat /\ all_finite x0 /\ 0 < fcoords x0 0%nat /\ B2R tol <= / 10000000 /\
  power_iteration a x0 (mkPOptions (N := F) m tol) = Ok (x, (q : F, k)) /\ (k < m)%nat /\
  1 / 10 <= dot 1 (fcoords x) (fcoords x) - 1 /\ 2 / 10 * frob 1 (fentry 1 a) <= miss 1 a x q.
Proof. exact pow_small. Qed.
Print Assumptions C116_small_refuted.

(** power_iteration3 scales its vector only when the square length reaches 1e150. Any
    square matrix, start vector, tolerance and round limit: it never panics, its last
    vector [w] is the one [visited3] names, the returned vector is [w] or, on an early
    stop with an unscaled [w], [w] scaled to unit length. A finite value is the quadratic
    form of a scaled [w], and the Rayleigh quotient of an unscaled [w], up to rounding. *)
Theorem C116_value3 (lm : Libm) (n : nat) (a x0 : Arr (FNum lm)) (m : nat) (tol : FNum lm) :
  (0 < n)%nat -> (Z.of_nat n <= 2 ^ 20)%Z -> is_mat n n a -> is_vec n x0 ->
  exists (x : Arr (FNum lm)) (q : FNum lm) (k : nat) (w : Arr (FNum lm)) (scaled : bool),
    power_iteration3 a x0 (mkPOptions (N := FNum lm) m tol) = Ok (x, (q, k)) /\ (k <= m)%nat /\
    visited3 a x0 (Nat.min (S k) m) = Ok (w, scaled) /\ (scaled = true \/ k = m -> x = w) /\ ((k < m)%nat -> scaled = false -> p_unit w = Ok x) /\
    (is_finite (q : f64) = true -> if scaled
     then dot n (fcoords w) (fcoords w) <= 2 -> Rabs (B2R (q : f64) - quad n (fentry n a) (fcoords w)) <= 13 * (INR n * bpow radix2 (-53)) * frob n (fentry n a) + bpow radix2 (-1020)
     else bpow radix2 (-900) <= dot n (fcoords w) (fcoords w) <= bpow radix2 600 ->
       Rabs (B2R (q : f64) - quad n (fentry n a) (fcoords w) / dot n (fcoords w) (fcoords w)) <= 12 * (INR n * bpow radix2 (-53)) * frob n (fentry n a) + bpow radix2 (-120)).
Proof. exact (fun H1 H2 H3 H4 => pow3_value lm n a H1 H2 H3 x0 m tol H4). Qed.
Print Assumptions C116_value3.

(** One round on ten times the repository's matrix. *)
Theorem C116_case3 : is_mat 3 3 pm /\ is_vec 3 pv /\ exists x q w, power_iteration3 pm pv (mkPOptions (N := F) 1 ptol) = Ok (x, (q, 1%nat)) /\ visited3 pm pv 1 = Ok (w, false) /\ x = w /\
  is_finite (q : f64) = true /\ dot 3 (fcoords w) (fcoords w) = 11115 /\ Rabs (B2R (q : f64) - 528080 / 11115) <= / 1000000000000.
Proof. exact pow3_case. Qed.
Print Assumptions C116_case3.
