(** C100: how accurately the inner product, the matrix-vector product and the sum compute in binary64. *)
From Coq Require Import ZArith Reals List Bool.
From Flocq Require Import Core IEEE754.BinarySingleNaN.
From Verif Require Import Num Res Arr ArrLemmas Spec StepAccSpec KernAcc ArrSumAcc Replay.
Local Open Scope R_scope.

(** A finite inner product of [n] terms is off by at most 3 n 2^-53 times the sum of
    the absolute terms (plus what underflow can do). *)
Theorem C100_dot (lm : Libm) n (a b : Arr (FNum lm)) (r : f64) : (Z.of_nat n <= 2 ^ 26)%Z -> is_vec n a -> is_vec n b -> a_dot a b = Ok r -> is_finite r = true ->
  Rabs (B2R r - dot n (fcoords a) (fcoords b)) <= 3 * INR n * bpow radix2 (-53) * Rsum n (fun i => Rabs (fcoords a i * fcoords b i)) + 4 * INR n * bpow radix2 (-1075).
Proof. exact (dot_f64 lm n a b r). Qed.
Print Assumptions C100_dot.

(** It is finite whenever the terms are of moderate size. *)
Theorem C100_dot_finite (lm : Libm) n (a b : Arr (FNum lm)) : (Z.of_nat n <= 2 ^ 26)%Z -> is_vec n a -> is_vec n b -> all_finite a -> all_finite b ->
  (forall i, (i < n)%nat -> Rabs (fcoords a i * fcoords b i) <= bpow radix2 600) -> exists r : f64, a_dot a b = Ok r /\ is_finite r = true.
Proof. exact (dot_finite lm n a b). Qed.
Print Assumptions C100_dot_finite.

(** The same for every entry of a matrix-vector product. *)
Theorem C100_matvec (lm : Libm) r c (a x y : Arr (FNum lm)) i : (Z.of_nat c <= 2 ^ 26)%Z -> (0 < c)%nat -> is_mat r c a -> is_vec c x -> a_dot_mv a x = Ok y -> (i < r)%nat ->
  is_finite (nth i (adata y) (n0 (N := FNum lm)) : f64) = true ->
  Rabs (fcoords y i - Rsum c (fun j => fentry c a i j * fcoords x j)) <= 3 * INR c * bpow radix2 (-53) * Rsum c (fun j => Rabs (fentry c a i j * fcoords x j)) + 4 * INR c * bpow radix2 (-1075).
Proof. exact (mv_f64 lm r c a x y i). Qed.
Print Assumptions C100_matvec.

(** A finite sum of an array (of any shape) of [n] numbers is off by at most 2 n 2^-53 times
    the sum of their absolute values (plus what underflow can do). *)
Theorem C100_sum (lm : Libm) n (a : Arr (FNum lm)) : (Z.of_nat n <= 2 ^ 26)%Z -> length (adata a) = n -> is_finite (a_sum a : f64) = true ->
  Rabs (B2R (a_sum a : f64) - Rsum n (fcoords a)) <= 2 * INR n * bpow radix2 (-53) * Rsum n (fun i => Rabs (fcoords a i)) + 2 * INR n * bpow radix2 (-1075).
Proof. exact (sum_f64 lm n a). Qed.
Print Assumptions C100_sum.
(** It is finite whenever the numbers are at most 2^900. *)
Theorem C100_sum_finite (lm : Libm) n (a : Arr (FNum lm)) : (Z.of_nat n <= 2 ^ 26)%Z -> length (adata a) = n -> all_finite a -> (forall i, (i < n)%nat -> Rabs (fcoords a i) <= bpow radix2 900) -> is_finite (a_sum a : f64) = true.
Proof. exact (sum_finite lm n a). Qed.
Print Assumptions C100_sum_finite.
Example C100_sum_case : length (adata kx) = 3%nat /\ all_finite kx /\ (forall i, (i < 3)%nat -> Rabs (fcoords kx i) <= bpow radix2 900) /\ Beqb (a_sum kx : f64) (fofZ (-2)) = true.
Proof. exact ksum_case. Qed.

(** Every finite entry of an outer product is the correctly rounded product; every finite
    entry of a rank-one update is accurate to a few units in the last place of its two terms,
    and the result is exactly symmetric. *)
Theorem C100_outer (lm : Libm) m n (a b o : Arr (FNum lm)) i j : is_vec m a -> is_vec n b -> a_outer a b = Ok o -> (i < m)%nat -> (j < n)%nat -> is_finite (mget n (adata o) i j : f64) = true ->
  Rabs (fentry n o i j - fcoords a i * fcoords b j) <= bpow radix2 (-53) * Rabs (fcoords a i * fcoords b j) + bpow radix2 (-1075).
Proof. exact (outer_f64 lm m n a b o i j). Qed.
Print Assumptions C100_outer.
Theorem C100_rank_one (lm : Libm) n (a u b : Arr (FNum lm)) (alpha : f64) i j : (0 < n)%nat -> is_mat n n a -> is_vec n u -> a_rank_one_update a (alpha : FNum lm) u = Ok b -> (i < n)%nat -> (j <= i)%nat -> is_finite (mget n (adata b) i j : f64) = true ->
  Rabs (fentry n b i j - (fentry n a i j + B2R alpha * fcoords u i * fcoords u j)) <= bpow radix2 (-53) * Rabs (fentry n a i j) + 4 * bpow radix2 (-53) * Rabs (B2R alpha * fcoords u i * fcoords u j) + (3 + 2 * Rabs (fcoords u j)) * bpow radix2 (-1075) /\
  fentry n b j i = fentry n b i j.
Proof. exact (rank_one_f64 lm n a u b alpha i j). Qed.
Print Assumptions C100_rank_one.
Example C100_rank_one_case : is_mat 2 2 km /\ is_vec 2 ku /\ match a_rank_one_update km (fofZ 3 : F) ku with Ok b => Beqb (mget 2 (adata b) 1 0 : f64) (fofZ (-1)) && is_finite (mget 2 (adata b) 1 1 : f64) | _ => false end = true /\
  match a_outer kx ky with Ok o => Beqb (mget 3 (adata o) 1 2 : f64) (fofZ 28) | _ => false end = true.
Proof. exact krank_case. Qed.

(** Vectors to which they apply: (3, -7, 2) and (5, 1, -4). *)
Example C100_case : is_vec 3 kx /\ is_vec 3 ky /\ all_finite kx /\ all_finite ky /\ (forall i, (i < 3)%nat -> Rabs (fcoords kx i * fcoords ky i) <= bpow radix2 600) /\ a_dot kx ky = Ok (fofZ 0).
Proof. exact k_case. Qed.
