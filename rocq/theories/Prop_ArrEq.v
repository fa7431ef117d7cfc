(** C92: equality of arrays, the constructors [full] and [from_fn], arithmetic with a
    scalar, [Ell::from_covariance]. *)
From Coq Require Import ZArith Reals List Bool.
From Flocq Require Import Core IEEE754.BinarySingleNaN.
From Verif Require Import Num Res Arr Ell Spec RealLin EllSpec EllReal EllCuts ArrEq EllLemmas Prop_Ell.
Import ListNotations.

(** [a == a] in binary64 exactly when no element is NaN; [==] is symmetric and
    transitive; the two zeros are equal. *)
Theorem C92_reflexive (lm : Libm) (a : Arr (FNum lm)) : a_eqb a a = true <-> Forall (fun x : f64 => is_nan x = false) (adata a).
Proof. exact (eq_refl_f lm a). Qed.
Print Assumptions C92_reflexive.
Theorem C92_symmetric (lm : Libm) (a b : Arr (FNum lm)) : a_eqb a b = a_eqb b a.
Proof. exact (eq_sym_f lm a b). Qed.
Print Assumptions C92_symmetric.
Theorem C92_transitive (lm : Libm) (a b c : Arr (FNum lm)) : a_eqb a b = true -> a_eqb b c = true -> a_eqb a c = true.
Proof. exact (eq_trans_f lm a b c). Qed.
Print Assumptions C92_transitive.
(** case: the two zeros, equal but different *)
Theorem C92_zeros (lm : Libm) : let a := a_from (N := FNum lm) [B754_zero false] in let b := a_from (N := FNum lm) [B754_zero true] in a_eqb a b = true /\ a <> b.
Proof. exact (zero_eq lm). Qed.
Print Assumptions C92_zeros.
(** Without rounding, NaN and signed zeros [==] is equality of data and shape... *)
Theorem C92_exact (a b : Arr RNum) : a_eqb a b = true <-> a = b.
Proof. exact (eq_real a b). Qed.
Print Assumptions C92_exact.
(** ... and shape matters: a vector of length one is not a matrix of one element. *)
Theorem C92_shape (N : Num) (x : N) : a_eqb (a_from [x]) (a_full 1 1 x) = false.
Proof. exact (eq_shape N x). Qed.
Print Assumptions C92_shape.

Theorem C92_full (N : Num) r c (v : N) i j : (i < r)%nat -> (j < c)%nat -> a_idx2 (a_full r c v) i j = Ok v /\ a_get (a_full r c v) i j = Ok v.
Proof. exact (full_get N r c v i j). Qed.
Print Assumptions C92_full.
Theorem C92_from_fn (N : Num) n (f : nat -> N) i : a_idx (a_from_fn n f) i = if Nat.ltb i n then Ok (f i) else Panic.
Proof. exact (from_fn_idx N n f i). Qed.
Print Assumptions C92_from_fn.

(** Arithmetic with a scalar is element by element and keeps the shape. *)
Theorem C92_scalar (N : Num) (a : Arr N) (s : N) i :
  a_idx (a_adds a s) i = (x <- a_idx a i ;; Ok (nadd x s)) /\ a_idx (a_subs a s) i = (x <- a_idx a i ;; Ok (nsub x s)) /\
  a_idx (a_muls a s) i = (x <- a_idx a i ;; Ok (nmul x s)) /\
  arows (a_adds a s) = arows a /\ acols (a_adds a s) = acols a /\ arows (a_subs a s) = arows a /\ acols (a_subs a s) = acols a /\
  arows (a_muls a s) = arows a /\ acols (a_muls a s) = acols a.
Proof. exact (scalar_idx N a s i). Qed.
Print Assumptions C92_scalar.
(** Laws that survive rounding, bit for bit. *)
Theorem C92_subtract_negate (lm : Libm) (a : Arr (FNum lm)) (s : FNum lm) : a_subs a s = a_adds a (nopp s).
Proof. exact (subs_neg lm a s). Qed.
Print Assumptions C92_subtract_negate.
Theorem C92_add_commutes (lm : Libm) (a b : Arr (FNum lm)) : arows a = arows b -> acols a = acols b -> a_add a b = a_add b a.
Proof. exact (add_comm_f lm a b). Qed.
Print Assumptions C92_add_commutes.
Theorem C92_negate_twice (lm : Libm) (a : Arr (FNum lm)) : a_neg (a_neg a) = a.
Proof. exact (neg_neg lm a). Qed.
Print Assumptions C92_negate_twice.

(** [from_covariance]: the set of points within one standard deviation. *)
Theorem C92_from_covariance n W (cov xc : Arr RNum) :
  let e := ell_from_covariance (N := RNum) cov xc in
  sym n (shape n e) -> inverse n (shape n e) W ->
  forall x, pts n e x <-> (quad n W (fun i => x i - coords xc i) <= 1)%R.
Proof. exact (fun HS HI x => in_ell_inverse n _ W 1%R (coords xc) x HS HI). Qed.
Print Assumptions C92_from_covariance.
Example C92_case : let e := ell_from_covariance (N := RNum) (mkArr (N := RNum) [4; 1; 1; 3]%R 2 2) (mkArr (N := RNum) [1; -1]%R 2 0) in
  sym 2 (shape 2 e) /\ inverse 2 (shape 2 e) (fun i j => if Nat.eqb i j then match i with O => 3/11 | _ => 4/11 end else -1/11)%R.
Proof. exact Prop_Ell.C26_case. Qed.
