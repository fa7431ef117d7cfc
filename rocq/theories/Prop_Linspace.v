(** Property C121: linspace and arange in double arithmetic. *)
From Coq Require Import ZArith Reals List Arith Bool.
From Flocq Require Import Core IEEE754.BinarySingleNaN.
From Verif Require Import Num Res Arr Spec StepAccSpec LinspaceAcc LinspaceEx.
Import ListNotations.
Local Open Scope R_scope.

(** [linspace(a, b, n)]: n finite points in order, the first is exactly [a], each within
    rounding of where it belongs. *)
Theorem C121_linspace : forall (lm : Libm) (a b : f64) (n : nat) (M : R),
  is_finite a = true -> is_finite b = true -> Rabs (B2R a) <= M -> Rabs (B2R b) <= M -> M <= bpow radix2 1000 ->
  (2 <= n)%nat -> (Z.of_nat n <= 2 ^ 53)%Z ->
  exists l : Arr (FNum lm), linspace (N := FNum lm) a b n = Ok l /\ length (adata l) = n /\ acols l = 0%nat /\ all_finite l /\ fcoords l 0%nat = B2R a /\
    (forall i, (i < n)%nat -> Rabs (fcoords l i - (B2R a + (B2R b - B2R a) * INR i / INR (n - 1))) <= bpow radix2 (-53) * (16 * M) + 4 * INR n * bpow radix2 (-1075)) /\
    (forall i j, (i <= j < n)%nat -> (B2R a <= B2R b -> fcoords l i <= fcoords l j) /\ (B2R b <= B2R a -> fcoords l j <= fcoords l i)).
Proof. exact @linspace_f64. Qed.
Print Assumptions C121_linspace.

(** But the last point need not be the end point: it can be below (linspace(0, 1, 50))
    and above (linspace(0, 7, 26)). *)
Theorem C121_end_refuted : exists (n m : nat) (b c : f64),
  at_pos (linspace (N := FNum lm0) (fofZ 0) b n) (n - 1) (fun x => Bltb x b) = true /\
  at_pos (linspace (N := FNum lm0) (fofZ 0) c m) (m - 1) (fun x => Bltb c x) = true.
Proof. exact (ex_intro _ 50%nat (ex_intro _ 26%nat (ex_intro _ (fofZ 1) (ex_intro _ (fofZ 7) (conj last_below last_above))))). Qed.
Print Assumptions C121_end_refuted.

(** [arange(a, b)] *)
Theorem C121_arange : forall (lm : Libm) (a b : f64), is_finite a = true -> is_finite b = true ->
  Rabs (B2R a) <= bpow radix2 50 -> Rabs (B2R b) <= bpow radix2 50 -> B2R a < B2R b ->
  exists (l : Arr (FNum lm)) (n : nat), arange (N := FNum lm) a b = Ok l /\ length (adata l) = n /\ acols l = 0%nat /\ all_finite l /\
    (Zfloor (B2R b - B2R a) <= Z.of_nat n <= Zceil (B2R b - B2R a))%Z /\
    (forall i, (i < n)%nat -> Rabs (fcoords l i - (B2R a + INR i)) <= bpow radix2 (-53) * Rabs (B2R a + INR i) + bpow radix2 (-1075) /\ B2R a <= fcoords l i < B2R b) /\
    (forall i j, (i < j < n)%nat -> fcoords l i < fcoords l j).
Proof. exact @arange_f64. Qed.
Print Assumptions C121_arange.
Theorem C121_arange_empty : forall (lm : Libm) (a b : f64), is_finite a = true -> is_finite b = true -> B2R b <= B2R a ->
  arange (N := FNum lm) a b = Ok (a_new (N := FNum lm) 0).
Proof. exact @arange_empty. Qed.
Print Assumptions C121_arange_empty.

(** Both ends of the count occur: arange(2^-60, 3) has three points (floor(b - a) = 2). *)
Example C121_case : at_pos (arange (N := FNum lm0) (fdiv (fofZ 1) (fofZ (2 ^ 60))) (fofZ 3)) 2 (fun x => Beqb x (fofZ 2)) = true.
Proof. exact one_more. Qed.
(** The bound 2^50 on the ends cannot become 2^54: arange(2^53, 2^53 + 4) repeats its first
    point and contains its end point. *)
Theorem C121_arange_refuted : exists a b : f64,
  at_pos (arange (N := FNum lm0) a b) 1 (fun x => Beqb x a) = true /\
  at_pos (arange (N := FNum lm0) a b) 3 (fun x => Beqb x b) = true.
Proof. exact (ex_intro _ (fofZ (2 ^ 53)) (ex_intro _ (fofZ (2 ^ 53 + 4)) (conj repeats reaches_end))). Qed.
Print Assumptions C121_arange_refuted.
