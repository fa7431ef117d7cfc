(** Specification of the example oracles: the optimisation problems they are
    about, and what a correct answer to a query is. *)
From Coq Require Import ZArith Reals List Bool.
From Verif Require Import Num Res Arr CuttingPlane Spec LmiSpec.
Import ListNotations.
Open Scope R_scope.

(** maximise x + y subject to x + y <= 3, x - y >= 1 *)
Definition prob1 (x y : R) : Prop := x + y <= 3 /\ 1 <= x - y.
Definition obj1 (x y : R) : R := x + y.
(** maximise 2x - 3y subject to x >= -1, y >= -2, x + y <= 1 *)
Definition prob4 (x y : R) : Prop := -1 <= x /\ -2 <= y /\ x + y <= 1.
Definition obj4 (x y : R) : R := 2 * x - 3 * y.
(** maximise s / e^l subject to s^2 <= l *)
Definition probq (s l : R) : Prop := s * s <= l.
Definition objq (s l : R) : R := s / exp l.

(** the cut (g, beta) at x is satisfied by every point of Y *)
Definition valid_cut (n : nat) (g x : vec) (beta : R) (Y : vec -> Prop) : Prop :=
  forall u, Y u -> dot n g (fun i => u i - x i) + beta <= 0.

(** A correct answer of an optimisation oracle (two variables, maximisation),
    queried at [x] with the value [gamma] to beat: *)
Record good_answer (feas : R -> R -> Prop) (obj : R -> R -> R) (x : vec) (gamma gamma' : R)
    (g : Arr RNum) (beta : R) (better : bool) : Prop := {
  ga_shape : length (adata g) = 2%nat /\ acols g = 0%nat;
  ga_better : better = true <-> feas (x 0%nat) (x 1%nat) /\ gamma <= obj (x 0%nat) (x 1%nat);
  ga_yes : better = true -> gamma' = obj (x 0%nat) (x 1%nat) /\ beta = 0;
  ga_no : better = false -> gamma' = gamma /\ 0 < beta;
  ga_cut : valid_cut 2 (xvec g) x beta (fun u => feas (u 0%nat) (u 1%nat) /\ gamma' <= obj (u 0%nat) (u 1%nat))
}.

(** No listed value is positive, as far as the comparison of the number type tells. *)
Definition none_positive {N : Num} (l : list N) : Prop := forall v, In v l -> (v >?! n0) = false.
(** A correct decision, for any number type: [tests] are the constraint values
    and [f0] the objective value at the queried point. *)
Definition decides {N : Num} (tests : list N) (f0 gamma gamma' beta : N) (better : bool) : Prop :=
  (better = true <-> none_positive tests) /\
  (better = true -> gamma' = f0 /\ beta = n0) /\
  (better = false -> gamma' = gamma /\ In beta tests /\ (beta >?! n0) = true).
