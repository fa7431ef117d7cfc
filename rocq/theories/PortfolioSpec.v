(** Vocabulary of C87, independent of the model's own helpers. *)
From Coq Require Import ZArith Reals List Arith.
From Verif Require Import Num Arr ArrLemmas Spec EllSpec Portfolio.
Local Open Scope R_scope.

Section AnyNumber.
Context {N : Num}.
(** [n] assets: [n] expected returns, an [n] x [n] risk matrix *)
Definition assets (n : nat) (p : Portfolio N) : Prop := is_vec n (pf_returns p) /\ is_mat n n (pf_risk p).
(** x_0 + x_1 + ..., left to right from 0 *)
Definition invested (n : nat) (x : Arr N) : N := accum n0 (vget x) n.
(** the products x_i Q_ij x_j added up row by row from 0 *)
Fixpoint by_rows (z : N) (f : nat -> nat -> N) (r c : nat) : N :=
  match r with O => z | S k => accum (by_rows z f k c) (f k) c end.
Definition variance (n : nat) (p : Portfolio N) (x : Arr N) : N :=
  by_rows n0 (fun i j => vget x i *! mget n (adata (pf_risk p)) i j *! vget x j) n n.
(** minus the expected return (sums of [iter().sum()] start from [nsum0]) *)
Definition loss (n : nat) (p : Portfolio N) (x : Arr N) : N :=
  -! accum nsum0 (fun i => vget (pf_returns p) i *! vget x i) n.
(** what the oracle accepts *)
Definition accepted (n : nat) (p : Portfolio N) (x : Arr N) : Prop :=
  (invested n x -! pf_budget p >?! n0) = false /\ (variance n p x -! pf_max_risk p >?! n0) = false.
End AnyNumber.

(** The problem in real arithmetic: minimise [- r . y] over [sum y <= budget],
    [y' Q y <= max_risk]. *)
Definition total (n : nat) (y : vec) : R := Rsum n y.
Definition riskm (n : nat) (p : Portfolio RNum) : mtx := fun i j => nth (i * n + j) (adata (pf_risk p)) 0.
Definition shortfall (n : nat) (p : Portfolio RNum) (y : vec) : R := - dot n (coords (pf_returns p)) y.
Definition admissible (n : nat) (p : Portfolio RNum) (y : vec) : Prop :=
  total n y <= pf_budget p /\ quad n (riskm n p) y <= pf_max_risk p.
Definition no_worse (n : nat) (p : Portfolio RNum) (y : vec) (gamma : R) : Prop :=
  admissible n p y /\ shortfall n p y <= gamma.
