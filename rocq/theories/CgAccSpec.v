(** What an answer of conjugate_gradient means in binary64 (C113). *)
From Coq Require Import ZArith Reals List Arith.
From Flocq Require Import Core IEEE754.BinarySingleNaN.
From Verif Require Import Num Res Arr ArrLemmas Spec PowerSpec StepAccSpec Cg.
Local Open Scope R_scope.

Section F.
Context {lm : Libm}.
Notation F := (FNum lm).
(** [s'] is the state [k] rounds after [s] *)
Inductive cg_path (a : Arr F) (n : nat) (tol : F) : cg_state (N := F) -> nat -> cg_state (N := F) -> Prop :=
| cp_here s : cg_path a n tol s 0 s
| cp_next s s1 k s' : cg_step a n tol s = Ok (Next s1) -> cg_path a n tol s1 k s' -> cg_path a n tol s (S k) s'.
(** the state before the first round *)
Definition cg_first (a b : Arr F) (x0 : option (Arr F)) (s : cg_state (N := F)) : Prop :=
  let '(x, r, p, rho) := s in
  x = match x0 with Some x0 => x0 | None => a_new (a_len b) end /\ p = r /\
  exists ax, a_dot_mv a x = Ok ax /\ a_sub b ax = Ok r /\ a_dot r r = Ok rho.
(** iterates up to [X], tracked residuals up to [Y], the next step size up to [T] *)
Definition cg_within (n : nat) (a : Arr F) (X Y T : R) (s : cg_state (N := F)) : Prop :=
  let '(x, r, p, rho) := s in
  (forall i, (i < n)%nat -> Rabs (fcoords x i) <= X) /\ (forall i, (i < n)%nat -> Rabs (fcoords r i) <= Y) /\
  forall ad d, a_dot_mv a p = Ok ad -> a_dot p ad = Ok d -> Rabs (B2R (ndiv (n := F) rho d : f64)) <= T.
(** what a round adds to the difference of the tracked and the true residual; [W] bounds
    the coefficients of the system *)
Definition cg_unit (n : nat) (W X Y T : R) : R := (11 * (INR n * INR n) * W * X + 4 * Y) * bpow radix2 (-53) + (INR n * W + INR n * T + 1) * bpow radix2 (-1072).
End F.
