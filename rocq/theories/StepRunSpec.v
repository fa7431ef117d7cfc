(** Sequences of cuts in binary64, and the cuts a driver asks for. *)
From Coq Require Import ZArith Reals List Arith.
From Flocq Require Import Core IEEE754.BinarySingleNaN.
From Verif Require Import Num Res Arr CuttingPlane EllCalc Ell EllRun Spec AccSpec StepAccSpec.
Import ListNotations.
Local Open Scope R_scope.

(** What a driver does while it goes on: the oracle, asked at the centre of the current
    ellipsoid, answers with a cut, the cut is applied with Success, and the squared
    half width is not below the tolerance. *)
Section Asked.
Context {N : Num} {C O : Type} (ct : CutType N C) (tol : N).
Definition goes_on (st : CutStatus) (e : Ell N) : Prop := st = Success /\ (e_tsq e <?! tol) = false.
Inductive asked (ora : OracleFeas N (Arr N) C O) : O -> Ell N -> list (mode * (Arr N * C)) -> O -> Ell N -> Prop :=
| asked_none o e : asked ora o e [] o e
| asked_more o e o1 cut e1 st rest o2 e2 :
    of_assess ora o (e_xc e) = Ok (o1, Some cut) -> apply_cut ct Bias e cut = Ok (e1, st) -> goes_on st e1 ->
    asked ora o1 e1 rest o2 e2 -> asked ora o e ((Bias, cut) :: rest) o2 e2.
(** The feasibility driver: it goes on, and it ends because the oracle has no cut at the
    centre, or because a cut fails or leaves too little, or at the iteration limit. *)
Inductive feas_ends (ora : OracleFeas N (Arr N) C O) (limit : nat) (o : O) (e : Ell N) : O -> Ell N -> option (Arr N) -> nat -> Prop :=
| ends_found l o1 o2 e2 : asked ora o e l o1 e2 -> (length l < limit)%nat -> of_assess ora o1 (e_xc e2) = Ok (o2, None) ->
    feas_ends ora limit o e o2 e2 (Some (e_xc e2)) (length l)
| ends_stuck l o1 e1 o2 cut e2 st : asked ora o e l o1 e1 -> (length l < limit)%nat -> of_assess ora o1 (e_xc e1) = Ok (o2, Some cut) ->
    apply_cut ct Bias e1 cut = Ok (e2, st) -> ~ goes_on st e2 -> feas_ends ora limit o e o2 e2 None (length l)
| ends_limit l o2 e2 : asked ora o e l o2 e2 -> length l = limit -> feas_ends ora limit o e o2 e2 None limit.
(** The same for an optimisation oracle, which also carries the best value; a cut that
    comes with an improvement is applied as a central cut, and the centre at which it
    was found is remembered. *)
Definition cut_mode (sh : bool) : mode := if sh then Central else Bias.
Inductive asked_opt (ora : OracleOptim N (Arr N) C O) : O -> Ell N -> N -> option (Arr N) -> list (mode * (Arr N * C)) -> O -> Ell N -> N -> option (Arr N) -> Prop :=
| asked_opt_none o e ga xb : asked_opt ora o e ga xb [] o e ga xb
| asked_opt_more o e ga xb o1 ga1 cut (sh : bool) e1 st rest o2 e2 ga2 xb2 :
    ora o (e_xc e) ga = Ok (o1, ga1, (cut, sh)) -> apply_cut ct (cut_mode sh) e cut = Ok (e1, st) -> goes_on st e1 ->
    asked_opt ora o1 e1 ga1 (if sh then Some (e_xc e) else xb) rest o2 e2 ga2 xb2 ->
    asked_opt ora o e ga xb ((cut_mode sh, cut) :: rest) o2 e2 ga2 xb2.
Inductive opt_ends (ora : OracleOptim N (Arr N) C O) (limit : nat) (o : O) (e : Ell N) (ga : N) : O -> Ell N -> N -> option (Arr N) -> nat -> Prop :=
| opt_stuck l o1 e1 ga1 xb1 o2 ga2 cut (sh : bool) e2 st : asked_opt ora o e ga None l o1 e1 ga1 xb1 -> (length l < limit)%nat ->
    ora o1 (e_xc e1) ga1 = Ok (o2, ga2, (cut, sh)) -> apply_cut ct (cut_mode sh) e1 cut = Ok (e2, st) -> ~ goes_on st e2 ->
    opt_ends ora limit o e ga o2 e2 ga2 (if sh then Some (e_xc e1) else xb1) (length l)
| opt_limit l o2 e2 ga2 xb2 : asked_opt ora o e ga None l o2 e2 ga2 xb2 -> length l = limit -> opt_ends ora limit o e ga o2 e2 ga2 xb2 limit.
(** The discrete driver: whether it goes on after a cut, and with which retry flag.  It
    stops when there is no solution, when a cut without effect was the last
    alternative, or when the squared half width is below the tolerance. *)
Definition q_next (st : CutStatus) (more : bool) (retry : bool) (e : Ell N) : option bool :=
  if e_tsq e <?! tol then None
  else match st, more with Success, _ => Some false | NoEffect, true => Some true | Unknown, _ => Some retry | _, _ => None end.
(** what one question and one cut make of the state *)
Definition q_step (ora : OracleOptimQ N (Arr N) C O) (o : O) (e : Ell N) (ga : N) (xb : option (Arr N)) (retry : bool)
    (cut : Arr N * C) (o1 : O) (e1 : Ell N) (ga1 : N) (xb1 : option (Arr N)) (next : option bool) : Prop :=
  exists sh x_q more st, ora o (e_xc e) ga retry = Ok (o1, ga1, (cut, sh, x_q, more)) /\ apply_cut ct Quantised e cut = Ok (e1, st) /\
    xb1 = (if sh then Some x_q else xb) /\ next = q_next st more (if sh then false else retry) e1.
Inductive asked_q (ora : OracleOptimQ N (Arr N) C O) : O -> Ell N -> N -> option (Arr N) -> bool -> list (mode * (Arr N * C)) -> O -> Ell N -> N -> option (Arr N) -> bool -> Prop :=
| asked_q_none o e ga xb r : asked_q ora o e ga xb r [] o e ga xb r
| asked_q_more o e ga xb r cut o1 e1 ga1 xb1 r1 rest o2 e2 ga2 xb2 r2 :
    q_step ora o e ga xb r cut o1 e1 ga1 xb1 (Some r1) -> asked_q ora o1 e1 ga1 xb1 r1 rest o2 e2 ga2 xb2 r2 ->
    asked_q ora o e ga xb r ((Quantised, cut) :: rest) o2 e2 ga2 xb2 r2.
Inductive q_ends (ora : OracleOptimQ N (Arr N) C O) (limit : nat) (o : O) (e : Ell N) (ga : N) : O -> Ell N -> N -> option (Arr N) -> nat -> Prop :=
| q_stuck l o1 e1 ga1 xb1 r1 cut o2 e2 ga2 xb2 : asked_q ora o e ga None false l o1 e1 ga1 xb1 r1 -> (length l < limit)%nat ->
    q_step ora o1 e1 ga1 xb1 r1 cut o2 e2 ga2 xb2 None -> q_ends ora limit o e ga o2 e2 ga2 xb2 (length l)
| q_limit l o2 e2 ga2 xb2 r2 : asked_q ora o e ga None false l o2 e2 ga2 xb2 r2 -> length l = limit -> q_ends ora limit o e ga o2 e2 ga2 xb2 limit.
End Asked.

Section F.
Context {lm : Libm}.
Notation F := (FNum lm).
Notation single := (single_cut (N := F)).
(** a central cut ignores its offset *)
Definition foff (m : mode) (b : SingleCut F) : R := match m with Central => 0 | _ => B2R (sc_beta b : f64) end.
(** along the whole sequence the state stays tame with slack at most [s], no cut is deeper
    than half the half width, and the excess grows by at most [G] per cut *)
Fixpoint tame_run (n : nat) (s G : R) (e : Ell F) (cuts : list (mode * (Arr F * SingleCut F))) : Prop :=
  match cuts with
  | [] => exists lam Lam X, tame n e lam Lam X
  | (m, (g, b)) :: rest =>
      (exists lam Lam X, tame n e lam Lam X /\ slack n lam Lam X (fkap e) <= s) /\ grad_ok n g /\
      grow n (depth n e g (foff m b)) <= G /\ (m = Central \/ moderate_or_zero (sc_beta b)) /\
      exists e', apply_cut single m e (g, b) = Ok (e', Success) /\ moderate (e_tsq e') /\ 2 * foff m b <= sqrt (B2R (e_tsq e' : f64)) /\
        tame_run n s G e' rest
  end.
(** [z] satisfies every cut, each read at the centre at which it is applied *)
Fixpoint satisfies (n : nat) (z : vec) (e : Ell F) (cuts : list (mode * (Arr F * SingleCut F))) : Prop :=
  match cuts with
  | [] => True
  | (m, (g, b)) :: rest => along n (fcoords g) z (fcoords (e_xc e)) + foff m b <= 0 /\
      forall e' st, apply_cut single m e (g, b) = Ok (e', st) -> satisfies n z e' rest
  end.
(** the excess after [k] cuts: [s (1 + q + ... + q^(k-1))] with [q = G (1 + s)] *)
Definition excess (s G : R) (k : nat) : R := s * Rsum k (fun i => (G * (1 + s)) ^ i).
(** whatever cut the oracle answers with, every point of [K] satisfies it *)
Definition feas_valid {O} (n : nat) (K : vec -> Prop) (ora : OracleFeas F (Arr F) (SingleCut F) O) : Prop :=
  forall o x o' g b, of_assess ora o x = Ok (o', Some (g, b)) -> forall y, K y -> along n (fcoords g) y (fcoords x) + B2R (sc_beta b : f64) <= 0.
(** ... every point that beats the level returned with the cut; and levels only improve *)
Definition opt_valid {O} (n : nat) (beats : vec -> F -> Prop) (ora : OracleOptim F (Arr F) (SingleCut F) O) : Prop :=
  forall o x ga o' ga' g b sh, ora o x ga = Ok (o', ga', ((g, b), sh)) ->
    (forall y, beats y ga' -> beats y ga) /\ forall y, beats y ga' -> along n (fcoords g) y (fcoords x) + foff (cut_mode sh) b <= 0.
End F.
