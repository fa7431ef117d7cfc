(** Sequences of pairs of parallel cuts in binary64 (C110). *)
From Coq Require Import ZArith Reals List Arith.
From Flocq Require Import Core IEEE754.BinarySingleNaN.
From Verif Require Import Num Res Arr CuttingPlane EllCalc Ell EllRun Spec AccSpec StepAccSpec StepRunSpec ParAccSpec.
Import ListNotations.
Local Open Scope R_scope.

Section F.
Context {lm : Libm}.
Notation F := (FNum lm).
Notation pair := (parallel_cut (N := F)).
(** a central cut ignores the first offset *)
Definition poff (m : mode) (b : ParallelCut F) : R := match m with Central => 0 | _ => B2R (pc_beta0 b : f64) end.
(** the step with a pair whose second cut is seen inside the ellipsoid and whose slab is
    not too thin *)
Definition slab_step (n : nat) (s G : R) (e : Ell F) (m : mode) (b : ParallelCut F) (e' : Ell F) : Prop :=
  exists (b1 : f64) lam Lam X r, pc_beta1 b = Some b1 /\ moderate b1 /\ poff m b < B2R b1 /\ Bleb (e_tsq e' : f64) (fmul b1 b1) = false /\
    thick (B2R (e_tsq e' : f64)) (poff m b) (B2R b1) r /\ tame n e lam Lam X /\ pair_slack n lam Lam X (fkap e) r <= s /\ 4 / 3 <= G.
(** the step with a pair whose second cut is seen outside, or is missing *)
Definition half_step (n : nat) (s G : R) (e : Ell F) (m : mode) (g : Arr F) (b : ParallelCut F) (e' : Ell F) : Prop :=
  exists lam Lam X, tame n e lam Lam X /\ slack n lam Lam X (fkap e) <= s /\ grow n (depth n e g (poff m b)) <= G /\
    forall b1 : f64, pc_beta1 b = Some b1 -> moderate b1 /\ poff m b <= B2R b1 /\ Bleb (e_tsq e' : f64) (fmul b1 b1) = true.
(** along the whole sequence each step is one of the two kinds, and no first cut is deeper
    than half the half width *)
Fixpoint pair_run (n : nat) (s G : R) (e : Ell F) (cuts : list (mode * (Arr F * ParallelCut F))) : Prop :=
  match cuts with
  | [] => exists lam Lam X, tame n e lam Lam X
  | (m, (g, b)) :: rest =>
      grad_ok n g /\ (m = Central \/ moderate_or_zero (pc_beta0 b)) /\
      exists e', apply_cut pair m e (g, b) = Ok (e', Success) /\ moderate (e_tsq e') /\ 2 * poff m b <= sqrt (B2R (e_tsq e' : f64)) /\
        (slab_step n s G e m b e' \/ half_step n s G e m g b e') /\ pair_run n s G e' rest
  end.
(** [z] lies between the two cuts of every pair, each read at the centre at which it is
    applied *)
Definition in_slab (n : nat) (m : mode) (g : Arr F) (b : ParallelCut F) (z c : vec) : Prop :=
  along n (fcoords g) z c + poff m b <= 0 /\ forall b1 : f64, pc_beta1 b = Some b1 -> 0 <= along n (fcoords g) z c + B2R b1.
Fixpoint in_slabs (n : nat) (z : vec) (e : Ell F) (cuts : list (mode * (Arr F * ParallelCut F))) : Prop :=
  match cuts with
  | [] => True
  | (m, (g, b)) :: rest => in_slab n m g b z (fcoords (e_xc e)) /\ forall e' st, apply_cut pair m e (g, b) = Ok (e', st) -> in_slabs n z e' rest
  end.
(** whatever pair the oracle answers with at a centre that satisfies [ok], every point of
    [K] lies between the cuts *)
Definition feas_pairs {O} (n : nat) (ok : O -> Arr F -> Prop) (K : vec -> Prop) (ora : OracleFeas F (Arr F) (ParallelCut F) O) : Prop :=
  forall o x o' g b, ok o x -> of_assess ora o x = Ok (o', Some (g, b)) -> forall y, K y -> in_slab n Bias g b y (fcoords x).
(** ... for an optimisation oracle: every point that beats the level returned with the
    cut; and levels only improve *)
Definition opt_pairs {O} (n : nat) (ok : O -> Arr F -> F -> Prop) (beats : vec -> F -> Prop) (ora : OracleOptim F (Arr F) (ParallelCut F) O) : Prop :=
  forall o x ga o' ga' g b sh, ok o x ga -> ora o x ga = Ok (o', ga', ((g, b), sh)) ->
    (forall y, beats y ga' -> beats y ga) /\ forall y, beats y ga' -> in_slab n (cut_mode sh) g b y (fcoords x).
End F.
