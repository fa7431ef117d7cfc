(** Vocabulary for whole runs of cutting_plane_optim_q on an Ell, over the reals. *)
From Coq Require Import Reals List Arith.
From Verif Require Import Num Res Arr CuttingPlane EllCalc Ell EllRun Spec EllSpec RunSpec.
Open Scope R_scope.

Section OraclesQ.
Context {C O : Type}.
Variables (sat : mode -> C -> R -> Prop) (n : nat) (Inv : O -> R -> Prop).
(** [beats y gamma]: [y] is admissible (e.g. a discrete design) and better than
    [gamma].  The oracle may answer with a cut through any point, so the cut may
    be shallow (negative beta); all it promises is that the level does not get
    worse and that the points beating the returned level satisfy the cut. *)
Definition optim_q_cuts (beats : vec -> R -> Prop) (ora : OracleOptimQ RNum (Arr RNum) C O) : Prop :=
  forall o x gamma retry o' gamma' g c shrunk xq more, Inv o gamma -> vecn n x ->
    ora o x gamma retry = Ok (o', gamma', ((g, c), shrunk, xq, more)) ->
    Inv o' gamma' /\ vecn n g /\
    (forall y, beats y gamma' -> beats y gamma) /\
    (forall y, beats y gamma' -> sat Bias c (along n (coords g) y (coords x))).
(** The oracle never says that it has run out of alternative cuts. *)
Definition always_more (ora : OracleOptimQ RNum (Arr RNum) C O) : Prop :=
  forall o x gamma retry o' gamma' cut shrunk xq more,
    ora o x gamma retry = Ok (o', gamma', (cut, shrunk, xq, more)) -> more = true.
End OraclesQ.
