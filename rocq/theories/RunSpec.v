(** Vocabulary for whole runs of the drivers on an Ell, over the reals. *)
From Coq Require Import Reals List Arith.
From Verif Require Import Num Res Arr CuttingPlane EllCalc Ell EllRun Spec EllSpec.
Open Scope R_scope.

Definition ball (n : nat) (z : vec) (r : R) (x : vec) : Prop := dot n (fun i => x i - z i) (fun i => x i - z i) <= r * r.

(** A cut (g, c) taken at the centre [xc] is satisfied by [y] when
    [s = g.(y - xc)] satisfies [s + beta <= 0], for a parallel cut
    [s + beta0 <= 0 <= s + beta1].  A central cut ignores beta and beta0. *)
Definition offset (m : mode) (b : R) : R := match m with Central => 0 | _ => b end.
Definition single_sat (m : mode) (c : SingleCut RNum) (s : R) : Prop := s + offset m (sc_beta c) <= 0.
Definition parallel_sat (m : mode) (c : ParallelCut RNum) (s : R) : Prop :=
  s + offset m (pc_beta0 c) <= 0 /\ match pc_beta1 c with Some b1 => 0 <= s + b1 | None => True end.
Definition single_deep (c : SingleCut RNum) : Prop := 0 <= sc_beta c.
Definition parallel_deep (c : ParallelCut RNum) : Prop := 0 <= pc_beta0 c.

Section Oracles.
Context {C O : Type}.
Variables (sat : mode -> C -> R -> Prop) (deep : C -> Prop) (n : nat).

Section Feas.
Variable Inv : O -> Prop.

(** Whatever the feasibility oracle answers at a vector of dimension [n] from a
    state satisfying [Inv]: a vector of dimension [n], a deep cut, satisfied by
    every point of [K]. *)
Definition feas_cuts (K : vec -> Prop) (ora : OracleFeas RNum (Arr RNum) C O) : Prop :=
  forall o x o' ans, Inv o -> vecn n x -> of_assess ora o x = Ok (o', ans) ->
    Inv o' /\ match ans with
    | None => True
    | Some (g, c) => vecn n g /\ deep c /\ forall y, K y -> sat Bias c (along n (coords g) y (coords x))
    end.
Definition feas_total (gmin : R) (ora : OracleFeas RNum (Arr RNum) C O) : Prop :=
  forall o x, Inv o -> vecn n x ->
    exists o' ans, of_assess ora o x = Ok (o', ans) /\
      match ans with None => True | Some (g, _) => gmin * gmin <= dot n (coords g) (coords g) end.
(** The same without a lower bound on the gradients: every cut has the point [z]
    on its good side, at depth [rho]. *)
Definition feas_margin (z : vec) (rho : R) (ora : OracleFeas RNum (Arr RNum) C O) : Prop :=
  forall o x, Inv o -> vecn n x ->
    exists o' ans, of_assess ora o x = Ok (o', ans) /\
      match ans with None => True | Some (g, _) => along n (coords g) z (coords x) <= - rho end.

End Feas.

Section Optim.
(** may also restrict the level, e.g. to levels that are not negative *)
Variable Inv : O -> R -> Prop.
(** [beats y gamma]: [y] is feasible and better than [gamma].  The optimisation
    oracle returns a level no worse than the one it was given, the same level
    unless it says [shrunk], and a cut that every point beating the returned
    level satisfies (as a central cut if [shrunk]). *)
Definition optim_cuts (beats : vec -> R -> Prop) (ora : OracleOptim RNum (Arr RNum) C O) : Prop :=
  forall o x gamma o' gamma' g c shrunk, Inv o gamma -> vecn n x -> ora o x gamma = Ok (o', gamma', ((g, c), shrunk)) ->
    Inv o' gamma' /\ vecn n g /\ deep c /\ (shrunk = false -> gamma' = gamma) /\
    (forall y, beats y gamma' -> beats y gamma) /\
    (forall y, beats y gamma' -> sat (if shrunk then Central else Bias) c (along n (coords g) y (coords x))).
Definition optim_total (gmin : R) (ora : OracleOptim RNum (Arr RNum) C O) : Prop :=
  forall o x gamma, Inv o gamma -> vecn n x ->
    exists o' gamma' g c shrunk, ora o x gamma = Ok (o', gamma', ((g, c), shrunk)) /\
      gmin * gmin <= dot n (coords g) (coords g).
(** every cut has [z] on its good side, at depth [rho], as long as the whole
    ball around [z] beats the level *)
Definition optim_margin (z : vec) (r : R) (beats : vec -> R -> Prop) (rho : R) (ora : OracleOptim RNum (Arr RNum) C O) : Prop :=
  forall o x gamma, Inv o gamma -> vecn n x ->
    exists o' gamma' g c shrunk, ora o x gamma = Ok (o', gamma', ((g, c), shrunk)) /\
      ((forall y, ball n z r y -> beats y gamma') -> along n (coords g) z (coords x) <= - rho).
End Optim.
End Oracles.
