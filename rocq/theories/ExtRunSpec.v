(** Whole runs over the extended reals: an oracle over [ENum] that answers finite
    questions with the same finite answers as an oracle over the reals. *)
From Coq Require Import Reals List Arith.
From Verif Require Import Num Res Arr CuttingPlane EllCalc Ell Spec EllSpec EllRun RunSpec ExtSpec.
Open Scope R_scope.

Definition fin_options (o : Options RNum) : Options ENum := mkOptions (N := ENum) (max_iters o) (Fin (tolerance o)).

(** a level over [ENum] that is the real level *)
Definition same_level (gE : ext) (gamma : R) : Prop := gE = Fin gamma.

Section Sim.
Context {C CE O OE : Type} (finc : C -> CE) (n : nat) (rel : OE -> O -> Prop) (lev : ext -> R -> Prop).

(** [Inv]: real oracle states (and levels) for which this has to hold. *)
Definition feas_sim (Inv : O -> Prop) (oraE : OracleFeas ENum (Arr ENum) CE OE) (ora : OracleFeas RNum (Arr RNum) C O) : Prop :=
  forall oE o x o' ans, rel oE o -> Inv o -> vecn n x -> of_assess ora o x = Ok (o', ans) ->
    exists oE', of_assess oraE oE (fin_arr x) = Ok (oE', option_map (fun gc => (fin_arr (fst gc), finc (snd gc))) ans) /\ rel oE' o'.
Definition optim_sim (Inv : O -> R -> Prop) (oraE : OracleOptim ENum (Arr ENum) CE OE) (ora : OracleOptim RNum (Arr RNum) C O) : Prop :=
  forall oE o x gE gamma o' gamma' g c sh, rel oE o -> lev gE gamma -> Inv o gamma -> vecn n x -> ora o x gamma = Ok (o', gamma', ((g, c), sh)) ->
    exists oE' gE', oraE oE (fin_arr x) gE = Ok (oE', gE', ((fin_arr g, finc c), sh)) /\ rel oE' o' /\ lev gE' gamma'.
Definition optim_q_sim (Inv : O -> R -> Prop) (oraE : OracleOptimQ ENum (Arr ENum) CE OE) (ora : OracleOptimQ RNum (Arr RNum) C O) : Prop :=
  forall oE o x gE gamma retry o' gamma' g c sh xq more, rel oE o -> lev gE gamma -> Inv o gamma -> vecn n x -> ora o x gamma retry = Ok (o', gamma', ((g, c), sh, xq, more)) ->
    exists oE' gE', oraE oE (fin_arr x) gE retry = Ok (oE', gE', ((fin_arr g, finc c), sh, fin_arr xq, more)) /\ rel oE' o' /\ lev gE' gamma'.

(** What the real oracle has to guarantee besides: the invariant, vectors of the
    right dimension, and cuts that do not pass beyond the centre. *)
Definition feas_deep (deep : C -> Prop) (Inv : O -> Prop) (ora : OracleFeas RNum (Arr RNum) C O) : Prop :=
  forall o x o' ans, Inv o -> vecn n x -> of_assess ora o x = Ok (o', ans) ->
    Inv o' /\ forall g c, ans = Some (g, c) -> vecn n g /\ deep c.
Definition optim_deep (deep : C -> Prop) (Inv : O -> R -> Prop) (ora : OracleOptim RNum (Arr RNum) C O) : Prop :=
  forall o x gamma o' gamma' g c sh, Inv o gamma -> vecn n x -> ora o x gamma = Ok (o', gamma', ((g, c), sh)) ->
    Inv o' gamma' /\ vecn n g /\ deep c.
Definition optim_q_deep (deep : C -> Prop) (Inv : O -> R -> Prop) (ora : OracleOptimQ RNum (Arr RNum) C O) : Prop :=
  forall o x gamma retry o' gamma' g c sh xq more, Inv o gamma -> vecn n x -> ora o x gamma retry = Ok (o', gamma', ((g, c), sh, xq, more)) ->
    Inv o' gamma' /\ vecn n g /\ deep c.

(** An infinitely bad level [bad] -- minus infinity when maximising, plus infinity
    when minimising -- is answered like every real level that is bad enough at
    the point asked about: [worse gamma T]. *)
Definition far_sim (worse : R -> R -> Prop) (bad : ext) (Inv : O -> Prop) (oraE : OracleOptim ENum (Arr ENum) CE OE) (ora : OracleOptim RNum (Arr RNum) C O) : Prop :=
  forall oE o x, rel oE o -> Inv o -> vecn n x -> exists (T : R) o' (l : R) g c (sh : bool) oE',
    (forall gamma : R, worse gamma T -> ora o x gamma = Ok (o', if sh then l else gamma, ((g, c), sh))) /\
    oraE oE (fin_arr x) bad = Ok (oE', if sh then Fin l else bad, ((fin_arr g, finc c), sh)) /\ rel oE' o'.
End Sim.

(** For the discrete driver a single cut may be arbitrarily shallow; a parallel
    one must not exclude the centre on its far side. *)
Definition parallel_near (c : ParallelCut RNum) : Prop :=
  match pc_beta1 c with Some b1 => pc_beta0 c <= b1 -> 0 <= b1 | None => True end.
