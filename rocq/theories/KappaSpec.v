(** The sign of kappa in binary64: vocabulary. *)
From Coq Require Import ZArith Reals.
From Flocq Require Import Core IEEE754.BinarySingleNaN.
From Verif Require Import Num Res Arr CuttingPlane EllCalc Ell Lowpass.
Open Scope R_scope.

(** A float that is not negative: sign bit clear, or NaN ([Bsign] of NaN is
    [false]). *)
Definition clear (x : f64) : Prop := Bsign x = false.
(** [tsq] is not a tiny nonnegative number (underflow range). *)
Definition not_tiny (t : f64) : Prop := is_finite t = true -> B2R t < 0 \/ bpow radix2 (-1000) <= B2R t.

(** Cuts through or beyond the centre, as binary64 data. *)
Definition clear_single {lm} (c : SingleCut (FNum lm)) : Prop := clear (sc_beta c).
Definition clear_parallel {lm} (c : ParallelCut (FNum lm)) : Prop :=
  clear (pc_beta0 c) /\ match pc_beta1 c with Some b1 => Bltb (fofZ 0) b1 = true | None => True end.

(** The tables of dimension [n], whatever the setting of [use_parallel_cut]. *)
Definition calc_of {lm} (n : nat) (h : EllCalc (FNum lm)) : Prop :=
  exists flag, h = mkCalc (N := FNum lm) (nN n) (core_new (nN n)) flag.

(** Oracles whose bias cuts all satisfy [P], as long as their state (and the level)
    satisfy the invariant [I]. *)
Definition feas_only {N : Num} {A C O} (I : O -> Prop) (P : C -> Prop) (ora : OracleFeas N A C O) : Prop :=
  forall o x o' r, I o -> of_assess ora o x = Ok (o', r) -> I o' /\ match r with Some (_, c) => P c | None => True end.
Definition optim_only {N : Num} {A C O} (I : O -> N -> Prop) (P : C -> Prop) (ora : OracleOptim N A C O) : Prop :=
  forall o x gamma o' gamma' g c sh, I o gamma -> ora o x gamma = Ok (o', gamma', ((g, c), sh)) -> I o' gamma' /\ (sh = false -> P c).
(** The lowpass oracle: the bounds of the pass band in order, the level of the stop
    band nonnegative (or infinite). *)
Definition low_ok {lm} (o : Lowpass (FNum lm)) (sp : FNum lm) : Prop :=
  Bleb (lw_lp o : f64) (lw_up o) = true /\ Bleb (fofZ 0) (sp : f64) = true.
