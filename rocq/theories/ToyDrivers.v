(** Small concrete oracles and spaces, used only to show that the hypotheses of
    the driver theorems are met by real executions. *)
From Coq Require Import ZArith Reals List Bool Arith.
From Flocq Require Import Core IEEE754.BinarySingleNaN.
From Verif Require Import Num Res CuttingPlane.
Import ListNotations.

Notation F0 := (FNum lm0).

(** A space whose state is (centre, log of updates); the centre moves by one per
    cut; cut [None] is answered NoSoln, cut [Some true] NoEffect. *)
Definition toy_step (tag : nat) (s : nat * list nat) (c : nat * option bool)
  : res ((nat * list nat) * CutStatus) :=
  match snd c with
  | None => Ok (s, NoSoln)
  | Some true => Ok ((fst s + 1, tag :: snd s), NoEffect)
  | Some false => Ok ((fst s + 1, tag :: snd s), Success)
  end.
Definition toy_space : SearchSpace F0 nat (option bool) (nat * list nat) :=
  mkSpace F0 nat (option bool) (nat * list nat)
    fst (fun s => fofZ (1000 - Z.of_nat (fst s))%Z)
    (toy_step 0) (toy_step 1) (toy_step 2) (fun s x => (x, snd s)).

(** Feasible from centre [goal] on; the goal is the oracle's state. *)
Definition toy_feas (cut : option bool) : OracleFeas F0 nat (option bool) nat :=
  mkOracleFeas F0 nat (option bool) nat
    (fun goal x => Ok (goal, if goal <=? x then None else Some (x, cut)))
    (fun _ g => Z.to_nat (ftrunc g)).
Definition toy_opt (k : nat) : Options F0 := mkOptions (N := F0) k (fofZ 1).

(** Improves at the centres 1 and 4, with objective value 10*centre. *)
Definition toy_optim : OracleOptim F0 nat (option bool) unit :=
  fun _ x g => if (x =? 1) || (x =? 4)
    then Ok (tt, fofZ (Z.of_nat (10 * x)), ((x, Some false), true))
    else Ok (tt, g, ((x, Some false), false)).

(** Quantised: delivers the point 100 + x, cut without effect at centre 2 (when
    not retrying), more alternatives available below centre 5. *)
Definition toy_q : OracleOptimQ F0 nat (option bool) (list bool) :=
  fun log x g retry =>
    Ok (retry :: log, g, ((x, Some ((x =? 2) || (x =? 6))), x =? 3, 100 + x, x <? 5)).
