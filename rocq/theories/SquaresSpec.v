(** Vocabulary of C88. *)
From Coq Require Import ZArith Reals List Arith.
From Flocq Require Import Core.Raux.
From Verif Require Import Num Res Arr CuttingPlane Spec EllSpec.
Local Open Scope R_scope.

(** the weighted sum of squares *)
Definition wsq (n : nat) (d t y : vec) : R := Rsum n (fun i => d i * ((y i - t i) * (y i - t i))).
(** What an oracle for it answers at [x]. *)
Definition sq_oracle (n : nat) (d t : vec) (ora : OracleOptim RNum (Arr RNum) (SingleCut RNum) unit) : Prop :=
  forall o x (gamma : R), vecn n x -> exists g, vecn n g /\ (forall i, (i < n)%nat -> coords g i = 2 * d i * (coords x i - t i)) /\
    ora o x gamma = Ok (if Rlt_bool (wsq n d t (coords x)) gamma
      then (tt, wsq n d t (coords x), ((g, mkSingle (N := RNum) (wsq n d t (coords x))), true))
      else (tt, gamma, ((g, mkSingle (N := RNum) (wsq n d t (coords x))), false))).
Definition sq_value (n : nat) (d t : vec) (ora : OracleOptim RNum (Arr RNum) (SingleCut RNum) unit) : Prop :=
  forall o x (gamma : R) o' (gamma' : R) cut, ora o x gamma = Ok (o', gamma', (cut, true)) -> gamma' = wsq n d t (coords x).
(** [y] is at most half as far from the target (in the weighted norm) as a
    point of value [gamma] *)
Definition halfway (n : nat) (d t y : vec) (gamma : R) : Prop := 4 * wsq n d t y <= gamma.

Definition ones : vec := fun _ => 1.
Definition zeros : vec := fun _ => 0.
Definition pair2 (a b : R) : vec := fun i => match i with O => a | _ => b end.

