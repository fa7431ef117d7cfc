(** Sequences of cuts applied to an Ell (vocabulary for the theorems). *)
From Coq Require Import List.
From Verif Require Import Num Res Arr CuttingPlane EllCalc Ell.
Import ListNotations.

(** which of the three update calls *)
Inductive mode := Bias | Central | Quantised.
Definition apply_cut {N : Num} {C} (ct : CutType N C) (m : mode) (e : Ell N) (cut : Arr N * C)
  : res (Ell N * CutStatus) :=
  match m with
  | Bias => ell_update_bias ct e cut
  | Central => ell_update_central ct e cut
  | Quantised => ell_update_q ct e cut
  end.
(** What a caller sees of each call: status, tsq, centre. *)
Definition seen (N : Num) := (CutStatus * N * Arr N)%type.
Fixpoint run_cuts {N : Num} {C} (ct : CutType N C) (e : Ell N) (cuts : list (mode * (Arr N * C)))
  : res (Ell N * list (seen N)) :=
  match cuts with
  | [] => Ok (e, [])
  | (m, cut) :: rest =>
      p <- apply_cut ct m e cut ;;
      q <- run_cuts ct (fst p) rest ;;
      Ok (fst q, (snd p, e_tsq (fst p), e_xc (fst p)) :: snd q)
  end.
