(** Exact arithmetic in which division by zero and square roots of negatives are
    visible (C19): a real state read as a state over [ENum]. *)
From Coq Require Import Reals List.
From Verif Require Import Num Arr CuttingPlane EllCalc Ell.

Definition fin_arr (a : Arr RNum) : Arr ENum := mkArr (N := ENum) (map Fin (adata a)) (arows a) (acols a).
Definition fin_core (c : EllCalcCore RNum) : EllCalcCore ENum :=
  mkCore (N := ENum) (Fin (c_n_f c)) (Fin (c_n_plus_1 c)) (Fin (c_half_n c)) (Fin (c_inv_n c)) (Fin (c_cst1 c)) (Fin (c_cst2 c)).
Definition fin_calc (e : EllCalc RNum) : EllCalc ENum :=
  mkCalc (N := ENum) (Fin (ec_n_f e)) (fin_core (ec_helper e)) (ec_use_parallel_cut e).
Definition fin_ell (e : Ell RNum) : Ell ENum :=
  mkEll (N := ENum) (e_no_defer e) (fin_arr (e_mq e)) (fin_arr (e_xc e)) (Fin (e_kappa e)) (fin_calc (e_helper e)) (Fin (e_tsq e)).
Definition fin_single (b : SingleCut RNum) : SingleCut ENum := mkSingle (N := ENum) (Fin (sc_beta b)).
Definition fin_parallel (b : ParallelCut RNum) : ParallelCut ENum :=
  mkParallel (N := ENum) (Fin (pc_beta0 b)) (match pc_beta1 b with Some v => Some (Fin v) | None => None end).
Definition fin3 (p : R * R * R) : ext * ext * ext := let '(a, b, c) := p in (Fin a, Fin b, Fin c).
Definition fin_res (p : cutres RNum) : cutres ENum := (fst p, fin3 (snd p)).
