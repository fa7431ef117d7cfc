(** Reading an EllStable value as a set of points (ell_stable.rs 9-15, 37-51):
    the buffer holds a unit upper triangular factor U (strictly above the
    diagonal) and a diagonal D; the set is
      sum_i (U (x - xc))_i^2 / D_i <= kappa.
    What is below the diagonal is scratch. *)
From Coq Require Import Reals List Arith.
From Verif Require Import Num Res Arr CuttingPlane EllCalc Ell EllStable EllRun Spec EllSpec.
Import ListNotations.
Open Scope R_scope.

Definition fac_d (n : nat) (e : EllStable RNum) (i : nat) : R := nth (i * n + i) (adata (s_mq e)) 0.
Definition fac_u (n : nat) (e : EllStable RNum) (i j : nat) : R := nth (i * n + j) (adata (s_mq e)) 0.
Definition upper_mv (n : nat) (U : mtx) (y : vec) : vec :=
  fun i => y i + Rsum n (fun j => if (i <? j)%nat then U i j * y j else 0).
Definition scentre (e : EllStable RNum) : vec := coords (s_xc e).
Definition spts (n : nat) (e : EllStable RNum) (x : vec) : Prop :=
  Rsum n (fun i => let v := upper_mv n (fac_u n e) (fun k => x k - scentre e k) i in v * v / fac_d n e i) <= s_kappa e.

Record svalid (n : nat) (e : EllStable RNum) : Prop := {
  sv_dim : (0 < n)%nat;
  sv_data : length (adata (s_mq e)) = (n * n)%nat;
  sv_rows : arows (s_mq e) = n;
  sv_cols : acols (s_mq e) = n;
  sv_xc : length (adata (s_xc e)) = n;
  sv_calc : s_helper e = calc_new (N := RNum) n;
  sv_diag : forall i, (i < n)%nat -> 0 < fac_d n e i;
  sv_kap : 0 < s_kappa e }.

Fixpoint Rprod (n : nat) (f : nat -> R) : R := match n with O => 1 | S k => Rprod k f * f k end.

(** The three update calls, and sequences of them. *)
Definition apply_stable {N : Num} {C} (ct : CutType N C) (m : mode) (e : EllStable N) (cut : Arr N * C)
  : res (EllStable N * CutStatus) :=
  match m with
  | Bias => stable_update_bias ct e cut
  | Central => stable_update_central ct e cut
  | Quantised => stable_update_q ct e cut
  end.
Fixpoint run_stable {N : Num} {C} (ct : CutType N C) (e : EllStable N) (cuts : list (mode * (Arr N * C)))
  : res (EllStable N * list (seen N)) :=
  match cuts with
  | [] => Ok (e, [])
  | (m, cut) :: rest =>
      p <- apply_stable ct m e cut ;;
      q <- run_stable ct (fst p) rest ;;
      Ok (fst q, (snd p, s_tsq (fst p), s_xc (fst p)) :: snd q)
  end.
(** The calculation behind a call. *)
Definition calc_of {N : Num} {C} (ct : CutType N C) (m : mode) (h : EllCalc N) (c : C) : N -> cutres N :=
  match m with
  | Bias => call_bias ct h c
  | Central => call_central ct h c
  | Quantised => call_q ct h c
  end.
(** Admissible positions of a single cut, [t] being the half-width. *)
Definition in_single (m : mode) (n : nat) (t beta : R) : Prop :=
  match m with
  | Bias => - t / INR n < beta < t
  | Central => True
  | Quantised => beta < t /\ beta <> - t / INR n
  end.
(** A gradient along one axis. *)
Definition axis (n : nat) (g : Arr RNum) : Prop :=
  vecn n g /\ exists k, (k < n)%nat /\ coords g k <> 0 /\ forall i, (i < n)%nat -> i <> k -> coords g i = 0.
(** a diagonal matrix value *)
Definition is_diag (n : nat) (a : Arr RNum) (d : vec) : Prop :=
  arows a = n /\ acols a = n /\ length (adata a) = (n * n)%nat /\
  forall i j, (i < n)%nat -> (j < n)%nat -> nth (i * n + j) (adata a) 0 = if (i =? j)%nat then d i else 0.
