(** Reading an ellipsoid value of the model as a set of points. *)
From Coq Require Import Reals List Arith.
From Verif Require Import Num Arr EllCalc Ell Spec.
Open Scope R_scope.

(** entry (i, j) of the shape matrix, coordinate i of the centre / of a vector *)
Definition shape (n : nat) (e : Ell RNum) : mtx := fun i j => nth (i * n + j) (adata (e_mq e)) 0.
Definition coords (a : Arr RNum) : vec := fun i => nth i (adata a) 0.
Definition centre (e : Ell RNum) : vec := coords (e_xc e).
Definition kap (e : Ell RNum) : R := e_kappa e.
(** The set an Ell stands for (ell.rs 5-8). *)
Definition pts (n : nat) (e : Ell RNum) (x : vec) : Prop := in_ell n (shape n e) (kap e) (centre e) x.

(** A vector of length [n]; an [n] x [n] ellipsoid as the constructors build
    it: calculator for dimension [n], symmetric positive semidefinite shape. *)
Definition vecn (n : nat) (a : Arr RNum) : Prop := length (adata a) = n /\ acols a = 0%nat.
Record valid (n : nat) (e : Ell RNum) : Prop := {
  v_dim : (0 < n)%nat;
  v_data : length (adata (e_mq e)) = (n * n)%nat;
  v_rows : arows (e_mq e) = n;
  v_cols : acols (e_mq e) = n;
  v_xc : length (adata (e_xc e)) = n;
  v_calc : e_helper e = calc_new (N := RNum) n;
  v_sym : sym n (shape n e);
  v_psd : psd n (shape n e);
  v_kap : 0 <= kap e }.
(** squared half-width along [g] *)
Definition width2 (n : nat) (e : Ell RNum) (g : Arr RNum) : R := kap e * quad n (shape n e) (coords g).
