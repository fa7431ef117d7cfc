(** What the power iterations and the conjugate gradient method should return,
    in exact arithmetic: reading arrays over [ENum] as vectors and matrices of
    reals, and the mathematical sequences. *)
From Coq Require Import Reals List Arith.
From Verif Require Import Num Res Arr Spec.
Open Scope R_scope.

(** A 1-D array holding [x 0, ..., x (n-1)], all finite. *)
Definition holds (n : nat) (a : Arr ENum) (x : vec) : Prop :=
  length (adata a) = n /\ acols a = 0%nat /\ forall i, (i < n)%nat -> nth i (adata a) Nan = Fin (x i).
(** A 1-D array of length [n] whose entries are all NaN. *)
Definition undefined (n : nat) (a : Arr ENum) : Prop :=
  length (adata a) = n /\ acols a = 0%nat /\ forall i, (i < n)%nat -> nth i (adata a) Nan = Nan.
(** A square array holding the matrix [M], all entries finite. *)
Definition holds_mat (n : nat) (a : Arr ENum) (M : mtx) : Prop :=
  length (adata a) = (n * n)%nat /\ arows a = n /\ acols a = n /\
  forall i j, (i < n)%nat -> (j < n)%nat -> nth (i * n + j) (adata a) Nan = Fin (M i j).

(** [M^k x] *)
Fixpoint pow_mv (n : nat) (M : mtx) (x : vec) (k : nat) : vec :=
  match k with O => x | S j => mulmv n M (pow_mv n M x j) end.
Definition nonzero (n : nat) (x : vec) : Prop := exists i, (i < n)%nat /\ x i <> 0.
Definition norm2 (n : nat) (x : vec) : R := sqrt (dot n x x).
Definition norm1 (n : nat) (x : vec) : R := Rsum n (fun i => Rabs (x i)).
(** the vectors of Euclidean and of 1-norm length 1 along [x] *)
Definition along2 (n : nat) (x : vec) : vec := fun i => x i / norm2 n x.
Definition along1 (n : nat) (x : vec) : vec := fun i => x i / norm1 n x.
(** the Rayleigh quotient *)
Definition rayleigh (n : nat) (M : mtx) (x : vec) : R := quad n M x / dot n x x.

(** Two consecutive directions agree up to sign (power_iteration.rs 41-42). *)
Definition agree (n : nat) (tol : R) (x y : vec) : Prop :=
  norm1 n (fun i => x i - y i) <= tol \/ norm1 n (fun i => x i + y i) <= tol.

(** [k] is the first number below [m] at which [P] holds; no number below [m]. *)
Definition first_below (m : nat) (P : nat -> Prop) (k : nat) : Prop :=
  (k < m)%nat /\ P k /\ forall j, (j < k)%nat -> ~ P j.
Definition none_below (m : nat) (P : nat -> Prop) : Prop := forall j, (j < m)%nat -> ~ P j.

(** The outcome of a power iteration from [v] on [M] with at most [m] rounds and
    stopping condition [stop]: direction and Rayleigh quotient of M^(k+1) v when
    round k is the first to satisfy [stop]; of M^m v when none does; NaN when
    M^m v = 0. *)
Definition power_outcome (n : nat) (M : mtx) (v : vec) (m : nat) (stop : nat -> Prop)
  (run : res (Arr ENum * (num ENum * nat))) : Prop :=
  let p := pow_mv n M v in
  (forall k, first_below m stop k -> nonzero n (p (S k)) /\
     exists x, run = Ok (x, (Fin (rayleigh n M (p (S k))), k)) /\ holds n x (along2 n (p (S k)))) /\
  (none_below m stop -> nonzero n (p m) ->
     exists x, run = Ok (x, (Fin (rayleigh n M (p m)), m)) /\ holds n x (along2 n (p m))) /\
  (none_below m stop -> ~ nonzero n (p m) ->
     exists x, run = Ok (x, (Nan, m)) /\ undefined n x).
(** round k finds two directions agreeing (Euclidean and 1-norm scaling) *)
Definition dirs_agree2 (n : nat) (M : mtx) (v : vec) (tol : R) (k : nat) : Prop :=
  let p := pow_mv n M v in nonzero n (p (S k)) /\ agree n tol (along2 n (p (S k))) (along2 n (p k)).
Definition dirs_agree1 (n : nat) (M : mtx) (v : vec) (tol : R) (k : nat) : Prop :=
  let p := pow_mv n M v in nonzero n (p (S k)) /\ agree n tol (along1 n (p (S k))) (along1 n (p k)).
(** round k finds two Rayleigh quotients agreeing *)
Definition levels_agree (n : nat) (M : mtx) (v : vec) (tol : R) (k : nat) : Prop :=
  let p := pow_mv n M v in nonzero n (p (S k)) /\ Rabs (rayleigh n M (p k) - rayleigh n M (p (S k))) <= tol.

(** the Frobenius norm *)
Definition frob (n : nat) (M : mtx) : R := sqrt (Rsum n (fun i => Rsum n (fun j => M i j * M i j))).
