(** Reading a binary64 ellipsoid as a set of points, and the conditions and the slack
    of the accuracy theorem for one step. *)
From Coq Require Import ZArith Reals List Arith.
From Flocq Require Import Core IEEE754.BinarySingleNaN.
From Verif Require Import Num Res Arr CuttingPlane EllCalc Ell Spec Det AccSpec.
Local Open Scope R_scope.

Section F.
Context {lm : Libm}.
Notation F := (FNum lm).
(** the real numbers a binary64 ellipsoid consists of *)
Definition fshape (n : nat) (e : Ell F) : mtx := fun i j => B2R (nth (i * n + j) (adata (e_mq e)) (n0 (N := F)) : f64).
Definition fcoords (a : Arr F) : vec := fun i => B2R (nth i (adata a) (n0 (N := F)) : f64).
Definition fkap (e : Ell F) : R := B2R (e_kappa e : f64).
Definition fpts (n : nat) (e : Ell F) (infl : R) (x : vec) : Prop := in_ell n (fshape n e) (fkap e * infl) (fcoords (e_xc e)) x.
Definition all_finite (a : Arr F) : Prop := Forall (fun v : f64 => is_finite v = true) (adata a).

(** a matrix with [c] columns stored row by row *)
Definition fentry (c : nat) (a : Arr F) (i j : nat) : R := B2R (nth (i * c + j) (adata a) (n0 (N := F)) : f64).

(** an n-dimensional ellipsoid of finite numbers far from overflow, whose shape matrix
    is symmetric, has entries up to [Lam] and eigenvalues from [lam] on, and whose
    centre has coordinates up to [X] *)
Record tame (n : nat) (e : Ell F) (lam Lam X : R) : Prop := {
  t_dim : (2 <= n)%nat /\ (Z.of_nat n <= 2 ^ 26)%Z;
  t_mq : length (adata (e_mq e)) = (n * n)%nat /\ arows (e_mq e) = n /\ acols (e_mq e) = n;
  t_xc : length (adata (e_xc e)) = n;
  t_calc : e_helper e = calc_new (N := F) n;
  t_defer : e_no_defer e = false;
  t_fin : all_finite (e_mq e) /\ all_finite (e_xc e);
  t_kap : moderate (e_kappa e);
  t_sym : sym n (fshape n e);
  t_lam : bpow radix2 (-100) <= lam /\ forall z, lam * dot n z z <= quad n (fshape n e) z;
  t_Lam : Lam <= bpow radix2 100 /\ forall i j, (i < n)%nat -> (j < n)%nat -> Rabs (fshape n e i j) <= Lam;
  t_X : 0 <= X <= bpow radix2 100 /\ forall i, (i < n)%nat -> Rabs (fcoords (e_xc e) i) <= X }.

(** a gradient of [n] finite numbers *)
Definition grad_ok (n : nat) (g : Arr F) : Prop :=
  length (adata g) = n /\ acols g = 0%nat /\ all_finite g /\ forall i, (i < n)%nat -> Rabs (fcoords g i) <= bpow radix2 200.

(** how much [kappa] has to be enlarged for one step: it grows with the condition of
    the shape matrix and with the size of the centre relative to the ellipsoid *)
Definition slack (n : nat) (lam Lam X kappa : R) : R :=
  bpow radix2 (-53) * (3200 * (INR n * INR n) * (Lam / lam) + 20 * (X * sqrt (INR n / (lam * kappa)))).

(** by how much an excess of the ellipsoid grows in one exact step with a cut at depth
    [al] (the distance of the cut from the centre relative to the half width) *)
Definition grow (n : nat) (al : R) : R := (INR n + 1) / INR n / (1 - al) * ((INR n + 1) / INR n / (1 - al)).
(** the depth of the cut [g . (x - c) + beta <= 0] *)
Definition depth (n : nat) (e : Ell F) (g : Arr F) (beta : R) : R := beta / sqrt (fkap e * quad n (fshape n e) (fcoords g)).

(** What one step from [e] to [e'] with the cut [g . (x - c) + beta <= 0] has to
    deliver: finite numbers, a symmetric shape matrix whose eigenvalues are not
    small, and an ellipsoid which, enlarged by the slack, holds every point of the old
    one that satisfies the cut; and if the old one had to be enlarged already, then
    the excess is multiplied by [grow]. *)
Definition step_sound (n : nat) (e : Ell F) (g : Arr F) (beta lam Lam X : R) (e' : Ell F) : Prop :=
  all_finite (e_mq e') /\ all_finite (e_xc e') /\ is_finite (e_kappa e' : f64) = true /\
  sym n (fshape n e') /\ (forall z, lam / 11 * dot n z z <= quad n (fshape n e') z) /\
  forall eps z, 0 <= eps -> fpts n e (1 + eps) z -> along n (fcoords g) z (fcoords (e_xc e)) + beta <= 0 ->
    fpts n e' ((1 + eps * grow n (depth n e g beta)) * (1 + slack n lam Lam X (fkap e))) z.

(** the squared volume in units of the unit ball, and what a step does to it: it
    shrinks by the factor of the exact step, up to the slack in every direction *)
Definition fvol2 (n : nat) (e : Ell F) : R := fkap e ^ n * det n (fshape n e).
Definition step_shrinks (n : nat) (e : Ell F) (lam Lam X : R) (e' : Ell F) : Prop :=
  0 < fvol2 n e' <= (1 + slack n lam Lam X (fkap e)) ^ n * exp (- / (INR n + 1)) * fvol2 n e.
End F.
