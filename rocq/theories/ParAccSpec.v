(** What a step with a pair of parallel cuts has to deliver in binary64 (C109). *)
From Coq Require Import ZArith Reals List Arith.
From Flocq Require Import Core IEEE754.BinarySingleNaN.
From Verif Require Import Num Res Arr CuttingPlane EllCalc Ell Spec Det AccSpec StepAccSpec.
Local Open Scope R_scope.

(** a binary64 number within the relative error [e] of the real number [X] *)
Definition within (e : R) (x : f64) (X : R) : Prop := is_finite x = true /\ Rabs (B2R x - X) <= e * X.

(** The smallest ellipsoid around the part of an ellipsoid of half width [sqrt t] in
    m dimensions that lies between the planes at the depths [b0] and [b1]: how far the
    centre moves (relative to the half width times the half width), how much the shape
    flattens, and how much the scale changes. *)
Definition slab_xi (m t b0 b1 : R) : R := sqrt ((t - b0 * b0) * (t - b1 * b1) + m / 2 * (b1 * b1 - b0 * b0) * (m / 2 * (b1 * b1 - b0 * b0))).
Definition slab_sigma (m t b0 b1 : R) : R := 2 * (t + m * (b0 * b1)) / (t + b0 * b1 + m / 2 * ((b0 + b1) * (b0 + b1)) + slab_xi m t b0 b1).
Definition slab_rho (m t b0 b1 : R) : R := slab_sigma m t b0 b1 * (b0 + b1) / 2.
Definition slab_delta (m t b0 b1 : R) : R := m * m / (m * m - 1) * ((t - b0 * b0 + (t - b1 * b1)) / 2 + slab_xi m t b0 b1 / m) / t.

Section F.
Context {lm : Libm}.
Notation F := (FNum lm).

(** [r] bounds how thin the slab between the two cuts is: the squared half width of the
    ellipsoid is at most [r] times the squared thickness [b1 - b0].  The thinner the
    slab, the larger the slack. *)
Definition thick (t b0 b1 r : R) : Prop := 1 <= r /\ t <= r * ((b1 - b0) * (b1 - b0)).
Definition pair_slack (n : nat) (lam Lam X kappa r : R) : R := 4 * r * slack n lam Lam X kappa.

(** A step from [e] to [e'] with the pair of cuts
    [g . (x - c) + b0 <= 0 <= g . (x - c) + b1]: finite numbers, a symmetric shape
    matrix whose eigenvalues are not small, and an ellipsoid which, enlarged by the
    slack, holds every point of the old one between the cuts; and if the old one had to
    be enlarged already, then the excess grows by at most a third. *)
Definition pair_sound (n : nat) (e : Ell F) (g : Arr F) (b0 b1 lam Lam X r : R) (e' : Ell F) : Prop :=
  all_finite (e_mq e') /\ all_finite (e_xc e') /\ is_finite (e_kappa e' : f64) = true /\
  sym n (fshape n e') /\ (forall z, lam / (11 * r) * dot n z z <= quad n (fshape n e') z) /\
  forall eps z, 0 <= eps -> fpts n e (1 + eps) z ->
    along n (fcoords g) z (fcoords (e_xc e)) + b0 <= 0 -> 0 <= along n (fcoords g) z (fcoords (e_xc e)) + b1 ->
    fpts n e' ((1 + 4 / 3 * eps) * (1 + pair_slack n lam Lam X (fkap e) r)) z.

(** and the squared volume shrinks as for a cut through the centre, up to the slack in
    every direction *)
Definition pair_shrinks (n : nat) (e : Ell F) (lam Lam X r : R) (e' : Ell F) : Prop :=
  0 < fvol2 n e' <= (1 + pair_slack n lam Lam X (fkap e) r) ^ n * exp (- / (INR n + 1)) * fvol2 n e.
End F.
