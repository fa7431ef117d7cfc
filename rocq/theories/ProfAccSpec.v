(** What the profit oracle has to deliver in binary64 (C114). *)
From Coq Require Import ZArith Reals List Arith.
From Flocq Require Import Core IEEE754.BinarySingleNaN.
From Verif Require Import Num Res Arr ArrLemmas CuttingPlane Spec StepAccSpec Profit ProfitSpec.
Local Open Scope R_scope.

(** the market with its revenues lower by the factor [exp (-mu)] and its limit lower by
    the same factor; a negative [mu] makes it better *)
Definition worse (mu : R) (m : market) : market := mkMarket (m_P m * exp (- mu)) (m_k m * exp (- mu)) (m_a m) (m_p m).
(** [u] is admissible in the market and earns at least [t] there *)
Definition earns (m : market) (t : R) (u : vec) : Prop := mfeas m (u 0%nat) (u 1%nat) /\ t <= mprofit m (u 0%nat) (u 1%nat).
(** revenue plus costs *)
Definition turnover (m : market) (u : vec) : R :=
  m_P m * Rpower (exp (u 0%nat)) (m_a m 0%nat) * Rpower (exp (u 1%nat)) (m_a m 1%nat) + (m_p m 0%nat * exp (u 0%nat) + m_p m 1%nat * exp (u 1%nat)).
(** accuracy of a value, and the margin of a cut made in the box of half width [X], on a
    platform whose exp and ln are good to [dl] *)
Definition prof_eps (dl : R) : R := dl + bpow radix2 (-40).
Definition prof_margin (dl X : R) : R := 5 * (1 + 4 * X) * prof_eps dl.
(** the point is admissible up to the accuracy and [ga] is its profit up to the accuracy *)
Definition good_answer (dl : R) (m : market) (ga : R) (u : vec) : Prop :=
  mfeas (worse (- (3 * prof_eps dl)) m) (u 0%nat) (u 1%nat) /\ Rabs (ga - mprofit m (u 0%nat) (u 1%nat)) <= prof_eps dl * turnover m u.
(** how much a level can fall when an answer replaces it *)
Definition prof_drop (dl L : R) : R := 5 * prof_eps dl * exp L.

Section F.
Context {lm : Libm}.
Notation F := (FNum lm).
(** exp is good to the relative error [dl] on [-L, L] *)
Definition exp_near (L dl : R) : Prop := forall x : f64, is_finite x = true -> Rabs (B2R x) <= L ->
  is_finite (nexp (n := F) x : f64) = true /\ Rabs (B2R (nexp (n := F) x : f64) - exp (B2R x)) <= dl * exp (B2R x).
(** ln is good to the absolute error [dl] on [exp (-T), exp T] *)
Definition ln_near (T dl : R) : Prop := forall x : f64, is_finite x = true -> exp (- T) <= B2R x <= exp T ->
  is_finite (nln (n := F) x : f64) = true /\ Rabs (B2R (nln (n := F) x : f64) - ln (B2R x)) <= dl.
(** the market whose logarithms, elasticities and prices the oracle holds *)
Definition prof_market (p : Profit F) : market :=
  mkMarket (exp (B2R (p_log_p_scale p : f64))) (exp (B2R (p_log_k p : f64))) (fcoords (p_elast p)) (fcoords (p_price_out p)).
(** finite data of moderate size: over the box of half width [X] the logarithm of the
    revenue stays below [L], that of costs and levels below [T] *)
Record prof_fits (p : Profit F) (X L T : R) : Prop := {
  pf_scale : is_finite (p_log_p_scale p : f64) = true; pf_limit : is_finite (p_log_k p : f64) = true;
  pf_el : all_finite (p_elast p); pf_pr : all_finite (p_price_out p);
  pf_X : 0 <= X <= L; pf_L : L <= 200; pf_T : T <= 500; pf_k : Rabs (B2R (p_log_k p : f64)) <= 1000;
  pf_a : forall i, (i < 2)%nat -> Rabs (fcoords (p_elast p) i) <= 100;
  pf_rev : Rabs (B2R (p_log_p_scale p : f64)) + (Rabs (fcoords (p_elast p) 0%nat) + Rabs (fcoords (p_elast p) 1%nat)) * X + 1 <= L;
  pf_low : forall i, (i < 2)%nat -> exp (X + 1 - T) <= fcoords (p_price_out p) i;
  pf_high : (fcoords (p_price_out p) 0%nat + fcoords (p_price_out p) 1%nat) * exp X + 2 * exp L <= exp (T - 1) }.
(** a query point of the box *)
Definition in_square (X : R) (y : Arr F) : Prop := two y /\ all_finite y /\ forall i, (i < 2)%nat -> Rabs (fcoords y i) <= X.
(** a finite level, not above what any point of the box can earn *)
Definition level_fits (L : R) (ga : f64) : Prop := is_finite ga = true /\ B2R ga <= 2 * exp L.
End F.
Arguments exp_near : clear implicits. Arguments ln_near : clear implicits.
