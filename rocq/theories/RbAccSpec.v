(** What the robust profit oracle has to deliver in binary64 (C115). *)
From Coq Require Import ZArith Reals List Arith.
From Flocq Require Import Core IEEE754.BinarySingleNaN.
From Verif Require Import Num Res Arr ArrLemmas CuttingPlane Spec StepAccSpec Profit ProfitSpec ProfAccSpec.
Local Open Scope R_scope.

(** the box of markets with the worst revenue and the worst limit lower by [exp (-mu)] *)
Definition worse_box (mu : R) (b : box) : box := mkBox (b_P b * exp (- mu)) (b_k b * exp (- mu)) (b_p b) (b_a b) (b_u b).
(** whatever the market, the point is admissible up to the accuracy and earns [ga] up to
    the accuracy; and in some market it earns just that *)
Definition good_rb (dl : R) (b : box) (ga : R) (u : vec) : Prop :=
  (forall m, in_box b m -> mfeas (worse (- (4 * prof_eps dl)) m) (u 0%nat) (u 1%nat) /\ ga <= mprofit m (u 0%nat) (u 1%nat) + 2 * prof_eps dl * turnover m u) /\
  exists m, in_box b m /\ Rabs (ga - mprofit m (u 0%nat) (u 1%nat)) <= 2 * prof_eps dl * turnover m u.
(** the margin of a cut *)
Definition rb_margin (dl X : R) : R := prof_margin dl X + prof_eps dl.

Section F.
Context {lm : Libm}.
Notation F := (FNum lm).
(** the box of markets the oracle is about *)
Definition rb_box (r : ProfitRb F) : box :=
  mkBox (exp (B2R (p_log_p_scale (rb_omega r) : f64))) (exp (B2R (p_log_k (rb_omega r) : f64))) (fcoords (p_price_out (rb_omega r))) (fcoords (rb_elast r))
        (fun i => if Nat.eqb i 0 then B2R (fst (rb_uie r) : f64) else B2R (snd (rb_uie r) : f64)).
(** finite data of moderate size, as in [prof_fits], for all elasticities of the box *)
Record rb_fits (r : ProfitRb F) (X L T : R) : Prop := {
  rf_scale : is_finite (p_log_p_scale (rb_omega r) : f64) = true; rf_limit : is_finite (p_log_k (rb_omega r) : f64) = true;
  rf_el : all_finite (rb_elast r); rf_pr : all_finite (p_price_out (rb_omega r));
  rf_u0 : is_finite (fst (rb_uie r) : f64) = true; rf_u1 : is_finite (snd (rb_uie r) : f64) = true;
  rf_u : 0 <= b_u (rb_box r) 0%nat /\ 0 <= b_u (rb_box r) 1%nat;
  rf_X : 0 <= X <= L; rf_L : L <= 200; rf_T : T <= 500; rf_k : Rabs (B2R (p_log_k (rb_omega r) : f64)) <= 1000;
  rf_a : forall i, (i < 2)%nat -> Rabs (fcoords (rb_elast r) i) + b_u (rb_box r) i <= 99;
  rf_rev : Rabs (B2R (p_log_p_scale (rb_omega r) : f64)) +
    (Rabs (fcoords (rb_elast r) 0%nat) + b_u (rb_box r) 0%nat + (Rabs (fcoords (rb_elast r) 1%nat) + b_u (rb_box r) 1%nat)) * X + 2 <= L;
  rf_low : forall i, (i < 2)%nat -> exp (X + 1 - T) <= fcoords (p_price_out (rb_omega r)) i;
  rf_high : (fcoords (p_price_out (rb_omega r)) 0%nat + fcoords (p_price_out (rb_omega r)) 1%nat) * exp X + 2 * exp L <= exp (T - 1) }.
(** the parameters, which no call changes *)
Definition rb_same (r r' : ProfitRb F) : Prop :=
  rb_uie r' = rb_uie r /\ rb_elast r' = rb_elast r /\ p_log_p_scale (rb_omega r') = p_log_p_scale (rb_omega r) /\ p_log_k (rb_omega r') = p_log_k (rb_omega r) /\ p_price_out (rb_omega r') = p_price_out (rb_omega r).
End F.
