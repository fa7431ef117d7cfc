(** C83 and C84: whole optimisations with the profit oracles on an Ell, in exact
    arithmetic.  Vocabulary: ProfitSpec.v (markets, boxes, robust), EllSpec.v, RunSpec.v. *)
From Coq Require Import ZArith Reals List Bool Arith Lia Lra.
From Verif Require Import Num Res Arr CuttingPlane EllCalc Ell EllRun Spec EllSpec EllCuts EllMore LmiSpec ExSpec Profit ProfitSpec ProfitProofs ProfitMore ProfitWitness Det RunSpec ProfitConv ProfitTest.
Import ListNotations.
Open Scope R_scope.

(** ** C83: the profit oracle *)
(** [revenue m u] is the income at [u]; [steep m] = |a0| + |a1| *)
Theorem C83_near_best : forall m, sane m -> forall (opt : Options RNum) p (e : Ell RNum) (gamma : R) u r, profit_ok p -> about p m -> 0 <= gamma ->
  proper 2 e -> vecn 2 (e_xc e) -> 0 < r -> mfeas m (u 0%nat) (u 1%nat) ->
  gamma + (2 * steep m + 6) * r * revenue m u <= mprofit m (u 0%nat) (u 1%nat) ->
  (forall y, ball 2 u (2 * r) y -> pts 2 e y) ->
  tolerance opt <= r * r -> (INR 2 + 1) * ln (vol2 2 e / (r * r) ^ 2) < INR (max_iters opt) ->
  exists p' e' gamma' x k, cutting_plane_optim (profit_assess (N := RNum)) (ell_space (N := RNum) single) opt p e gamma = Ok (p', e', gamma', (Some x, k)) /\
    mfeas m (coords x 0%nat) (coords x 1%nat) /\ gamma' = mprofit m (coords x 0%nat) (coords x 1%nat) /\
    mprofit m (u 0%nat) (u 1%nat) - (2 * steep m + 6) * r * revenue m u < gamma'.
Proof. exact profit_near_best. Qed.
Print Assumptions C83_near_best.
Theorem C83_certificate : forall m, sane m -> forall (opt : Options RNum) p (e : Ell RNum) (gamma : R) p' e' (gamma' : R) ans k, profit_ok p -> about p m -> 0 <= gamma ->
  valid 2 e -> vecn 2 (e_xc e) -> 0 < tolerance opt ->
  cutting_plane_optim (profit_assess (N := RNum)) (ell_space (N := RNum) single) opt p e gamma = Ok (p', e', gamma', (ans, k)) ->
  (k < max_iters opt)%nat -> tolerance opt <= e_tsq e' ->
  forall u, pts 2 e u -> mfeas m (u 0%nat) (u 1%nat) -> mprofit m (u 0%nat) (u 1%nat) < gamma'.
Proof. exact profit_certificate. Qed.
Print Assumptions C83_certificate.
Example C83_certificate_case : exists e, ell_new (N := RNum) (rv 1 1) (rv 0 0) = Ok e /\ exists p',
  cutting_plane_optim (profit_assess (N := RNum)) (ell_space (N := RNum) single) options_default (profit_new (N := RNum) 1 1 1 (rv 0 0) (rv 1 1)) e 2
    = Ok (p', with_tsq e (1 / 8), 2, (None, 0%nat)).
Proof. exact too_much. Qed.
(** the problem of the crate's test: maximise 800 x0^0.1 x1^0.4 - 10 x0 - 35 x1 over 0 < x0 <= 30.5, 0 < x1 *)
Theorem C83_test_problem : forall val gamma : R, 81 <= val <= 10 ^ 20 -> 0 <= gamma <= 3399 ->
  let m := mkMarket (20 * 40) 30.5 (xvec (rv (1 / 10) (4 / 10))) (xvec (rv 10 35)) in
  exists e, ell_new (N := RNum) (rv val val) (rv 0 0) = Ok e /\
  exists p' e' gamma' x k, cutting_plane_optim (profit_assess (N := RNum)) (ell_space (N := RNum) single) options_default
      (profit_new (N := RNum) 20 40 30.5 (rv (1 / 10) (4 / 10)) (rv 10 35)) e gamma = Ok (p', e', gamma', (Some x, k)) /\
    exp (coords x 0%nat) <= 30.5 /\ gamma' = profit_at m (exp (coords x 0%nat)) (exp (coords x 1%nat)) /\ 3399 < gamma' <= 3406 /\
    forall x0 x1, 0 < x0 <= 30.5 -> 0 < x1 -> profit_at m x0 x1 - 1 / 10 ^ 5 < gamma'.
Proof. exact test_solves. Qed.
Print Assumptions C83_test_problem.
Example C83_case : 81 <= 100 <= 10 ^ 20 /\ 0 <= 0 <= 3399. Proof. lra. Qed.

(** ** C84: the robust profit oracle *)
Theorem C84_near_best : forall b, box_sane b -> forall (opt : Options RNum) o (e : Ell RNum) (gamma t : R) u r, rb_ok o -> rb_about o b -> 0 <= gamma ->
  proper 2 e -> vecn 2 (e_xc e) -> 0 < r -> robust b t (u 0%nat) (u 1%nat) ->
  gamma + (2 * top_steep b + 6) * r * top_revenue b u <= t ->
  (forall y, ball 2 u (2 * r) y -> pts 2 e y) ->
  tolerance opt <= r * r -> (INR 2 + 1) * ln (vol2 2 e / (r * r) ^ 2) < INR (max_iters opt) ->
  exists o' e' gamma' x k, cutting_plane_optim (profit_rb_assess (N := RNum)) (ell_space (N := RNum) single) opt o e gamma = Ok (o', e', gamma', (Some x, k)) /\
    robust b gamma' (coords x 0%nat) (coords x 1%nat) /\ t - (2 * top_steep b + 6) * r * top_revenue b u < gamma'.
Proof. exact rb_near_best. Qed.
Print Assumptions C84_near_best.
Theorem C84_certificate : forall b, box_sane b -> forall (opt : Options RNum) o (e : Ell RNum) (gamma : R) o' e' (gamma' : R) ans k, rb_ok o -> rb_about o b -> 0 <= gamma ->
  valid 2 e -> vecn 2 (e_xc e) -> 0 < tolerance opt ->
  cutting_plane_optim (profit_rb_assess (N := RNum)) (ell_space (N := RNum) single) opt o e gamma = Ok (o', e', gamma', (ans, k)) ->
  (k < max_iters opt)%nat -> tolerance opt <= e_tsq e' ->
  forall u, pts 2 e u -> ~ robust b gamma' (u 0%nat) (u 1%nat).
Proof. exact rb_certificate. Qed.
Print Assumptions C84_certificate.
Example C84_certificate_case : exists e o, ell_new (N := RNum) (rv 1 1) (rv 0 0) = Ok e /\
  profit_rb_new (N := RNum) 1 1 1 (rv 0 0) (rv 1 1) 0 0 0 0 0 = Ok o /\ exists o',
  cutting_plane_optim (profit_rb_assess (N := RNum)) (ell_space (N := RNum) single) options_default o e 2 = Ok (o', with_tsq e (1 / 8), 2, (None, 0%nat)).
Proof. exact too_much_rb. Qed.
(** the problem of the crate's test *)
Theorem C84_test_problem : forall val gamma : R, 81 <= val <= 10 ^ 20 -> 0 <= gamma <= 2599 ->
  let b := mkBox ((20 - 1) * 40) (30.5 - 1) (xvec (rv (10 + 1) (35 + 1))) (xvec (rv (1 / 10) (4 / 10))) (xvec (rv 0.003 0.007)) in
  exists e o, ell_new (N := RNum) (rv val val) (rv 0 0) = Ok e /\
  profit_rb_new (N := RNum) 20 40 30.5 (rv (1 / 10) (4 / 10)) (rv 10 35) 0.003 0.007 1 1 1 = Ok o /\
  exists o' e' gamma' x k, cutting_plane_optim (profit_rb_assess (N := RNum)) (ell_space (N := RNum) single) options_default o e gamma = Ok (o', e', gamma', (Some x, k)) /\
    robust b gamma' (coords x 0%nat) (coords x 1%nat) /\ 2599 < gamma' /\
    forall t u0 u1, robust b t u0 u1 -> t - 1 / 10 ^ 5 < gamma'.
Proof. exact test_rb_solves. Qed.
Print Assumptions C84_test_problem.
Example C84_case : robust test_box 2600 (near_point 1.4 2.3 0%nat) (near_point 1.4 2.3 1%nat).
Proof. exact test_rb_point. Qed.
