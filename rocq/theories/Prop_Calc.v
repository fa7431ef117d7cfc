(** Properties C18-C20: the closed formulas of ell_calc.rs. *)
From Coq Require Import Reals List Arith Lia Lra ZArith.
From Flocq Require Import Core IEEE754.BinarySingleNaN.
From Verif Require Import Num Res Arr CuttingPlane EllCalc Ell EllRun ArrLemmas EllLemmas Spec EllSpec EllMore EllWitness ExtSpec CalcAgree ExtDefined Dim1.
Import ListNotations.
Open Scope R_scope.

(** ** C18 (over the reals; [core n] is EllCalcCore::new(n as f64)) *)
Theorem C18_old_equals_new : forall n b0 b1 t, (2 <= n)%nat -> 0 < t -> b0 < b1 -> 0 <= t + INR n * (b0 * b1) ->
  core_parallel_bias_cut_fast_old (N := RNum) (core n) b0 b1 t (b0 * b1) (t + INR n * (b0 * b1)) =
  core_parallel_bias_cut_fast (N := RNum) (core n) b0 b1 t (b0 * b1) (t + INR n * (b0 * b1)).
Proof. exact old_eq_new. Qed.
Print Assumptions C18_old_equals_new.
Theorem C18_parallel_central : forall n b1 t, (2 <= n)%nat -> 0 < t -> b1 * b1 < t ->
  core_parallel_central_cut (N := RNum) (core n) b1 t = core_parallel_bias_cut (N := RNum) (core n) 0 b1 t.
Proof. exact parallel_central_is_parallel. Qed.
Print Assumptions C18_parallel_central.
Theorem C18_touching : forall n b0 tau, (2 <= n)%nat -> 0 < tau -> - tau < b0 <= tau ->
  core_parallel_bias_cut (N := RNum) (core n) b0 tau (tau * tau) = core_bias_cut (N := RNum) (core n) b0 tau.
Proof. exact parallel_touching. Qed.
Print Assumptions C18_touching.
Theorem C18_central : forall n t, (1 <= n)%nat -> 0 < t ->
  core_central_cut (N := RNum) (core n) t = core_bias_cut (N := RNum) (core n) 0 (sqrt t).
Proof. exact central_is_bias. Qed.
Print Assumptions C18_central.

(** The numbers of the crate's documentation (n = 4, tau^2 = 0.01, betas 0.01 and
    0.04; times 100), and a central cut. *)
Example C18_case : (2 <= 4)%nat /\ 0 < 1 /\ 1 / 10 < 4 / 10 /\ 0 <= 1 + INR 4 * (1 / 10 * (4 / 10)) /\
  4 / 10 * (4 / 10) < 1 /\ - 1 < 1 / 10 <= 1 /\
  core_central_cut (N := RNum) (core 2) 9 = (1, 2 / 3, 4 / 3).
Proof.
  simpl INR. split; [lia|]. do 5 (split; [lra|]). rewrite core_central_eq. replace 9 with (3 * 3) by ring.
  rewrite sqrt_square by lra. simpl INR. apply f_equal2; [apply f_equal2|]; lra.
Qed.

(** ** C19: over the reals extended by an error value that every exceptional
    operation yields and every later operation propagates, the updates compute
    exactly the real result. *)
Theorem C19_single : forall md n e g c, (2 <= n)%nat -> valid n e -> vecn n g -> 0 < width2 n e g ->
  fine_single md (width2 n e g) c ->
  exists e' st, apply_cut (N := RNum) single_cut md e (g, c) = Ok (e', st) /\
    apply_cut (N := ENum) single_cut md (fin_ell e) (fin_arr g, fin_single c) = Ok (fin_ell e', st).
Proof. exact single_defined. Qed.
Print Assumptions C19_single.
Theorem C19_parallel : forall md n e g c, (2 <= n)%nat -> valid n e -> vecn n g -> 0 < width2 n e g ->
  fine_parallel md n (width2 n e g) c ->
  exists e' st, apply_cut (N := RNum) parallel_cut md e (g, c) = Ok (e', st) /\
    apply_cut (N := ENum) parallel_cut md (fin_ell e) (fin_arr g, fin_parallel c) = Ok (fin_ell e', st).
Proof. exact parallel_defined. Qed.
Print Assumptions C19_parallel.
Theorem C19_zero_width : forall n e g c, (2 <= n)%nat -> valid n e -> vecn n g -> quad n (shape n e) (coords g) = 0 ->
  exists e', apply_cut (N := ENum) single_cut Central (fin_ell e) (fin_arr g, c) = Ok (e', Success) /\
    (forall i, (i < n)%nat -> vget (e_xc e') i = Nan) /\
    (forall i j, (i < n)%nat -> (j < n)%nat -> mget n (adata (e_mq e')) i j = Nan).
Proof. exact zero_width_nan. Qed.
Print Assumptions C19_zero_width.
Theorem C19_far_point : forall n t, (2 <= n)%nat -> 0 < t ->
  exists rho delta, calc_bias_cut (N := ENum) (calc_new n) (Fin (- sqrt t)) (Fin t) = (Success, (rho, Nan, delta)).
Proof. exact far_point_nan. Qed.
Print Assumptions C19_far_point.

Example C19_case : valid 2 egg /\ vecn 2 g12 /\ 0 < width2 2 egg g12 /\
  fine_single Bias (width2 2 egg g12) (mkSingle (N := RNum) 1) /\
  fine_parallel Bias 2 (width2 2 egg g12) (mkParallel (N := RNum) (-1) (Some 5)) /\
  (let z := mkArr (N := RNum) [0; 0] 2 0 in vecn 2 z /\ quad 2 (shape 2 egg) (coords z) = 0).
Proof.
  split; [apply egg_proper|]. split; [exact g12_vec|]. rewrite egg_width. split; [lra|].
  split. { simpl. pose proof (sqrt_pos 40). lra. } split. { simpl. lra. }
  split; [split; reflexivity|]. unfold quad, dot, coords. simpl. ring.
Qed.

(** ** C20 (binary64, every libm) *)
Theorem C20_dimension_one : forall lm (e : Ell (FNum lm)) (g : Arr (FNum lm)) c,
  ell_wf 1 e -> e_helper e = calc_new 1 -> e_no_defer e = false ->
  is_finite_strict (e_kappa e : f64) = true -> Bsign (e_kappa e : f64) = false -> is_vec 1 g ->
  exists e', ell_update_central single_cut e (g, c) = Ok (e', Success) /\
    e_kappa e' = B754_infinity false /\
    forall C (ct : CutType (FNum lm) C) md g' c' e'' st, is_vec 1 g' ->
      apply_cut ct md e' (g', c') = Ok (e'', st) -> is_finite (e_tsq e'' : f64) = false.
Proof. exact dim1_central. Qed.
Print Assumptions C20_dimension_one.

Example C20_case : exists e : Ell (FNum lm0), ell_new_with_scalar (N := FNum lm0) (fofZ 10) (mkArr (N := FNum lm0) [fofZ 3] 1 0) = Ok e /\
  ell_wf 1 e /\ e_helper e = calc_new 1 /\ e_no_defer e = false /\
  is_finite_strict (e_kappa e : f64) = true /\ Bsign (e_kappa e : f64) = false.
Proof.
  destruct (ell_new_with_scalar_ok (N := FNum lm0) 1 (fofZ 10) (mkArr (N := FNum lm0) [fofZ 3] 1 0)) as (e & E & Hw & Hk & _ & Hh & Hd & _); [lia|reflexivity|].
  exists e. split; [exact E|]. rewrite Hk. repeat split; auto; apply Hw.
Qed.
