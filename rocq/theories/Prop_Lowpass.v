(** C48-C51, C71: the lowpass filter oracle. *)
From Coq Require Import ZArith Reals List Bool Arith Lia Lra.
From Flocq Require Import Core IEEE754.BinarySingleNaN.
From Verif Require Import Num Res Arr ArrLemmas CuttingPlane EllCalc Ell EllLemmas Spec LmiSpec ExtSpec Lowpass LowpassSpec LowpassProofs LowpassReal LowpassMore LowpassNew LowpassCase LowpassFloat Replay.
Import ListNotations.
Open Scope R_scope.

(** ** C48 *)
(** the constructor *)
Theorem C48_new : forall n wp ws lp up sp, (0 < n)%nat -> (Z.of_nat (15 * n) <= 2 ^ 31)%Z -> 0 <= wp -> wp <= ws -> ws <= 1 ->
  exists o p q, lowpass_new (N := ENum) n (Fin wp) (Fin ws) (Fin lp) (Fin up) (Fin sp) = Ok o /\
    (0 < p <= q)%nat /\ band (15 * n) wp p /\ band (15 * n) ws q /\ ((q < 15 * n)%nat <-> ws < 1) /\
    lw_about o (lowpass_problem n p q lp up) /\ lw_sp o = Fin sp.
Proof. exact lowpass_new_ok. Qed.
Print Assumptions C48_new.
(** any sequence of calls *)
Theorem C48_calls : forall (o : Lowpass ENum) f (l : list (Arr RNum * option R)), lw_about o f -> (f_q f < f_m f)%nat ->
  (exists sp, lw_sp o = Fin sp) -> (forall c, In c l -> is_vec (f_n f) (fst c)) ->
  exists o', lw_calls (N := ENum) o (map (fun c => (fin_arr (fst c), option_map Fin (snd c))) l) = Ok o' /\ lw_about o' f /\ exists sp, lw_sp o' = Fin sp.
Proof. exact lowpass_calls_E. Qed.
Print Assumptions C48_calls.
(** for every number type: when assess_optim panics *)
Theorem C48_panics : forall (N : Num) n (o : Lowpass N) x sp, lw_ok n o -> is_vec n x ->
  (lowpass_assess o x sp = Panic <->
   v_meets n (set_level o sp) x /\ forall k, (Z.to_nat (lw_nwstop o) <= k < length (lw_spectrum o))%nat -> (v_resp n o x k >?! nninf) = false).
Proof. exact @lowpass_panics. Qed.
Print Assumptions C48_panics.
Theorem C48_wrong_shape : forall (N : Num) n (o : Lowpass N) x, lw_ok n o -> ~ is_vec n x -> lowpass_feas o x = Panic.
Proof. exact @lowpass_not_vec. Qed.
Print Assumptions C48_wrong_shape.
Theorem C48_empty_stop_panics : forall (o : Lowpass ENum) f sp (x : Arr RNum), lw_about o f -> is_vec (f_n f) x -> f_q f = f_m f -> meets f sp (xvec x) ->
  lowpass_assess (N := ENum) o (fin_arr x) (Fin sp) = Panic.
Proof. exact empty_stop_panics. Qed.
Print Assumptions C48_empty_stop_panics.
Example C48_empty_stop_case : exists o, lowpass_new (N := ENum) 2 (Fin (1 / 4)) (Fin 1) (Fin (1 / 4)) (Fin 1) (Fin 1) = Ok o /\
  lowpass_assess (N := ENum) o (fin_arr (flat (1 / 2))) (Fin 1) = Panic.
Proof. exact case_empty_stop. Qed.
(** binary64: the filter NaN is accepted by assess_feas and makes assess_optim panic *)
Theorem C48_nan_refuted : match nan_oracle with
  | Ok o => (match lowpass_feas (N := FNum lm0) o (one_coef B754_nan) with Ok (_, None) => True | _ => False end) /\
            (match lowpass_assess (N := FNum lm0) o (one_coef B754_nan) (fofZ 1) with Panic => True | Ok _ => False end)
  | Panic => False end.
Proof. exact nan_filter. Qed.
Print Assumptions C48_nan_refuted.

(** ** C49, C50 *)
Theorem C49_exhaustive_any : forall (N : Num) n (o : Lowpass N) x, lw_ok n o -> is_vec n x ->
  exists o' r, lowpass_feas o x = Ok (o', r) /\ lw_ok n o' /\ lw_same o o' /\ lw_sp o' = lw_sp o /\
  (r = None <-> v_meets n o x) /\ (forall g c, r = Some (g, c) -> v_cut n o x g c).
Proof. exact @lowpass_exhaustive. Qed.
Print Assumptions C49_exhaustive_any.
Theorem C49_C50_feasibility : forall (o : Lowpass ENum) f sp (x : Arr RNum), lw_about o f -> lw_sp o = Fin sp -> is_vec (f_n f) x ->
  exists o' r, lowpass_feas (N := ENum) o (fin_arr x) = Ok (o', r) /\ lw_about o' f /\ lw_sp o' = Fin sp /\
    (r = None <-> meets f sp (xvec x)) /\
    (forall g c, r = Some (g, c) -> exists g0 b0 b1, g = fin_arr g0 /\ is_vec (f_n f) g0 /\ c = fin_par b0 b1 /\ 0 < b0 /\
       keeps (f_n f) (xvec g0) (xvec x) b0 b1 (meets f sp)).
Proof. exact lowpass_feas_E. Qed.
Print Assumptions C49_C50_feasibility.

(** ** C51 *)
Theorem C51_optimisation : forall (o : Lowpass ENum) f sp (x : Arr RNum), lw_about o f -> is_vec (f_n f) x -> (f_q f < f_m f)%nat ->
  exists o' sp' g b0 b1 sh, lowpass_assess (N := ENum) o (fin_arr x) (Fin sp) = Ok (o', Fin sp', ((fin_arr g, fin_par b0 b1), sh)) /\
    lw_about o' f /\ is_vec (f_n f) g /\ (sh = true <-> meets f sp (xvec x)) /\
    (sh = false -> sp' = sp /\ 0 < b0) /\
    (sh = true -> stop_level f (xvec x) sp' /\ sp' <= sp /\ b0 = 0 /\ b1 = Some sp') /\
    keeps (f_n f) (xvec g) (xvec x) b0 b1 (meets f sp').
Proof. exact lowpass_assess_E. Qed.
Print Assumptions C51_optimisation.
(** a run with any search space: the reported finite filter meets the specification
    with the reported level, and the level is its own *)
Theorem C51_run : forall (S : Type) (sp : SearchSpace ENum (Arr ENum) (ParallelCut ENum) S) opt (o : Lowpass ENum) f s (gamma : ext) o' s' gamma' x0 k,
  lw_about o f -> (f_q f < f_m f)%nat ->
  cutting_plane_optim (N := ENum) (lowpass_assess (N := ENum)) sp opt o s gamma = Ok (o', s', gamma', (Some (fin_arr x0), k)) ->
  lw_about o' f /\ is_vec (f_n f) x0 /\ exists level, gamma' = Fin level /\ stop_level f (xvec x0) level /\ meets f level (xvec x0).
Proof. exact @lowpass_best_E. Qed.
Print Assumptions C51_run.
(** for every number type *)
Theorem C51_run_any : forall (N : Num) (S : Type) (sp : SearchSpace N (Arr N) (ParallelCut N) S) opt n (o : Lowpass N) s gamma o' s' gamma' xb k, lw_ok n o ->
  cutting_plane_optim lowpass_assess sp opt o s gamma = Ok (o', s', gamma', (xb, k)) ->
  lw_ok n o' /\ lw_same o o' /\
  match xb with
  | None => gamma' = gamma
  | Some x => is_vec n x /\ (exists level, v_meets n (set_level o level) x) /\
      exists j, (Z.to_nat (lw_nwstop o) <= j < length (lw_spectrum o))%nat /\ gamma' = v_resp n o x j
  end.
Proof. exact @lowpass_best_any. Qed.
Print Assumptions C51_run_any.

(** a case for all of them: two coefficients, flat filters 1/2 and 2 *)
Example C48_C51_case : exists o p q, lowpass_new (N := ENum) 2 (Fin (1 / 4)) (Fin (1 / 2)) (Fin (1 / 4)) (Fin 1) (Fin 1) = Ok o /\
  let f := lowpass_problem 2 p q (1 / 4) 1 in
  lw_about o f /\ lw_sp o = Fin 1 /\ (0 < f_p f)%nat /\ (f_q f < f_m f)%nat /\
  meets f 1 (xvec (flat (1 / 2))) /\ ~ meets f 1 (xvec (flat 2)) /\ stop_level f (xvec (flat (1 / 2))) (1 / 2).
Proof. exact case_designs. Qed.
(** and in binary64 *)
Example C49_float_case : match nan_oracle with
  | Ok o => (match lowpass_assess (N := FNum lm0) o (one_coef (flit 5 (-1))) (fofZ 1) with
             | Ok (_, sp, ((g, c), b)) => b = true /\ ftrunc (fmul sp (fofZ 100)) = 50%Z /\ map (@ftrunc) (adata g) = [1]%Z
             | Panic => False end) /\
            (match lowpass_assess (N := FNum lm0) o (one_coef (fofZ 2)) (fofZ 1) with
             | Ok (_, sp, ((g, mkParallel b0 (Some b1)), b)) => b = false /\ ftrunc b0 = 1%Z /\ ftrunc (fmul b1 (fofZ 100)) = 175%Z
             | _ => False end)
  | Panic => False end.
Proof. exact float_filter. Qed.

(** ** C71: the example problem of the repository *)
Theorem C71_create : forall n, (0 < n)%nat -> (Z.of_nat (15 * n) <= 2 ^ 31)%Z ->
  exists o p q, create_lowpass_case (N := ENum) n = Ok o /\ (0 < p <= q)%nat /\ (q < 15 * n)%nat /\
    band (15 * n) (12 / 100) p /\ band (15 * n) (20 / 100) q /\
    lw_about o (lowpass_problem n p q ((40 / PI) * (40 / PI)) ((PI / 40) * (PI / 40))) /\ lw_sp o = Fin ((PI / 8) * (PI / 8)).
Proof. exact create_ok. Qed.
Print Assumptions C71_create.
Theorem C71_no_filter : forall n p q sp y, (0 < p)%nat -> ~ meets (lowpass_problem n p q ((40 / PI) * (40 / PI)) ((PI / 40) * (PI / 40))) sp y.
Proof. exact case_infeasible. Qed.
Print Assumptions C71_no_filter.
(** with contradictory pass-band bounds the optimiser on an ellipsoid stops at the
    first query with nothing *)
Theorem C71_run : forall (o : Lowpass ENum) f (e : Ell ENum) (x : Arr RNum) opt (gamma : ext), lw_about o f -> (0 < f_p f)%nat -> f_up f < f_lp f ->
  ell_wf (f_n f) e -> e_xc e = fin_arr x -> is_vec (f_n f) x -> (0 < max_iters opt)%nat ->
  exists o' e', cutting_plane_optim (N := ENum) (lowpass_assess (N := ENum)) (ell_space (N := ENum) (parallel_cut (N := ENum))) opt o e gamma = Ok (o', e', gamma, (None, 0%nat)).
Proof. exact contradictory_run. Qed.
Print Assumptions C71_run.
(** the run of the repository's own test *)
Theorem C71_test_refuted : exists o e, create_lowpass_case (N := ENum) 32 = Ok o /\ ell_new_with_scalar (N := ENum) (Fin 40) (a_new (N := ENum) 32) = Ok e /\
  forall opt, (0 < max_iters opt)%nat -> exists o' e',
  cutting_plane_optim (N := ENum) (lowpass_assess (N := ENum)) (ell_space (N := ENum) (parallel_cut (N := ENum))) opt o e (lw_sp o) = Ok (o', e', lw_sp o, (None, 0%nat)).
Proof. exact test_run. Qed.
Print Assumptions C71_test_refuted.
