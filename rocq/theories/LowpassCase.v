(** The repository's example problem, and cases for the theorems. *)
From Coq Require Import ZArith Reals List Bool Arith Lia Lra.
From Flocq Require Import Core.
From Verif Require Import Num Res Arr ArrLemmas CuttingPlane EllCalc Ell EllLemmas Spec RealLin EllReal LmiSpec ExtSpec ExtDefined EllMore Lowpass LowpassSpec LowpassProofs LowpassReal LowpassMore LowpassNew.
Import ListNotations.
Open Scope R_scope.

(** ** panics *)
Lemma lowpass_panics {N : Num} n (o : Lowpass N) x sp : lw_ok n o -> is_vec n x ->
  (lowpass_assess o x sp = Panic <->
   v_meets n (set_level o sp) x /\ forall k, (Z.to_nat (lw_nwstop o) <= k < length (lw_spectrum o))%nat -> (v_resp n o x k >?! nninf) = false).
Proof.
  intros Ho Hx. destruct (lowpass_assess_any n o x sp Ho Hx) as [(A & B & C)|(o' & sp' & g & c & sh & E & _ & _ & D1 & D2 & D3)].
  - tauto.
  - rewrite E. split; [discriminate|]. intros [M K]. destruct (D3 (proj2 D1 M)) as (k & _ & _ & _ & _ & j & J1 & J2). rewrite K in J2 by exact J1. discriminate.
Qed.

(** ** log10 and powers of ten *)
Lemma ln10_pos : 0 < ln 10.
Proof. rewrite <- ln_1. apply ln_increasing; lra. Qed.
Lemma log10_fin a : 0 < a -> nlog10 (N := ENum) (Fin a) = Fin (ln a / ln 10).
Proof.
  intros Ha. unfold nlog10. cbn [nln nZ ENum]. rewrite !Rle_bool_false by lra. apply ext_div_fin. pose proof ln10_pos. lra.
Qed.
Lemma pow10_fin a : npow10 (N := ENum) (Fin a) = Fin (exp (a * ln 10)).
Proof. unfold npow10. cbn [nln nZ ENum]. rewrite Rle_bool_false by lra. reflexivity. Qed.
Lemma lit_E m e v : IZR m * powerRZ 10 e = v -> nlit (n := ENum) m e = Fin v.
Proof. intros <-. reflexivity. Qed.
Lemma create_ok n : (0 < n)%nat -> (Z.of_nat (15 * n) <= 2 ^ 31)%Z ->
  exists o p q, create_lowpass_case (N := ENum) n = Ok o /\ (0 < p <= q)%nat /\ (q < 15 * n)%nat /\
    band (15 * n) (12 / 100) p /\ band (15 * n) (20 / 100) q /\
    lw_about o (lowpass_problem n p q ((40 / PI) * (40 / PI)) ((PI / 40) * (PI / 40))) /\ lw_sp o = Fin ((PI / 8) * (PI / 8)).
Proof.
  intros Hn H31. unfold create_lowpass_case.
  rewrite (lit_E 25 (-3) (25 / 1000)) by (unfold powerRZ; simpl; field). rewrite (lit_E 125 (-3) (125 / 1000)) by (unfold powerRZ; simpl; field).
  rewrite (lit_E 12 (-2) (12 / 100)) by (unfold powerRZ; simpl; field). rewrite (lit_E 20 (-2) (20 / 100)) by (unfold powerRZ; simpl; field).
  change (npi (n := ENum)) with (Fin PI). pose proof PI_RGT_0 as HP. pose proof ln10_pos as HL.
  assert (Hp1 : 0 < PI / 40) by lra.
  cbn [nmul ENum ext_mul]. replace (25 / 1000 * PI) with (PI / 40) by lra. replace (125 / 1000 * PI) with (PI / 8) by lra.
  rewrite !log10_fin by lra. cbn [nmul nopp ndiv nZ ENum ext_mul ext_opp].
  rewrite !ext_div_fin by lra. rewrite !pow10_fin. cbn [ext_mul].
  replace (20 * (ln (PI / 40) / ln 10) / 20 * ln 10) with (ln (PI / 40)) by (field; lra).
  replace (20 * (ln (PI / 8) / ln 10) / 20 * ln 10) with (ln (PI / 8)) by (field; lra).
  replace (- (20 * (ln (PI / 40) / ln 10)) / 20 * ln 10) with (- ln (PI / 40)) by (field; lra).
  rewrite !exp_Ropp, !exp_ln by lra. replace (/ (PI / 40)) with (40 / PI) by (field; lra).
  destruct (lowpass_new_ok n (12 / 100) (20 / 100) ((40 / PI) * (40 / PI)) ((PI / 40) * (PI / 40)) ((PI / 8) * (PI / 8)) Hn H31 ltac:(lra) ltac:(lra) ltac:(lra))
    as (o & p & q & E & Hpq & B1 & B2 & B3 & A & S).
  exists o, p, q. rewrite E. repeat (split; [first [assumption | reflexivity | apply B3; lra]|]). exact S.
Qed.
Lemma case_bounds : (PI / 40) * (PI / 40) < (40 / PI) * (40 / PI).
Proof.
  pose proof PI_RGT_0 as HP. pose proof PI_4 as H4. assert (H1 : PI / 40 < 1) by lra.
  assert (H2 : 1 < 40 / PI). { apply Rmult_lt_reg_r with PI; [exact HP|]. unfold Rdiv. rewrite Rmult_assoc, Rinv_l; lra. }
  nra.
Qed.
Lemma infeasible f : (0 < f_p f)%nat -> f_up f < f_lp f -> forall sp y, ~ meets f sp y.
Proof. intros Hp Hb sp y (M & _). specialize (M 0%nat Hp). lra. Qed.

(** ** with contradictory pass-band bounds a run ends at once *)
Lemma round_first {S R : Type} lo hi (step : Z -> S -> res (ctl S R)) idx s (Q : R -> Prop) : (lo < hi)%Z -> (lo - 1 <= idx <= hi - 1)%Z ->
  (forall k, (lo <= k < hi)%Z -> exists r, step k s = Ok (Done r) /\ Q r) ->
  exists k r, lowpass_round lo hi step idx s = Ok (Done (k, s, r)) /\ Q r.
Proof.
  intros H Hi K. unfold lowpass_round, loop_range. rewrite Nat.sub_0_r. destruct (Z.to_nat (hi - lo)) as [|t] eqn:E; [lia|]. cbn [loop_up].
  destruct (K (if (idx + 1 =? hi)%Z then lo else (idx + 1)%Z)) as (r & Er & Qr). { destruct (Z.eqb_spec (idx + 1) hi); lia. }
  rewrite Er. cbn [bind]. eauto.
Qed.
Lemma contradictory_cut (o : Lowpass ENum) f (x : Arr RNum) gamma : lw_about o f -> is_vec (f_n f) x -> (0 < f_p f)%nat -> f_up f < f_lp f ->
  exists o' g b0 b1, lowpass_assess (N := ENum) o (fin_arr x) gamma = Ok (o', gamma, ((fin_arr g, fin_par b0 (Some b1)), false)) /\ is_vec (f_n f) g /\ b1 < b0.
Proof.
  intros Ha Hx Hp Hb. unfold lowpass_assess. fold (set_level (N := ENum) o gamma). set (os := set_level (N := ENum) o gamma).
  assert (Has : lw_about os f) by exact Ha. pose proof Has as (Ho & _ & P & Q & L1 & L2). pose proof Ho as (Hn & Hm & Hr & H1 & H2 & I1 & _).
  unfold lowpass_feas. rewrite (rd_nth _ _ (a_new 0)) by lia. cbn [bind].
  destruct (round_first 0 (lw_nwpass os) (pass_step os (fin_arr x)) (lw_idx1 os) tt
    (fun c => exists g b0 b1, c = (fin_arr g, fin_par b0 (Some b1)) /\ is_vec (f_n f) g /\ b1 < b0)) as (k & [g c] & E & g0 & b0 & b1 & Ec & V & B).
  - lia.
  - lia.
  - intros k Hk. unfold pass_step. rewrite (col_ok (f_n f) os (fin_arr x) Ho (fin_vec _ _ Hx)) by lia.
    assert (Hk2 : (Z.to_nat k < f_m f)%nat) by (rewrite <- (spec_len os f Has); lia).
    rewrite (resp_fin os f x Has) by exact Hk2. destruct (row_fin os f Has (Z.to_nat k) Hk2) as (r & Er & Vr & _). rewrite Er, L1, L2.
    rewrite Fin_gt, Fin_lt. set (v := response f (xvec x) (Z.to_nat k)). destruct (Rlt_bool (f_up f) v) eqn:B1.
    + eexists. split; [reflexivity|]. exists r, (v - f_up f), (v - f_lp f). split; [reflexivity|]. split; [exact Vr|]. lra.
    + apply Rlt_bool_no in B1. rewrite (proj2 (Rlt_bool_iff v (f_lp f))) by lra. rewrite neg_fin.
      eexists. split; [reflexivity|]. exists (neg_row r), (- v + f_lp f), (- v + f_up f). split; [reflexivity|]. split; [now apply neg_vec|]. lra.
  - rewrite E. cbn [bind]. injection Ec as -> ->. do 4 eexists. split; [reflexivity|]. split; assumption.
Qed.
Lemma contradictory_run (o : Lowpass ENum) f (e : Ell ENum) (x : Arr RNum) opt (gamma : ext) : lw_about o f -> (0 < f_p f)%nat -> f_up f < f_lp f ->
  ell_wf (f_n f) e -> e_xc e = fin_arr x -> is_vec (f_n f) x -> (0 < max_iters opt)%nat ->
  exists o' e', cutting_plane_optim (N := ENum) (lowpass_assess (N := ENum)) (ell_space (N := ENum) (parallel_cut (N := ENum))) opt o e gamma = Ok (o', e', gamma, (None, 0%nat)).
Proof.
  intros Ha Hp Hb We Hc Hx Hi. unfold cutting_plane_optim, loop_range. rewrite Nat.sub_0_r. destruct (max_iters opt) as [|t]; [lia|]. cbn [loop_up].
  destruct (contradictory_cut o f x gamma Ha Hx Hp Hb) as (o' & g & b0 & b1 & E & V & B). cbn [sp_xc ell_space]. rewrite Hc, E. cbn [bind].
  cbn [sp_update_bias_cut ell_space]. unfold ell_update_bias. cbn [fst snd call_bias parallel_cut].
  destruct (ell_update_core_ok (f_n f) e (fin_arr g) (fun tsq => calc_single_or_parallel_bias_cut (N := ENum) (e_helper e) (fin_par b0 (Some b1)) tsq) We (fin_vec _ _ V))
    as (e' & st & rho & sigma & delta & K & E2 & _). rewrite E2. cbn [bind].
  unfold calc_single_or_parallel_bias_cut, fin_par, calc_parallel_bias_cut in K. cbn [pc_beta0 pc_beta1] in K.
  rewrite Fin_lt, (proj2 (Rlt_bool_iff b1 b0)) in K by exact B. injection K as <- _ _ _. cbn [is_success negb orb bind]. eauto.
Qed.

(** ** cases *)
Lemma empty_stop_panics (o : Lowpass ENum) f sp (x : Arr RNum) : lw_about o f -> is_vec (f_n f) x -> f_q f = f_m f -> meets f sp (xvec x) ->
  lowpass_assess (N := ENum) o (fin_arr x) (Fin sp) = Panic.
Proof.
  intros Ha Hx Hq M. apply (lowpass_panics (f_n f) o (fin_arr x) (Fin sp) (proj1 Ha) (fin_vec _ _ Hx)).
  split; [exact (meets_v (set_level (N := ENum) o (Fin sp)) f x Ha sp eq_refl M)|].
  pose proof Ha as (_ & _ & _ & Q & _). rewrite (spec_len o f Ha), Q. intros k Hk. lia.
Qed.
Definition flat (a : R) : Arr RNum := mkArr (N := RNum) [a; 0] 2 0.
Lemma flat_vec a : is_vec 2 (flat a).
Proof. split; reflexivity. Qed.
Lemma flat_response p q lp up a k : response (lowpass_problem 2 p q lp up) (xvec (flat a)) k = a.
Proof. unfold response, lowpass_problem, dot, flat, xvec. cbn -[cos PI INR]. ring. Qed.
Lemma flat_meets p q lp up sp a : lp <= a <= up -> 0 <= a <= sp -> meets (lowpass_problem 2 p q lp up) sp (xvec (flat a)).
Proof.
  intros H1 H2. split; [|split; [|split]]; try (intros k Hk; rewrite flat_response; cbn [f_lp f_up lowpass_problem]; lra). cbn. lra.
Qed.
Lemma case_designs : exists o p q, lowpass_new (N := ENum) 2 (Fin (1 / 4)) (Fin (1 / 2)) (Fin (1 / 4)) (Fin 1) (Fin 1) = Ok o /\
  let f := lowpass_problem 2 p q (1 / 4) 1 in
  lw_about o f /\ lw_sp o = Fin 1 /\ (0 < f_p f)%nat /\ (f_q f < f_m f)%nat /\
  meets f 1 (xvec (flat (1 / 2))) /\ ~ meets f 1 (xvec (flat 2)) /\ stop_level f (xvec (flat (1 / 2))) (1 / 2).
Proof.
  destruct (lowpass_new_ok 2 (1 / 4) (1 / 2) (1 / 4) 1 1 ltac:(lia) ltac:(cbn; lia) ltac:(lra) ltac:(lra) ltac:(lra)) as (o & p & q & E & Hpq & _ & _ & Hq & A & S).
  exists o, p, q. split; [exact E|]. cbv zeta. split; [exact A|]. split; [exact S|]. split; [cbn; lia|]. assert (Hq2 : (q < 15 * 2)%nat) by (apply Hq; lra).
  split; [exact Hq2|]. split; [apply flat_meets; lra|]. split.
  - intros (M & _). specialize (M 0%nat). rewrite flat_response in M. cbn [f_p lowpass_problem f_up] in M. specialize (M ltac:(lia)). lra.
  - split; [exists q; split; [cbn [f_q f_m lowpass_problem]; lia|apply flat_response]|]. intros k _. rewrite flat_response. lra.
Qed.
Lemma case_empty_stop : exists o, lowpass_new (N := ENum) 2 (Fin (1 / 4)) (Fin 1) (Fin (1 / 4)) (Fin 1) (Fin 1) = Ok o /\
  lowpass_assess (N := ENum) o (fin_arr (flat (1 / 2))) (Fin 1) = Panic.
Proof.
  destruct (lowpass_new_ok 2 (1 / 4) 1 (1 / 4) 1 1 ltac:(lia) ltac:(cbn; lia) ltac:(lra) ltac:(lra) ltac:(lra)) as (o & p & q & E & Hpq & _ & Bq & Hq & A & S).
  exists o. split; [exact E|]. apply (empty_stop_panics o _ 1 (flat (1 / 2)) A).
  - apply flat_vec.
  - cbn [f_q f_m lowpass_problem]. destruct Bq as [Bq _]. destruct (Nat.lt_ge_cases q (15 * 2)) as [L|L]; [|lia]. apply Hq in L. lra.
  - apply flat_meets; lra.
Qed.
Lemma case_infeasible n p q sp y : (0 < p)%nat -> ~ meets (lowpass_problem n p q ((40 / PI) * (40 / PI)) ((PI / 40) * (PI / 40))) sp y.
Proof. intros Hp. apply infeasible; [exact Hp|exact case_bounds]. Qed.
Lemma test_run : exists o e, create_lowpass_case (N := ENum) 32 = Ok o /\ ell_new_with_scalar (N := ENum) (Fin 40) (a_new (N := ENum) 32) = Ok e /\
  forall opt, (0 < max_iters opt)%nat -> exists o' e',
  cutting_plane_optim (N := ENum) (lowpass_assess (N := ENum)) (ell_space (N := ENum) (parallel_cut (N := ENum))) opt o e (lw_sp o) = Ok (o', e', lw_sp o, (None, 0%nat)).
Proof.
  destruct (create_ok 32 ltac:(lia) ltac:(cbn; lia)) as (o & p & q & E & Hp & Hq & _ & _ & A & _).
  assert (Hv : is_vec 32 (a_new (N := ENum) 32)) by (split; reflexivity).
  destruct (ell_new_with_scalar_ok (N := ENum) 32 (Fin 40) (a_new (N := ENum) 32) ltac:(lia) (proj1 Hv)) as (e & Ee & We & _ & Ex & _).
  exists o, e. split; [exact E|]. split; [exact Ee|]. intros opt Hi.
  apply (contradictory_run o _ e (a_new (N := RNum) 32) opt (lw_sp o) A); [exact (proj1 Hp)|exact case_bounds|exact We|rewrite Ex; reflexivity|split; reflexivity|exact Hi].
Qed.
