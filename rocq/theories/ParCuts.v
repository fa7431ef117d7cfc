(** The kinds of pairs of parallel cuts in binary64, from the general step (C109). *)
From Coq Require Import ZArith Reals Lra Lia Bool Psatz Arith List.
From Flocq Require Import Core IEEE754.BinarySingleNaN.
From Verif Require Import Num Res Arr CuttingPlane EllCalc Ell ArrLemmas EllLemmas Spec RealLin EllReal FloatLemmas AccSpec FloatRel AccProofs FloatErr StepErr StepRel StepAccSpec StepAcc StepCuts ParAccSpec ParGeom ParKern StepPar.
Local Open Scope R_scope.
#[local] Opaque fadd fsub fmul fdiv fsqrt fofZ.

Section S.
Variable lm : Libm.
Notation F := (FNum lm).
Lemma core_pair n (e : Ell F) (g : Arr F) lam Lam X r (b0 b1 : R) (strategy : F -> cutres F) (e' : Ell F) (rf sf df : f64) :
  tame n e lam Lam X -> grad_ok n g -> pair_slack n lam Lam X (fkap e) r <= 1 / 10 ->
  let th := 8 * (INR n * INR n) * uu * (Lam / lam) in
  let t : f64 := e_tsq e' in
  moderate t -> thick (val t) b0 b1 r -> 0 <= b0 -> 4 * (b0 * b0) <= val t -> b0 < b1 -> b1 * b1 < val t ->
  strategy t = (Success, (rf, sf, df)) ->
  rel (10 * th) (val rf) (slab_rho (INR n) (val t) b0 b1) -> rel (10 * th) (val sf) (slab_sigma (INR n) (val t) b0 b1) -> rel (10 * th) (val df) (slab_delta (INR n) (val t) b0 b1) ->
  fin rf = true -> fin sf = true -> fin df = true ->
  rng (-129) 100 (slab_rho (INR n) (val t) b0 b1) -> rng (-28) 0 (slab_sigma (INR n) (val t) b0 b1) ->
  forall st, ell_update_core e g strategy = Ok (e', st) -> st = Success /\ (pair_sound n e g b0 b1 lam Lam X r e' /\ pair_shrinks n e lam Lam X r e').
Proof.
  intros He Hg Hs th t Ht [Hr Hth] H0 Hq H01 H1 Es R1 R2 R3 F1 F2 F3 G1 G2 st E.
  destruct (ell_update_core_ok n e g strategy (ewf lm n e lam Lam X He) (gvec lm n g Hg)) as (e1 & st1 & rho & sigma & delta & S1 & S2 & W & T1 & _ & _ & _ & _ & _ & K).
  rewrite S2 in E. inversion E. subst e1 st1. clear E. assert (Et : t = fmul (e_kappa e) (omega e g n)) by exact T1. rewrite <- T1 in S1. change (e_tsq e') with t in S1. rewrite S1 in Es. inversion Es. subst st rho sigma delta. split; [reflexivity|].
  destruct (K eq_refl) as (Kx & Kk & Km). rewrite (t_defer _ _ _ _ _ He) in Kk, Km. cbn iota in Kk, Km.
  clearbody t. subst t.
  pose proof (p_new_fin lm n e g lam Lam X r He Hg Ht Hr Hs b0 b1 H0 Hq H01 H1 Hth rf sf df R1 R2 R3 F1 F2 F3 G1 G2 e' W Kx Kk Km) as (A1 & A2 & A3).
  split; [|exact (p_new_vol lm n e g lam Lam X r He Hg Ht Hr Hs b0 b1 H0 Hq H01 H1 Hth sf df R2 R3 F2 F3 G2 e' Kk Km)].
  split; [exact A1|]. split; [exact A2|]. split; [exact A3|]. split; [exact (Mt_sym lm n e g sf e' Km)|]. split.
  - exact (p_new_low lm n e g lam Lam X r He Hg Ht Hr Hs b0 b1 H0 Hq H01 H1 Hth sf R2 F2 G2 e' Km).
  - exact (p_new_holds lm n e g lam Lam X r He Hg Ht Hr Hs b0 b1 H0 Hq H01 H1 Hth rf sf df R1 R2 R3 F1 F2 F3 G1 G2 e' Kx Kk Km).
Qed.
Lemma nz_pos (b : f64) : moderate_or_zero b -> 0 <= val b.
Proof. intros [_ [E|[E _]]]; [rewrite E; lra|]. pose proof (bpow_gt_0 radix2 (-100)). lra. Qed.
Lemma th_N n (e : Ell F) lam Lam X : tame n e lam Lam X -> 28 * (INR n * uu) <= 10 * (8 * (INR n * INR n) * uu * (Lam / lam)).
Proof.
  intros He. pose proof (StepAcc.K1 lm n e lam Lam X He) as K. pose proof (N2' lm n e lam Lam X He) as N0. pose proof uu_s as U. set (N := INR n) in *. set (k := Lam / lam) in *.
  assert (A : 0 <= N * uu) by (apply Rmult_le_pos; lra). assert (B : 2 * 1 <= N * k) by (apply Rmult_le_compat; lra). replace (10 * (8 * (N * N) * uu * k)) with (80 * (N * k) * (N * uu)) by ring. apply Rmult_le_compat_r; lra.
Qed.

(** the calculator *)
Lemma slab_calc n (t b0 b1 rho sigma delta : f64) :
  (2 <= n)%nat -> (Z.of_nat n <= 2 ^ 26)%Z -> moderate t -> moderate_or_zero b0 -> moderate b1 -> val b0 < val b1 -> 4 * (val b0 * val b0) <= val t -> Bleb t (fmul b1 b1) = false ->
  core_parallel_bias_cut (N := F) (ec_helper (calc_new n)) b0 b1 t = (rho, sigma, delta) ->
  (frel (28 * (INR n * uu)) rho (slab_rho (INR n) (val t) (val b0) (val b1)) /\ frel (28 * (INR n * uu)) sigma (slab_sigma (INR n) (val t) (val b0) (val b1)) /\ frel (28 * (INR n * uu)) delta (slab_delta (INR n) (val t) (val b0) (val b1))) /\
  rng (-129) 100 (slab_rho (INR n) (val t) (val b0) (val b1)) /\ rng (-28) 0 (slab_sigma (INR n) (val t) (val b0) (val b1)) /\ val b1 * val b1 < val t.
Proof.
  intros Hn Hz [Tf Tb] [F0 R0] [F1 R1] H01 Hq Hin E.
  pose proof (par_kernel lm n Hn Hz t b0 b1 Tf Tb F0 R0 F1 R1 H01 Hq Hin rho sigma delta E) as (A & B & C & D & G).
  split; [split; [exact A|split; [exact B|exact C]]|]. split; [exact D|]. split; [exact G|]. exact (bb_lt n Hn t Tf b1 F1 R1 Hin).
Qed.
Lemma frel_within e x X : frel e x X -> within e x X. Proof. intros [A B]. split; [exact A|apply rel_abs; exact B]. Qed.
(** which branch is taken *)
Lemma fltb_no (a b : f64) : fin a = true -> fin b = true -> val b <= val a -> Bltb a b = false.
Proof. intros A B H. rewrite fltb_fin by auto. case Rlt_bool_spec; auto. intros. lra. Qed.
Lemma pb_in n (t b0 b1 : f64) : fin b0 = true -> fin b1 = true -> val b0 <= val b1 -> Bleb t (fmul b1 b1) = false ->
  calc_parallel_bias_cut (N := F) (calc_new n) b0 b1 t = (Success, core_parallel_bias_cut (N := F) (ec_helper (calc_new n)) b0 b1 t).
Proof.
  intros F0 F1 H Hin. unfold calc_parallel_bias_cut. change (nltb (n := F) b1 b0) with (Bltb b1 b0). rewrite fltb_no by auto.
  change (nleb (n := F) t (nmul (n := F) b1 b1)) with (Bleb t (fmul b1 b1)). rewrite Hin, andb_false_r. reflexivity.
Qed.
Lemma pb_out n (t b0 b1 : f64) : fin b0 = true -> fin b1 = true -> val b0 <= val b1 -> 0 < val b1 -> Bleb t (fmul b1 b1) = true ->
  calc_parallel_bias_cut (N := F) (calc_new n) b0 b1 t = calc_bias_cut (N := F) (calc_new n) b0 t.
Proof.
  intros F0 F1 H P Hin. unfold calc_parallel_bias_cut. change (nltb (n := F) b1 b0) with (Bltb b1 b0). rewrite fltb_no by auto.
  change (nleb (n := F) t (nmul (n := F) b1 b1)) with (Bleb t (fmul b1 b1)). rewrite Hin, andb_true_r.
  assert (G : nltb (n := F) (n0 (N := F)) b1 = true). { change (Bltb (n0 (N := F) : f64) b1 = true). rewrite fltb_fin by (auto; apply n0_fin). rewrite (n0_val lm). apply Rlt_bool_true. exact P. }
  rewrite G. reflexivity.
Qed.
Lemma from_slab n (e : Ell F) (g : Arr F) (b0 b1 : f64) lam Lam X r (strategy : F -> cutres F) (e' : Ell F) st :
  tame n e lam Lam X -> grad_ok n g -> pair_slack n lam Lam X (fkap e) r <= 1 / 10 -> moderate_or_zero b0 -> moderate b1 ->
  let t : f64 := e_tsq e' in
  moderate t -> val b0 < val b1 -> 2 * val b0 <= sqrt (val t) -> thick (val t) (val b0) (val b1) r -> Bleb t (fmul b1 b1) = false ->
  strategy t = (Success, core_parallel_bias_cut (N := F) (ec_helper (calc_new n)) b0 b1 t) ->
  ell_update_core e g strategy = Ok (e', st) -> st = Success /\ (pair_sound n e g (val b0) (val b1) lam Lam X r e' /\ pair_shrinks n e lam Lam X r e').
Proof.
  intros He Hg Hs H0 H1 t Ht H01 Hq Hth Hin Es E. pose proof (t_dim _ _ _ _ _ He) as [D1 D2]. pose proof (nz_pos b0 H0) as P0. pose proof (th_N n e lam Lam X He) as TN.
  assert (T0 : 0 <= val t) by (destruct Ht as [_ A]; left; exact (rng_pos _ _ _ A)).
  assert (Hq2 : 4 * (val b0 * val b0) <= val t). { rewrite <- (sqrt_sqrt (val t) T0). pose proof (sqrt_pos (val t)). nra. }
  destruct (core_parallel_bias_cut (N := F) (ec_helper (calc_new n)) b0 b1 t) as [[rf sf] df] eqn:Q.
  destruct (slab_calc n t b0 b1 rf sf df D1 D2 Ht H0 H1 H01 Hq2 Hin Q) as (((A1 & A2) & (B1 & B2) & (C1 & C2)) & G1 & G2 & G3).
  pose proof (rng_pos _ _ _ G1) as P1. pose proof (rng_pos _ _ _ G2) as P2.
  assert (P3 : 0 <= slab_delta (INR n) (val t) (val b0) (val b1)).
  { assert (TT : 0 < val t) by (destruct Ht as [_ A]; exact (rng_pos _ _ _ A)). pose proof (pg_delta (INR n) (val t) (val b0) (val b1) (N2' lm n e lam Lam X He) TT P0 Hq2 H01 G3) as [A _]. unfold slab_delta, slab_xi. lra. }
  apply (core_pair n e g lam Lam X r (val b0) (val b1) strategy e' rf sf df He Hg Hs); auto.
  - apply (rel_weak (28 * (INR n * uu))); [left; exact P1|exact TN|exact A2].
  - apply (rel_weak (28 * (INR n * uu))); [left; exact P2|exact TN|exact B2].
  - apply (rel_weak (28 * (INR n * uu))); [exact P3|exact TN|exact C2].
Qed.
Lemma par_bias n (e : Ell F) (g : Arr F) (b0 b1 : f64) lam Lam X r (e' : Ell F) st :
  tame n e lam Lam X -> grad_ok n g -> pair_slack n lam Lam X (fkap e) r <= 1 / 10 -> moderate_or_zero b0 -> moderate b1 ->
  ell_update_bias parallel_cut e (g, mkParallel (N := F) b0 (Some b1)) = Ok (e', st) ->
  moderate (e_tsq e') -> val b0 < val b1 -> 2 * val b0 <= sqrt (val (e_tsq e' : f64)) -> thick (val (e_tsq e' : f64)) (val b0) (val b1) r -> Bleb (e_tsq e') (fmul b1 b1) = false ->
  st = Success /\ (pair_sound n e g (val b0) (val b1) lam Lam X r e' /\ pair_shrinks n e lam Lam X r e').
Proof.
  intros He Hg Hs H0 H1 E Ht H01 Hq Hth Hin.
  apply (from_slab n e g b0 b1 lam Lam X r (fun tsq => call_bias parallel_cut (e_helper e) (mkParallel (N := F) b0 (Some b1)) tsq) e' st He Hg Hs H0 H1 Ht H01 Hq Hth Hin); [|exact E].
  rewrite (t_calc _ _ _ _ _ He). exact (pb_in n (e_tsq e') b0 b1 (proj1 H0) (proj1 H1) (Rlt_le _ _ H01) Hin).
Qed.
Lemma eta_nonneg n (t b0 b1 : f64) : moderate t -> moderate_or_zero b0 -> moderate b1 -> (2 <= n)%nat -> (Z.of_nat n <= 2 ^ 26)%Z -> Bleb t (fmul b1 b1) = false -> val b0 < val b1 ->
  nleb (n := F) (nadd (n := F) t (nmul (n := F) (ec_n_f (calc_new (N := F) n)) (nmul (n := F) b0 b1))) (n0 (N := F)) = false.
Proof.
  intros [Tf Tb] [F0 R0] [F1 R1] Hn Hz Hin H01. pose proof (k_eta lm n Hn Hz t b0 b1 Tf Tb F0 R0 F1 R1 H01 Hin) as C. pose proof (kT t Tb) as TP. pose proof (eta_up n Hn Hz t b0 b1 Tf Tb R0 F1 R1 H01 Hin) as U.
  change (nleb (n := F) _ _) with (Bleb (fadd t (fmul (c_n_f (core_new (N := F) (nN n)) : f64) (fmul b0 b1))) (n0 (N := F) : f64)).
  pose proof (close_abs 3 _ _ C ltac:(lia)) as A. destruct C as (Fe & _). rewrite fleb_fin by (auto; apply n0_fin). rewrite (n0_val lm). case Rle_bool_spec; [|reflexivity]. intros K. exfalso. apply Rabs_le_inv in A. pose proof uu_s as US. simpl INR in A.
  set (y := val t + INR n * (val b0 * val b1)) in *. assert (2 * (1 + 1 + 1) * uu * y <= 1 / 1000 * y) by (apply Rmult_le_compat_r; lra). lra.
Qed.
Lemma pq_in n (t b0 b1 : f64) : (2 <= n)%nat -> (Z.of_nat n <= 2 ^ 26)%Z -> moderate t -> moderate_or_zero b0 -> moderate b1 -> val b0 < val b1 -> Bleb t (fmul b1 b1) = false ->
  calc_parallel_q (N := F) (calc_new n) b0 b1 t = (Success, core_parallel_bias_cut (N := F) (ec_helper (calc_new n)) b0 b1 t).
Proof.
  intros D1 D2 Ht H0 H1 H01 Hin. unfold calc_parallel_q.
  change (nltb (n := F) b1 b0) with (Bltb b1 b0). rewrite fltb_no by (try apply H0; try apply H1; lra).
  change (nleb (n := F) t (nmul (n := F) b1 b1)) with (Bleb t (fmul b1 b1)). rewrite Hin, andb_false_r. cbn [orb negb]. change (ec_use_parallel_cut (calc_new (N := F) n)) with true. cbn [negb].
  rewrite (eta_nonneg n t b0 b1 Ht H0 H1 D1 D2 Hin H01). reflexivity.
Qed.
Lemma calc_both n (t b0 b1 : f64) (strategy : EllCalc F -> F -> F -> F -> cutres F) : strategy = calc_parallel_bias_cut (N := F) \/ strategy = calc_parallel_q (N := F) ->
  (2 <= n)%nat -> (Z.of_nat n <= 2 ^ 26)%Z -> moderate t -> moderate_or_zero b0 -> moderate b1 -> val b0 < val b1 -> 2 * val b0 <= sqrt (val t) -> Bleb t (fmul b1 b1) = false ->
  exists rho sigma delta : f64, strategy (calc_new n) b0 b1 t = (Success, (rho, sigma, delta)) /\
  within (28 * (INR n * uu)) rho (slab_rho (INR n) (val t) (val b0) (val b1)) /\ within (28 * (INR n * uu)) sigma (slab_sigma (INR n) (val t) (val b0) (val b1)) /\ within (28 * (INR n * uu)) delta (slab_delta (INR n) (val t) (val b0) (val b1)).
Proof.
  intros Hst Hn Hz Ht H0 H1 H01 Hq Hin. pose proof (nz_pos b0 H0) as P0.
  assert (T0 : 0 <= val t) by (destruct Ht as [_ A]; left; exact (rng_pos _ _ _ A)).
  assert (Hq2 : 4 * (val b0 * val b0) <= val t). { rewrite <- (sqrt_sqrt (val t) T0). pose proof (sqrt_pos (val t)). nra. }
  destruct (core_parallel_bias_cut (N := F) (ec_helper (calc_new n)) b0 b1 t) as [[rho sigma] delta] eqn:Q. exists rho, sigma, delta. split.
  - destruct Hst as [-> | ->]; [rewrite (pb_in n t b0 b1 (proj1 H0) (proj1 H1) (Rlt_le _ _ H01) Hin)|rewrite (pq_in n t b0 b1 Hn Hz Ht H0 H1 H01 Hin)]; rewrite Q; reflexivity.
  - destruct (slab_calc n t b0 b1 rho sigma delta Hn Hz Ht H0 H1 H01 Hq2 Hin Q) as ((A & B & C) & _). auto using frel_within.
Qed.
Lemma par_q n (e : Ell F) (g : Arr F) (b0 b1 : f64) lam Lam X r (e' : Ell F) st :
  tame n e lam Lam X -> grad_ok n g -> pair_slack n lam Lam X (fkap e) r <= 1 / 10 -> moderate_or_zero b0 -> moderate b1 ->
  ell_update_q parallel_cut e (g, mkParallel (N := F) b0 (Some b1)) = Ok (e', st) ->
  moderate (e_tsq e') -> val b0 < val b1 -> 2 * val b0 <= sqrt (val (e_tsq e' : f64)) -> thick (val (e_tsq e' : f64)) (val b0) (val b1) r -> Bleb (e_tsq e') (fmul b1 b1) = false ->
  st = Success /\ (pair_sound n e g (val b0) (val b1) lam Lam X r e' /\ pair_shrinks n e lam Lam X r e').
Proof.
  intros He Hg Hs H0 H1 E Ht H01 Hq Hth Hin. pose proof (t_dim _ _ _ _ _ He) as [D1 D2].
  apply (from_slab n e g b0 b1 lam Lam X r (fun tsq => call_q parallel_cut (e_helper e) (mkParallel (N := F) b0 (Some b1)) tsq) e' st He Hg Hs H0 H1 Ht H01 Hq Hth Hin); [|exact E].
  rewrite (t_calc _ _ _ _ _ He). exact (pq_in n (e_tsq e') b0 b1 D1 D2 Ht H0 H1 H01 Hin).
Qed.
Lemma par_central n (e : Ell F) (g : Arr F) (b0 b1 : f64) lam Lam X r (e' : Ell F) st :
  tame n e lam Lam X -> grad_ok n g -> pair_slack n lam Lam X (fkap e) r <= 1 / 10 -> moderate b1 ->
  ell_update_central parallel_cut e (g, mkParallel (N := F) b0 (Some b1)) = Ok (e', st) ->
  moderate (e_tsq e') -> thick (val (e_tsq e' : f64)) 0 (val b1) r -> Bleb (e_tsq e') (fmul b1 b1) = false ->
  st = Success /\ (pair_sound n e g 0 (val b1) lam Lam X r e' /\ pair_shrinks n e lam Lam X r e').
Proof.
  intros He Hg Hs H1 E Ht Hth Hin. pose proof (t_dim _ _ _ _ _ He) as [D1 D2]. pose proof Ht as [Tf Tb]. pose proof H1 as [F1 R1]. set (t := e_tsq e' : f64) in *.
  assert (TT : 0 < val t) by exact (rng_pos _ _ _ Tb). assert (P1 : 0 < val b1) by exact (rng_pos _ _ _ R1). pose proof (bb_lt n D1 t Tf b1 F1 R1 Hin) as HB.
  destruct (calc_parallel_central_cut (N := F) (calc_new n) b1 t) as [s [[rf sf] df]] eqn:Q.
  assert (s = Success).
  { pose proof (f_equal fst Q) as Z. unfold calc_parallel_central_cut in Z. change (nltb (n := F) b1 (n0 (N := F))) with (Bltb b1 (n0 (N := F) : f64)) in Z. rewrite fltb_no in Z by (try apply n0_fin; auto; rewrite (n0_val lm); lra).
    destruct (_ || _) in Z; cbn in Z; congruence. }
  subst s. destruct (pair_close lm n D1 D2 t Tf Tb b1 F1 R1 Hin rf sf df Q) as (C1 & C2 & C3).
  pose proof (parc3_par3 n (val t) (val b1) D1 TT HB) as PP. unfold parc3, par3 in PP.
  assert (E1 : val b1 / (INR n / 2 * (val b1 * val b1 / val t) + sqrt (1 - val b1 * val b1 / val t + INR n / 2 * (val b1 * val b1 / val t) * (INR n / 2 * (val b1 * val b1 / val t))) + 1) = slab_rho (INR n) (val t) 0 (val b1)) by exact (f_equal (fun z => fst (fst z)) PP).
  assert (E2 : 2 / (INR n / 2 * (val b1 * val b1 / val t) + sqrt (1 - val b1 * val b1 / val t + INR n / 2 * (val b1 * val b1 / val t) * (INR n / 2 * (val b1 * val b1 / val t))) + 1) = slab_sigma (INR n) (val t) 0 (val b1)) by exact (f_equal (fun z => snd (fst z)) PP).
  pose proof (f_equal (fun z => snd z) PP) as E3. cbn [snd] in E3. change (INR n * INR n / _ * _ / val t) with (slab_delta (INR n) (val t) 0 (val b1)) in E3.
  rewrite E1 in C1. rewrite E2 in C2. rewrite E3 in C3.
  pose proof (th_uu lm n e lam Lam X He) as U. pose proof uu_s as US.
  pose (z := n0 (N := F) : f64). assert (Z0 : val z = 0) by exact (n0_val lm). assert (ZF : fin z = true) by exact (n0_fin lm).
  assert (H01 : val z < val b1) by (rewrite Z0; exact P1). assert (Hq : 4 * (val z * val z) <= val t) by (rewrite Z0; lra).
  pose proof (sigma_rng n D1 D2 t z b1 Tf Tb (or_introl Z0) F1 R1 H01 Hq Hin) as G2. pose proof (ParKern.rho_rng n D1 D2 t z b1 Tf Tb (or_introl Z0) F1 R1 H01 Hq Hin) as G1.
  rewrite Z0 in G1, G2.
  apply (core_pair n e g lam Lam X r 0 (val b1) (fun tsq => call_central parallel_cut (e_helper e) (mkParallel (N := F) b0 (Some b1)) tsq) e' rf sf df He Hg Hs Ht Hth); auto; fold t; try lra.
  - rewrite (t_calc _ _ _ _ _ He). exact Q.
  - apply (close_rel 32); [exact C1|lia|]. rewrite INR_IZR_INZ. change (Z.of_nat 32) with 32%Z. lra.
  - apply (close_rel 32); [exact C2|lia|]. rewrite INR_IZR_INZ. change (Z.of_nat 32) with 32%Z. lra.
  - apply (close_rel 152); [exact C3|lia|]. rewrite INR_IZR_INZ. change (Z.of_nat 152) with 152%Z. lra.
  - apply C1.
  - apply C2.
  - apply C3.
Qed.
(** pairs that are treated as their first cut *)
Lemma update_swap (e : Ell F) (g : Arr F) (s1 s2 : F -> cutres F) e' st : ell_update_core e g s1 = Ok (e', st) -> s1 (e_tsq e') = s2 (e_tsq e') -> ell_update_core e g s2 = Ok (e', st).
Proof.
  unfold ell_update_core. destruct (a_dot_mv (e_mq e) g) as [gt|]; [|discriminate]. cbn [bind]. destruct (a_dot g gt) as [om|]; [|discriminate]. cbn [bind]. cbn zeta. set (t := nmul (n := F) (e_kappa e) om).
  intros E Q. assert (T : e_tsq e' = t).
  { destruct (s1 t) as [st1 [[rho sigma] delta]]. destruct (negb _) in E; [inversion E; subst; reflexivity|]. destruct (ell_move_xc _ _ _ _) in E; [|discriminate]. cbn [bind] in E. destruct (ell_shrink_mq _ _ _ _) in E; [|discriminate]. cbn [bind] in E. cbn [e_no_defer e_kappa e_helper] in E. destruct (e_no_defer e) in E; inversion E; subst; reflexivity. }
  rewrite T in Q. rewrite <- Q. exact E.
Qed.
Lemma far_bias n (e : Ell F) (g : Arr F) (b0 b1 : f64) lam Lam X (e' : Ell F) st :
  tame n e lam Lam X -> grad_ok n g -> slack n lam Lam X (fkap e) <= 1 / 10 -> moderate_or_zero b0 -> moderate b1 ->
  ell_update_bias parallel_cut e (g, mkParallel (N := F) b0 (Some b1)) = Ok (e', st) ->
  moderate (e_tsq e') -> val b0 <= val b1 -> 2 * val b0 <= sqrt (val (e_tsq e' : f64)) -> Bleb (e_tsq e') (fmul b1 b1) = true ->
  st = Success /\ (step_sound n e g (val b0) lam Lam X e' /\ step_shrinks n e lam Lam X e').
Proof.
  intros He Hg Hs H0 H1 E Ht H01 Hq Hout. apply (bias_both lm n e g b0 lam Lam X e' st He Hg Hs H0); auto.
  apply (update_swap _ _ _ _ _ _ E). rewrite (t_calc _ _ _ _ _ He). apply (pb_out n (e_tsq e') b0 b1 (proj1 H0) (proj1 H1) H01 (rng_pos _ _ _ (proj2 H1)) Hout).
Qed.
Lemma far_q n (e : Ell F) (g : Arr F) (b0 b1 : f64) lam Lam X (e' : Ell F) :
  tame n e lam Lam X -> grad_ok n g -> slack n lam Lam X (fkap e) <= 1 / 10 -> moderate_or_zero b0 -> moderate b1 ->
  ell_update_q parallel_cut e (g, mkParallel (N := F) b0 (Some b1)) = Ok (e', Success) ->
  moderate (e_tsq e') -> val b0 <= val b1 -> 2 * val b0 <= sqrt (val (e_tsq e' : f64)) -> Bleb (e_tsq e') (fmul b1 b1) = true ->
  step_sound n e g (val b0) lam Lam X e' /\ step_shrinks n e lam Lam X e'.
Proof.
  intros He Hg Hs H0 H1 E Ht H01 Hq Hout. apply (q_both lm n e g b0 lam Lam X e' He Hg Hs H0); auto.
  apply (update_swap _ _ _ _ _ _ E). rewrite (t_calc _ _ _ _ _ He). change (calc_parallel_q (N := F) (calc_new n) b0 b1 (e_tsq e') = calc_bias_cut_q (N := F) (calc_new n) b0 (e_tsq e')). unfold calc_parallel_q.
  change (nltb (n := F) b1 b0) with (Bltb b1 b0). rewrite fltb_no by (try apply H0; try apply H1; lra).
  change (nleb (n := F) (e_tsq e') (nmul (n := F) b1 b1)) with (Bleb (e_tsq e') (fmul b1 b1)). rewrite Hout.
  assert (G : nltb (n := F) (n0 (N := F)) b1 = true). { change (Bltb (n0 (N := F) : f64) b1 = true). rewrite fltb_fin by (try apply n0_fin; apply H1). rewrite (n0_val lm). apply Rlt_bool_true. exact (rng_pos _ _ _ (proj2 H1)). }
  rewrite G. reflexivity.
Qed.
Lemma far_central n (e : Ell F) (g : Arr F) (b0 b1 : f64) lam Lam X (e' : Ell F) st :
  tame n e lam Lam X -> grad_ok n g -> slack n lam Lam X (fkap e) <= 1 / 10 -> moderate b1 ->
  ell_update_central parallel_cut e (g, mkParallel (N := F) b0 (Some b1)) = Ok (e', st) ->
  moderate (e_tsq e') -> Bleb (e_tsq e') (fmul b1 b1) = true ->
  st = Success /\ (step_sound n e g 0 lam Lam X e' /\ step_shrinks n e lam Lam X e').
Proof.
  intros He Hg Hs H1 E Ht Hout. apply (central_both lm n e g (mkSingle (N := F) b0) lam Lam X e' st He Hg Hs); auto.
  apply (update_swap _ _ _ _ _ _ E). rewrite (t_calc _ _ _ _ _ He). change (calc_parallel_central_cut (N := F) (calc_new n) b1 (e_tsq e') = calc_central_cut (N := F) (calc_new n) (e_tsq e')). unfold calc_parallel_central_cut.
  change (nltb (n := F) b1 (n0 (N := F))) with (Bltb b1 (n0 (N := F) : f64)). rewrite fltb_no by (try apply n0_fin; try apply H1; rewrite (n0_val lm); left; exact (rng_pos _ _ _ (proj2 H1))).
  change (nleb (n := F) (e_tsq e') (nmul (n := F) b1 b1)) with (Bleb (e_tsq e') (fmul b1 b1)). rewrite Hout. reflexivity.
Qed.
Lemma one_bias n (e : Ell F) (g : Arr F) (b0 : f64) lam Lam X (e' : Ell F) st :
  tame n e lam Lam X -> grad_ok n g -> slack n lam Lam X (fkap e) <= 1 / 10 -> moderate_or_zero b0 ->
  ell_update_bias parallel_cut e (g, mkParallel (N := F) b0 None) = Ok (e', st) -> moderate (e_tsq e') -> 2 * val b0 <= sqrt (val (e_tsq e' : f64)) ->
  st = Success /\ (step_sound n e g (val b0) lam Lam X e' /\ step_shrinks n e lam Lam X e').
Proof. exact (bias_both lm n e g b0 lam Lam X e' st). Qed.
Lemma one_q n (e : Ell F) (g : Arr F) (b0 : f64) lam Lam X (e' : Ell F) :
  tame n e lam Lam X -> grad_ok n g -> slack n lam Lam X (fkap e) <= 1 / 10 -> moderate_or_zero b0 ->
  ell_update_q parallel_cut e (g, mkParallel (N := F) b0 None) = Ok (e', Success) -> moderate (e_tsq e') -> 2 * val b0 <= sqrt (val (e_tsq e' : f64)) ->
  step_sound n e g (val b0) lam Lam X e' /\ step_shrinks n e lam Lam X e'.
Proof. exact (q_both lm n e g b0 lam Lam X e'). Qed.
Lemma one_central n (e : Ell F) (g : Arr F) (b0 : f64) lam Lam X (e' : Ell F) st :
  tame n e lam Lam X -> grad_ok n g -> slack n lam Lam X (fkap e) <= 1 / 10 ->
  ell_update_central parallel_cut e (g, mkParallel (N := F) b0 None) = Ok (e', st) -> moderate (e_tsq e') ->
  st = Success /\ (step_sound n e g 0 lam Lam X e' /\ step_shrinks n e lam Lam X e').
Proof. exact (central_both lm n e g (mkSingle (N := F) b0) lam Lam X e' st). Qed.
Lemma single_bias n (e : Ell F) (g : Arr F) (b0 : f64) (second : option f64) lam Lam X (e' : Ell F) st :
  tame n e lam Lam X -> grad_ok n g -> slack n lam Lam X (fkap e) <= 1 / 10 -> moderate_or_zero b0 ->
  ell_update_bias parallel_cut e (g, mkParallel (N := F) b0 second) = Ok (e', st) -> moderate (e_tsq e') -> 2 * val b0 <= sqrt (val (e_tsq e' : f64)) ->
  (forall b1, second = Some b1 -> moderate b1 /\ val b0 <= val b1 /\ Bleb (e_tsq e') (fmul b1 b1) = true) ->
  st = Success /\ (step_sound n e g (val b0) lam Lam X e' /\ step_shrinks n e lam Lam X e').
Proof. intros He Hg Hs H0 E Ht Hq H. destruct second as [b1|]; [destruct (H b1 eq_refl) as (A & B & C); exact (far_bias n e g b0 b1 lam Lam X e' st He Hg Hs H0 A E Ht B Hq C)|exact (one_bias n e g b0 lam Lam X e' st He Hg Hs H0 E Ht Hq)]. Qed.
Lemma single_q n (e : Ell F) (g : Arr F) (b0 : f64) (second : option f64) lam Lam X (e' : Ell F) :
  tame n e lam Lam X -> grad_ok n g -> slack n lam Lam X (fkap e) <= 1 / 10 -> moderate_or_zero b0 ->
  ell_update_q parallel_cut e (g, mkParallel (N := F) b0 second) = Ok (e', Success) -> moderate (e_tsq e') -> 2 * val b0 <= sqrt (val (e_tsq e' : f64)) ->
  (forall b1, second = Some b1 -> moderate b1 /\ val b0 <= val b1 /\ Bleb (e_tsq e') (fmul b1 b1) = true) ->
  step_sound n e g (val b0) lam Lam X e' /\ step_shrinks n e lam Lam X e'.
Proof. intros He Hg Hs H0 E Ht Hq H. destruct second as [b1|]; [destruct (H b1 eq_refl) as (A & B & C); exact (far_q n e g b0 b1 lam Lam X e' He Hg Hs H0 A E Ht B Hq C)|exact (one_q n e g b0 lam Lam X e' He Hg Hs H0 E Ht Hq)]. Qed.
Lemma single_central n (e : Ell F) (g : Arr F) (b0 : f64) (second : option f64) lam Lam X (e' : Ell F) st :
  tame n e lam Lam X -> grad_ok n g -> slack n lam Lam X (fkap e) <= 1 / 10 ->
  ell_update_central parallel_cut e (g, mkParallel (N := F) b0 second) = Ok (e', st) -> moderate (e_tsq e') ->
  (forall b1, second = Some b1 -> moderate b1 /\ Bleb (e_tsq e') (fmul b1 b1) = true) ->
  st = Success /\ (step_sound n e g 0 lam Lam X e' /\ step_shrinks n e lam Lam X e').
Proof. intros He Hg Hs E Ht H. destruct second as [b1|]; [destruct (H b1 eq_refl) as (A & C); exact (far_central n e g b0 b1 lam Lam X e' st He Hg Hs A E Ht C)|exact (one_central n e g b0 lam Lam X e' st He Hg Hs E Ht)]. Qed.
End S.
