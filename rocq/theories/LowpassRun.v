(** Whole runs of the lowpass designs: from a real oracle with the same answers,
    the bounds of real runs carry over. *)
From Coq Require Import Reals List Arith Lia Lra Psatz Bool ZArith.
From Flocq Require Import Core.Raux.
From Verif Require Import Num Res Arr CuttingPlane EllCalc Ell EllRun ArrLemmas EllLemmas Spec RealLin EllSpec EllReal EllCuts EllMore
  Det RunSpec RunProofs RunTotal LmiSpec ExtSpec ExtDefined ExtRunSpec ExtRun ExtTest Lowpass LowpassSpec LowpassProofs LowpassReal LowpassMore LowpassRunSpec.
Import ListNotations.
Local Open Scope R_scope.

Lemma is_vec_dec n (x : Arr RNum) : is_vec n x \/ ~ is_vec n x.
Proof. unfold is_vec. destruct (Nat.eq_dec (length (adata x)) n), (Nat.eq_dec (acols x) 0); tauto. Qed.

(** ** The gradients *)
Lemma fin_arr_inj (a b : Arr RNum) : fin_arr a = fin_arr b -> a = b.
Proof.
  destruct a as [d r c], b as [d' r' c']. unfold fin_arr. cbn. intros E. injection E as Ed -> ->. f_equal.
  revert d' Ed. induction d as [|u d IH]; intros [|v d'] E; try discriminate; [reflexivity|]. cbn in E. injection E as -> E. f_equal. auto.
Qed.
Lemma neg_cut_row f k (r : Arr RNum) : (k < f_m f)%nat -> (forall j, (j < f_n f)%nat -> xvec r j = f_A f k j) -> cut_row f (xvec (neg_row r)).
Proof. intros Hk Hr. left. exists k, (-1). split; [exact Hk|]. split; [auto|]. intros j Hj. rewrite xvec_neg, Hr by exact Hj. ring. Qed.
Lemma pos_cut_row f k (r : Arr RNum) : (k < f_m f)%nat -> (forall j, (j < f_n f)%nat -> xvec r j = f_A f k j) -> cut_row f (xvec r).
Proof. intros Hk Hr. left. exists k, 1. split; [exact Hk|]. split; [auto|]. intros j Hj. rewrite Hr by exact Hj. ring. Qed.
Lemma v_cut_row (o : Lowpass ENum) f (x g0 : Arr RNum) c : lw_about o f -> v_cut (f_n f) o (fin_arr x) (fin_arr g0) c -> cut_row f (xvec g0).
Proof.
  intros Ha. pose proof Ha as (Ho & _ & P & Q & L1 & L2). unfold v_cut. rewrite (spec_len o f Ha), P, Q, !Nat2Z.id. cbv zeta.
  pose proof Ho as (Hn & _ & _ & O1 & O2 & _). rewrite (spec_len o f Ha), P, Q in *.
  intros [(k & Hk & _ & G & _)|[(k & Hk & _ & G & _)|[(k & Hk & _ & G & _)|[(k & Hk & _ & G & _)|[(k & Hk & _ & G & _)|(_ & V & G & _)]]]]];
    [destruct (row_fin o f Ha k ltac:(lia)) as (r & Er & Vr & Hr); rewrite Er in G; rewrite ?neg_fin in G; apply fin_arr_inj in G; subst g0;
     first [apply (pos_cut_row f k); [lia|exact Hr]|apply (neg_cut_row f k); [lia|exact Hr]] ..|].
  right. unfold fin_arr in G. cbn [adata] in G. destruct g0 as [d rr cc]. cbn [adata] in G. destruct d as [|u d]; [discriminate|]. cbn [map] in G. injection G as Eu Ed.
  unfold xvec. cbn [adata nth]. split; [unfold Q2R in Eu; cbn in Eu; exact Eu|]. intros [|j] Hj; [lia|]. cbn [nth].
  assert (forall i, nth i (map Fin d) (Fin 0) = Fin 0) by (intros i; rewrite Ed; apply nth_repeat).
  specialize (H j). rewrite (map_nth Fin d 0 j) in H. now injection H.
Qed.
Lemma cut_row_norm f g : (0 < f_n f)%nat -> unit_column f -> cut_row f g -> 1 * 1 <= dot (f_n f) g g.
Proof.
  intros Hn Hu Hc. assert (H0 : g 0%nat * g 0%nat = 1).
  { destruct Hc as [(k & s & Hk & Hs & Hg)|[-> _]]; [|lra]. rewrite Hg, Hu by auto. destruct Hs as [-> | ->]; lra. }
  replace (1 * 1) with (g 0%nat * g 0%nat) by lra. unfold dot. apply (Rsum_pos_one (f_n f) 0 (fun i => g i * g i)); [exact Hn|intros; nra].
Qed.

(** ** The real oracle with the same answers *)
Definition real_of (v : ext) : R := match v with Fin r => r | _ => 0 end.
Definition real_arr (a : Arr ENum) : Arr RNum := mkArr (N := RNum) (map real_of (adata a)) (arows a) (acols a).
Definition real_par (c : ParallelCut ENum) : ParallelCut RNum := mkParallel (N := RNum) (real_of (pc_beta0 c)) (option_map real_of (pc_beta1 c)).
Lemma real_fin (a : Arr RNum) : real_arr (fin_arr a) = a.
Proof. destruct a as [d r c]. unfold real_arr, fin_arr. cbn. f_equal. rewrite map_map. apply map_id. Qed.
Definition low_optim : OracleOptim RNum (Arr RNum) (ParallelCut RNum) (Lowpass ENum) := fun o x gamma =>
  '(o', sp', ((g, c), sh)) <- lowpass_assess (N := ENum) o (fin_arr x) (Fin gamma) ;; Ok (o', real_of sp', ((real_arr g, real_par c), sh)).
Definition low_feas : OracleFeas RNum (Arr RNum) (ParallelCut RNum) (Lowpass ENum) :=
  {| of_assess := fun o x => '(o', r) <- lowpass_feas (N := ENum) o (fin_arr x) ;; Ok (o', option_map (fun gc => (real_arr (fst gc), real_par (snd gc))) r);
     of_update := fun o _ => o |}.

Section Runs.
Variable f : filter.
Hypotheses (Hq : (f_q f < f_m f)%nat).

Lemma low_optim_ok o (x : Arr RNum) (gamma : R) : lw_about o f -> vecn (f_n f) x ->
  exists o' gamma' g b0 b1 sh, lowpass_assess (N := ENum) o (fin_arr x) (Fin gamma) = Ok (o', Fin gamma', ((fin_arr g, fin_par b0 b1), sh)) /\
    low_optim o x gamma = Ok (o', gamma', ((g, mkParallel (N := RNum) b0 b1), sh)) /\
    lw_about o' f /\ is_vec (f_n f) g /\ (sh = true <-> meets f gamma (xvec x)) /\
    (sh = false -> gamma' = gamma /\ 0 < b0) /\
    (sh = true -> stop_level f (xvec x) gamma' /\ gamma' <= gamma /\ b0 = 0 /\ b1 = Some gamma') /\
    keeps (f_n f) (xvec g) (xvec x) b0 b1 (meets f gamma').
Proof.
  intros Ha Hx. destruct (lowpass_assess_E o f gamma x Ha Hx Hq) as (o' & sp' & g & b0 & b1 & sh & E & H).
  exists o', sp', g, b0, b1, sh. split; [exact E|]. split; [|exact H]. unfold low_optim. rewrite E. cbn [bind real_of]. rewrite real_fin.
  unfold real_par, fin_par. cbn. destruct b1; reflexivity.
Qed.
Lemma low_optim_row o (x : Arr RNum) (gamma : R) o' sp' g c sh : lw_about o f -> vecn (f_n f) x ->
  lowpass_assess (N := ENum) o (fin_arr x) (Fin gamma) = Ok (o', sp', ((fin_arr g, c), sh)) -> cut_row f (xvec g).
Proof.
  intros Ha Hx. unfold lowpass_assess. fold (set_level (N := ENum) o (Fin gamma)). set (os := set_level (N := ENum) o (Fin gamma)).
  assert (Has : lw_about os f) by exact Ha.
  destruct (lowpass_feas_ok (f_n f) os (fin_arr x) (proj1 Has) (fin_vec _ _ Hx) (best_of f x) (best_tracks os f x Has)) as (o2 & r & E & O & Sm & Sp & C).
  rewrite E. cbn [bind]. assert (Ao : lw_about o2 f) by now apply lw_about_same with os. destruct r as [[g0 c0]|].
  - intros K. injection K as <- <- -> <- <-. now apply (v_cut_row os f x g c0).
  - destruct C as (M & _ & l & L & T). pose proof Has as (_ & _ & _ & Q & _). rewrite (spec_len os f Has), Q in L.
    destruct T as [(-> & _)|(k & T1 & T2 & T3 & T4)]. { exfalso. apply (proj2 (L (Z.of_nat (f_q f)))). lia. }
    injection T3 as F K. rewrite K. unfold rdz. rewrite (proj2 (Z.ltb_ge _ 0)) by lia.
    rewrite (rd_nth _ _ (a_new 0)) by (rewrite (spec_len o2 f Ao); lia). cbn [bind].
    destruct (row_fin o2 f Ao (Z.to_nat k) ltac:(lia)) as (r & Er & Vr & Hr). rewrite Er. intros K2.
    assert (Eg2 : r = g) by (apply fin_arr_inj; congruence). subst r. apply (pos_cut_row f (Z.to_nat k)); [lia|exact Hr].
Qed.
Definition at_level (y : vec) (gamma : R) : Prop := meets f gamma y.
Lemma meets_mono s t y : s <= t -> meets f s y -> meets f t y.
Proof. intros Hs (M1 & M2 & M3 & M4). split; [exact M1|]. split; [exact M2|]. split; [|exact M4]. intros k Hk. specialize (M3 k Hk). lra. Qed.
Lemma low_optim_cuts : optim_cuts parallel_sat parallel_deep (f_n f) (fun o _ => lw_about o f) at_level low_optim.
Proof.
  intros o x gamma o' gamma' g c sh Ha Hx E. destruct (low_optim_ok o x gamma Ha Hx) as (o2 & ga2 & g2 & b0 & b1 & sh2 & _ & E2 & A & V & S1 & S2 & S3 & K).
  rewrite E in E2. injection E2 as -> -> -> -> ->. split; [exact A|]. split; [exact V|].
  assert (Hd : 0 <= b0) by (destruct sh2; [destruct (S3 eq_refl) as (_ & _ & -> & _); lra|destruct (S2 eq_refl); lra]).
  split; [exact Hd|]. split; [intros H; apply S2, H|]. split.
  - intros y Hy. destruct sh2; [destruct (S3 eq_refl) as (_ & L & _); exact (meets_mono _ _ y L Hy)|destruct (S2 eq_refl) as [<- _]; exact Hy].
  - intros y Hy. destruct (K y Hy) as [K1 K2]. unfold parallel_sat, along. cbn [pc_beta0 pc_beta1]. split; [|exact K2].
    unfold offset. change coords with xvec. destruct sh2; [|exact K1]. destruct (S3 eq_refl) as (_ & _ & E0 & _). rewrite E0 in K1. exact K1.
Qed.
Lemma low_optim_total : unit_column f -> optim_total (f_n f) (fun o _ => lw_about o f) 1 low_optim.
Proof.
  intros Hu o x gamma Ha Hx. destruct (low_optim_ok o x gamma Ha Hx) as (o2 & ga2 & g2 & b0 & b1 & sh2 & E1 & E2 & A & V & _).
  exists o2, ga2, g2, (mkParallel (N := RNum) b0 b1), sh2. split; [exact E2|]. pose proof (proj1 (proj1 Ha)) as Hn.
  change coords with xvec. apply cut_row_norm; [exact Hn|exact Hu|exact (low_optim_row _ _ _ _ _ _ _ _ Ha Hx E1)].
Qed.
Lemma low_optim_sim : optim_sim fin_parallel (f_n f) eq same_level (fun o _ => lw_about o f) (lowpass_assess (N := ENum)) low_optim.
Proof.
  intros oE o x gE gamma o' gamma' g c sh -> -> Ha Hx E. destruct (low_optim_ok o x gamma Ha Hx) as (o2 & ga2 & g2 & b0 & b1 & sh2 & E1 & E2 & A & V & _).
  rewrite E in E2. injection E2 as -> -> -> -> ->. exists o2, (Fin ga2). split; [exact E1|]. split; reflexivity.
Qed.
Lemma low_optim_deep : optim_deep (f_n f) parallel_deep (fun o _ => lw_about o f) low_optim.
Proof. intros o x gamma o' gamma' g c sh Ha Hx E. destruct (low_optim_cuts o x gamma o' gamma' g c sh Ha Hx E) as (A & V & D & _). auto. Qed.
Lemma low_optim_answers : optim_answers (N := RNum) (f_n f) (fun o _ => lw_about o f) low_optim.
Proof.
  intros o x gamma Ha Hx. destruct (low_optim_ok o x gamma Ha Hx) as (o2 & ga2 & g2 & b0 & b1 & sh2 & E1 & E2 & A & V & _). eauto 10.
Qed.

(** a run, for every real start: it does not panic, and the extended run does the same *)
Lemma low_run (opt : Options RNum) o (e : Ell RNum) (gamma : R) : (2 <= f_n f)%nat -> lw_about o f -> valid (f_n f) e -> vecn (f_n f) (e_xc e) -> 0 < tolerance opt ->
  exists o' e' (gamma' : R) ans k eE, cutting_plane_optim low_optim (ell_space (N := RNum) parallel) opt o e gamma = Ok (o', e', gamma', (ans, k)) /\
    cutting_plane_optim (lowpass_assess (N := ENum)) (ell_space (N := ENum) parallel_cut) (fin_options opt) o (fin_ell e) (Fin gamma) = Ok (o', eE, Fin gamma', (option_map fin_arr ans, k)) /\
    lw_about o' f /\ (e_tsq e' <> 0 \/ k = max_iters opt -> eE = fin_ell e').
Proof.
  intros Hn Ha Hv Hx Ht.
  destruct (optim_runs (N := RNum) parallel (f_n f) (fun o _ => lw_about o f) low_optim opt o e gamma low_optim_answers Ha) as (o' & e' & ga' & ans & k & E & A & _).
  { split; [now apply valid_wf|exact Hx]. }
  destruct (optim_parallel_follows _ _ (f_n f) eq (fun o _ => lw_about o f) (lowpass_assess (N := ENum)) low_optim opt o o e gamma o' e' ga' ans k Hn low_optim_sim low_optim_deep eq_refl Ha Hv Hx Ht E)
    as (oE & eE & EE & <- & H). exists oE, e', ga', ans, k, eE. auto.
Qed.

Lemma low_converges (opt : Options RNum) o (e : Ell RNum) (gamma s : R) z r : (2 <= f_n f)%nat -> unit_column f -> lw_about o f -> proper (f_n f) e -> vecn (f_n f) (e_xc e) ->
  0 < r -> s <= gamma -> (forall y, ball (f_n f) z r y -> meets f s y /\ pts (f_n f) e y) ->
  0 < tolerance opt <= r * r -> (INR (f_n f) + 1) * ln (vol2 (f_n f) e / (r * r) ^ f_n f) < INR (max_iters opt) ->
  exists o' eE (level : R) (x : Arr RNum) k,
    cutting_plane_optim (lowpass_assess (N := ENum)) (ell_space (N := ENum) parallel_cut) (fin_options opt) o (fin_ell e) (Fin gamma) = Ok (o', eE, Fin level, (Some (fin_arr x), k)) /\
    is_vec (f_n f) x /\ stop_level f (xvec x) level /\ meets f level (xvec x) /\ level < s.
Proof.
  intros Hn Hu Ha Hp Hx Hr Hs Hb [Ht Ht2] Hm.
  destruct (optim_bound parallel parallel_sat parallel_deep (f_n f) (fun o _ => lw_about o f) Hn z r Hr parallel_shrink 1 at_level low_optim opt o e gamma low_optim_cuts (low_optim_total Hu) ltac:(lra) Ha Hp Hx)
    as (o1 & e1 & ga1 & x1 & k1 & E1 & H1 & _).
  { intros y Hy. destruct (Hb y Hy) as [M P]. split; [exact (meets_mono s gamma y Hs M)|exact P]. }
  { replace (r * 1 * (r * 1)) with (r * r) by ring. exact Ht2. }
  { exact Hm. }
  destruct (low_run opt o e gamma Hn Ha (proj1 Hp) Hx Ht) as (o' & e' & level & ans & k & eE & E & EE & A & _).
  assert (Eans : ans = Some x1 /\ level = ga1). { rewrite E in E1. injection E1 as -> -> -> -> ->. auto. } destruct Eans as [-> ->].
  exists o', eE, ga1, x1, k. split; [exact EE|]. cbn [option_map] in EE.
  destruct (lowpass_best_E _ _ o f _ _ _ _ _ x1 _ Ha Hq EE) as (_ & V & l & El & L & M). injection El as <-.
  split; [exact V|]. split; [exact L|]. split; [exact M|]. destruct (Rlt_le_dec ga1 s) as [|Hge]; [assumption|exfalso]. apply H1. intros y Hy. exact (meets_mono s ga1 y Hge (proj1 (Hb y Hy))).
Qed.

(** nothing is lost *)
Lemma low_certificate (opt : Options RNum) o (e : Ell RNum) (gamma : R) : (2 <= f_n f)%nat -> lw_about o f -> valid (f_n f) e -> vecn (f_n f) (e_xc e) -> 0 < tolerance opt ->
  exists o' eE (e' : Ell RNum) (level : R) ans k,
    cutting_plane_optim (lowpass_assess (N := ENum)) (ell_space (N := ENum) parallel_cut) (fin_options opt) o (fin_ell e) (Fin gamma) = Ok (o', eE, Fin level, (option_map fin_arr ans, k)) /\
    match ans with None => level = gamma | Some x => is_vec (f_n f) x /\ stop_level f (xvec x) level /\ meets f level (xvec x) end /\
    (e_tsq e' <> 0 -> eE = fin_ell e' /\ forall y, meets f level y -> pts (f_n f) e y -> pts (f_n f) e' y) /\
    ((k < max_iters opt)%nat -> tolerance opt <= e_tsq e' -> forall y, pts (f_n f) e y -> ~ meets f level y).
Proof.
  intros Hn Ha Hv Hx Ht. destruct (low_run opt o e gamma Hn Ha Hv Hx Ht) as (o' & e' & level & ans & k & eE & E & EE & A & H).
  destruct (optim_keeps parallel parallel_sat parallel_deep parallel_step (f_n f) (fun o _ => lw_about o f) Hn at_level low_optim opt o e gamma o' e' level ans k low_optim_cuts Ha Hv Hx Ht E) as [K1 K2].
  exists o', eE, e', level, ans, k. split; [exact EE|]. split.
  - destruct ans as [x|]; cbn [option_map] in EE.
    + destruct (lowpass_best_E _ _ o f _ _ _ _ _ x _ Ha Hq EE) as (_ & V & l & El & L & M). injection El as <-. auto.
    + destruct (lowpass_best_any (N := ENum) _ _ (f_n f) o _ _ _ _ _ _ _ (proj1 Ha) EE) as (_ & _ & El). now injection El.
  - split; [|exact K2]. intros Hne. split; [auto|]. intros y. apply K1. auto.
Qed.
End Runs.

(** ** feasibility *)
Section Feas.
Variables (f : filter) (sp : R).
Definition feas_inv (o : Lowpass ENum) : Prop := lw_about o f /\ lw_sp o = Fin sp.
Lemma low_feas_ok o (x : Arr RNum) : feas_inv o -> vecn (f_n f) x ->
  exists o' r, lowpass_feas (N := ENum) o (fin_arr x) = Ok (o', option_map (fun gc : Arr RNum * ParallelCut RNum => (fin_arr (fst gc), fin_parallel (snd gc))) r) /\
    of_assess low_feas o x = Ok (o', r) /\ feas_inv o' /\ (r = None <-> meets f sp (xvec x)) /\
    (forall g c, r = Some (g, c) -> is_vec (f_n f) g /\ 0 < pc_beta0 c /\ cut_row f (xvec g) /\ keeps (f_n f) (xvec g) (xvec x) (pc_beta0 c) (pc_beta1 c) (meets f sp)).
Proof.
  intros [Ha Hs] Hx. destruct (lowpass_feas_E o f sp x Ha Hs Hx) as (o' & r & E & A & S & M & C).
  destruct (lowpass_exhaustive (f_n f) o (fin_arr x) (proj1 Ha) (fin_vec _ _ Hx)) as (o2 & r2 & E2 & _ & _ & _ & _ & D).
  rewrite E in E2. injection E2 as <- <-. destruct r as [[g c]|].
  - destruct (C g c eq_refl) as (g0 & b0 & b1 & -> & V & -> & B & K). exists o', (Some (g0, mkParallel (N := RNum) b0 b1)). split; [exact E|].
    split. { unfold low_feas. cbn [of_assess]. rewrite E. cbn [bind option_map fst snd]. rewrite real_fin. unfold real_par, fin_par. cbn. destruct b1; reflexivity. }
    split; [split; assumption|]. split; [split; [discriminate|intros H; apply M in H; discriminate]|]. intros g c H. injection H as <- <-.
    split; [exact V|]. split; [exact B|]. split; [exact (v_cut_row o f x g0 _ Ha (D _ _ eq_refl))|exact K].
  - exists o', None. split; [exact E|]. split; [unfold low_feas; cbn [of_assess]; rewrite E; reflexivity|]. split; [split; assumption|]. split; [tauto|discriminate].
Qed.
Lemma low_feas_cuts : feas_cuts parallel_sat parallel_deep (f_n f) feas_inv (meets f sp) low_feas.
Proof.
  intros o x o' ans Ho Hx E. destruct (low_feas_ok o x Ho Hx) as (o2 & r & _ & E2 & Ho' & _ & C). rewrite E in E2. injection E2 as -> ->. split; [exact Ho'|].
  destruct r as [[g c]|]; [|exact I]. destruct (C g c eq_refl) as (V & B & _ & K). split; [exact V|]. split; [unfold parallel_deep; lra|]. exact K.
Qed.
Lemma low_feas_total : unit_column f -> feas_total (f_n f) feas_inv 1 low_feas.
Proof.
  intros Hu o x Ho Hx. destruct (low_feas_ok o x Ho Hx) as (o2 & r & _ & E2 & Ho' & _ & C). exists o2, r. split; [exact E2|].
  destruct r as [[g c]|]; [|exact I]. destruct (C g c eq_refl) as (_ & _ & R & _). apply cut_row_norm; [apply (proj1 (proj1 (proj1 Ho)))|exact Hu|exact R].
Qed.
Lemma low_feas_sim : feas_sim fin_parallel (f_n f) eq feas_inv (lowpass_oracle (N := ENum)) low_feas.
Proof.
  intros oE o x o' ans -> Ho Hx E. destruct (low_feas_ok o x Ho Hx) as (o2 & r & E1 & E2 & _). rewrite E in E2. injection E2 as -> ->. exists o2. split; [exact E1|reflexivity].
Qed.
Lemma low_feas_deep : feas_deep (f_n f) parallel_deep feas_inv low_feas.
Proof.
  intros o x o' ans Ho Hx E. destruct (low_feas_cuts o x o' ans Ho Hx E) as [H1 H2]. split; [exact H1|]. intros g c ->. tauto.
Qed.
Lemma low_feas_answers : feas_answers (N := RNum) (f_n f) feas_inv low_feas.
Proof.
  intros o x Ho Hx. destruct (low_feas_ok o x Ho Hx) as (o2 & r & _ & E2 & Ho' & _ & C). exists o2, r. split; [exact E2|]. split; [exact Ho'|].
  destruct r as [[g c]|]; [|exact I]. apply (C g c eq_refl).
Qed.
Lemma feas_run (opt : Options RNum) o (e : Ell RNum) : (2 <= f_n f)%nat -> feas_inv o -> valid (f_n f) e -> vecn (f_n f) (e_xc e) -> 0 < tolerance opt ->
  exists o' e' ans k eE, cutting_plane_feas low_feas (ell_space (N := RNum) parallel) opt o e = Ok (o', e', (ans, k)) /\
    cutting_plane_feas (lowpass_oracle (N := ENum)) (ell_space (N := ENum) parallel_cut) (fin_options opt) o (fin_ell e) = Ok (o', eE, (option_map fin_arr ans, k)) /\
    (e_tsq e' <> 0 \/ ans <> None \/ k = max_iters opt -> eE = fin_ell e').
Proof.
  intros Hn Ha Hv Hx Ht.
  destruct (feas_runs (N := RNum) parallel (f_n f) feas_inv low_feas opt o e low_feas_answers Ha) as (o' & e' & ans & k & E & A & _).
  { split; [now apply valid_wf|exact Hx]. }
  destruct (feas_parallel_follows _ _ (f_n f) eq feas_inv (lowpass_oracle (N := ENum)) low_feas opt o o e o' e' ans k Hn low_feas_sim low_feas_deep eq_refl Ha Hv Hx Ht E)
    as (oE & eE & EE & <- & H). exists oE, e', ans, k, eE. auto.
Qed.
(** What is reported meets the specification; a ball of filters that do is found. *)
Lemma low_feasible (opt : Options RNum) o (e : Ell RNum) z r : (2 <= f_n f)%nat -> unit_column f -> feas_inv o -> proper (f_n f) e -> vecn (f_n f) (e_xc e) ->
  0 < r -> (forall y, ball (f_n f) z r y -> meets f sp y /\ pts (f_n f) e y) ->
  0 < tolerance opt <= r * r -> (INR (f_n f) + 1) * ln (vol2 (f_n f) e / (r * r) ^ f_n f) < INR (max_iters opt) ->
  exists o' eE (x : Arr RNum) k,
    cutting_plane_feas (lowpass_oracle (N := ENum)) (ell_space (N := ENum) parallel_cut) (fin_options opt) o (fin_ell e) = Ok (o', eE, (Some (fin_arr x), k)) /\
    is_vec (f_n f) x /\ meets f sp (xvec x) /\ INR k <= (INR (f_n f) + 1) * ln (vol2 (f_n f) e / (r * r) ^ f_n f).
Proof.
  intros Hn Hu Ha Hp Hx Hr Hb [Ht Ht2] Hm.
  destruct (feas_bound parallel parallel_sat parallel_deep (f_n f) feas_inv Hn z r Hr parallel_shrink 1 (meets f sp) low_feas opt o e low_feas_cuts (low_feas_total Hu) ltac:(lra) Ha Hp Hx Hb)
    as (o1 & e1 & x1 & k1 & E1 & Hk & o3 & Ho3 & E3).
  { replace (r * 1 * (r * 1)) with (r * r) by ring. exact Ht2. }
  { exact Hm. }
  destruct (feas_run opt o e Hn Ha (proj1 Hp) Hx Ht) as (o' & e' & ans & k & eE & E & EE & _).
  rewrite E1 in E. injection E as <- <- <- <-. exists o1, eE, x1, k1. split; [exact EE|].
  assert (V : is_vec (f_n f) x1).
  { destruct (is_vec_dec (f_n f) x1) as [V|V]; [exact V|exfalso]. unfold low_feas in E3. cbn [of_assess] in E3.
    rewrite (lowpass_not_vec (f_n f)) in E3; [discriminate|apply (proj1 Ho3)|]. intros [V1 V2]. apply V. split; [unfold fin_arr in V1; cbn in V1; now rewrite map_length in V1|exact V2]. }
  split; [exact V|]. split; [|exact Hk]. destruct (low_feas_ok o3 x1 Ho3 V) as (o4 & r4 & _ & E4 & _ & M & _). rewrite E3 in E4. injection E4 as <- <-. now apply M.
Qed.
(** an answer "no solution" by a rejected cut is right *)
Lemma low_infeasible (opt : Options RNum) o (e : Ell RNum) : (2 <= f_n f)%nat -> feas_inv o -> valid (f_n f) e -> vecn (f_n f) (e_xc e) -> 0 < tolerance opt ->
  exists o' eE (e' : Ell RNum) ans k,
    cutting_plane_feas (lowpass_oracle (N := ENum)) (ell_space (N := ENum) parallel_cut) (fin_options opt) o (fin_ell e) = Ok (o', eE, (option_map fin_arr ans, k)) /\
    (e_tsq e' <> 0 -> eE = fin_ell e' /\ forall y, meets f sp y -> pts (f_n f) e y -> pts (f_n f) e' y) /\
    (ans = None -> (k < max_iters opt)%nat -> tolerance opt <= e_tsq e' -> forall y, meets f sp y -> ~ pts (f_n f) e y).
Proof.
  intros Hn Ha Hv Hx Ht. destruct (feas_run opt o e Hn Ha Hv Hx Ht) as (o' & e' & ans & k & eE & E & EE & H).
  destruct (feas_keeps parallel parallel_sat parallel_deep parallel_step (f_n f) feas_inv Hn (meets f sp) low_feas opt o e o' e' ans k low_feas_cuts Ha Hv Hx Ht E) as [K1 K2].
  exists o', eE, e', ans, k. split; [exact EE|]. split; [|exact K2]. intros Hne. split; [auto|]. apply K1. auto.
Qed.
End Feas.
