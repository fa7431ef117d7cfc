(** The lowpass oracle in binary64 (C111). *)
From Coq Require Import ZArith Reals Lra Lia Bool Psatz Arith List.
From Flocq Require Import Core IEEE754.BinarySingleNaN Plus_error.
From Verif Require Import Num Res Arr ArrLemmas CuttingPlane EllRun Spec RealLin FloatLemmas FloatErr KernAcc StepAccSpec StepRunSpec ParRunSpec Lowpass LowpassSpec LowpassProofs LowpassMore LowAccSpec.
Import ListNotations.
Local Open Scope R_scope.
#[local] Opaque fadd fsub fmul fdiv fsqrt fofZ.

Lemma sub_near (a b : f64) : fin a = true -> fin b = true -> Rabs (val a) <= bpow radix2 500 -> Rabs (val b) <= bpow radix2 500 ->
  fin (fsub a b) = true /\ Rabs (val (fsub a b) - (val a - val b)) <= uu * (Rabs (val a) + Rabs (val b)) + ee /\ (val b < val a -> 0 < val (fsub a b)).
Proof.
  intros Fa Fb Ba Bb. pose proof (rnd_err (val a - val b)) as E. pose proof (bpow_gt_0 radix2 (-53)) as U. pose proof (bpow_gt_0 radix2 (-1075)) as V.
  assert (A : Rabs (val a - val b) <= Rabs (val a) + Rabs (val b)). { unfold Rminus. eapply Rle_trans; [apply Rabs_triang|]. rewrite Rabs_Ropp. lra. }
  assert (U1 : uu <= 1 / 2). { assert (uu <= bpow radix2 (-1)) by (apply bpow_le; lia). change (bpow radix2 (-1)) with (/ 2) in H. lra. }
  assert (V1 : ee <= bpow radix2 500) by (apply bpow_le; lia).
  assert (K : Rabs (rnd (val a - val b)) <= bpow radix2 503).
  { change 503%Z with (3 + 500)%Z. rewrite bpow_plus. change (bpow radix2 3) with 8. replace (rnd (val a - val b)) with ((rnd (val a - val b) - (val a - val b)) + (val a - val b)) by ring. eapply Rle_trans; [apply Rabs_triang|]. pose proof (Rabs_pos (val a - val b)). nra. }
  destruct (fsub_fin a b Fa Fb) as [E1 F1]. { eapply Rle_lt_trans; [exact K|apply bpow_lt; reflexivity]. }
  split; [exact F1|]. rewrite E1. split; [eapply Rle_trans; [exact E|]; apply Rplus_le_compat_r, Rmult_le_compat_l; [lra|exact A]|].
  intros L. assert (P : 0 <= rnd (val a - val b)) by (rewrite <- rnd_0; apply rnd_le; lra).
  destruct P as [P|P]; [exact P|exfalso]. apply (round_plus_neq_0 radix2 fexp64 (Znearest (fun x => negb (Z.even x))) (val a) (- val b)); [apply generic_format_B2R|apply generic_format_opp, generic_format_B2R|lra|].
  symmetry. exact P.
Qed.
Lemma add_near (a b : f64) : fin a = true -> fin b = true -> Rabs (val a) <= bpow radix2 500 -> Rabs (val b) <= bpow radix2 500 ->
  fin (fadd a b) = true /\ Rabs (val (fadd a b) - (val a + val b)) <= uu * (Rabs (val a) + Rabs (val b)) + ee /\ (0 < val a + val b -> 0 < val (fadd a b)).
Proof.
  intros Fa Fb Ba Bb. pose proof (rnd_err (val a + val b)) as E. pose proof (bpow_gt_0 radix2 (-53)) as U. pose proof (bpow_gt_0 radix2 (-1075)) as V.
  assert (A : Rabs (val a + val b) <= Rabs (val a) + Rabs (val b)) by apply Rabs_triang.
  assert (U1 : uu <= 1 / 2). { assert (uu <= bpow radix2 (-1)) by (apply bpow_le; lia). change (bpow radix2 (-1)) with (/ 2) in H. lra. }
  assert (V1 : ee <= bpow radix2 500) by (apply bpow_le; lia).
  assert (K : Rabs (rnd (val a + val b)) <= bpow radix2 503).
  { change 503%Z with (3 + 500)%Z. rewrite bpow_plus. change (bpow radix2 3) with 8. replace (rnd (val a + val b)) with ((rnd (val a + val b) - (val a + val b)) + (val a + val b)) by ring. eapply Rle_trans; [apply Rabs_triang|]. pose proof (Rabs_pos (val a + val b)). nra. }
  destruct (fadd_fin a b Fa Fb) as [E1 F1]. { eapply Rle_lt_trans; [exact K|apply bpow_lt; reflexivity]. }
  split; [exact F1|]. rewrite E1. split; [eapply Rle_trans; [exact E|]; apply Rplus_le_compat_r, Rmult_le_compat_l; [lra|exact A]|].
  intros L. assert (P : 0 <= rnd (val a + val b)) by (rewrite <- rnd_0; apply rnd_le; lra).
  destruct P as [P|P]; [exact P|exfalso]. apply (round_plus_neq_0 radix2 fexp64 (Znearest (fun x => negb (Z.even x))) (val a) (val b)); [apply generic_format_B2R|apply generic_format_B2R|lra|].
  symmetry. exact P.
Qed.

Lemma Rsum_all k c : Rsum k (fun _ => c) = INR k * c.
Proof. induction k; [cbn; ring|cbn [Rsum]; rewrite IHk, S_INR; ring]. Qed.
Section S.
Variable lm : Libm.
Notation F := (FNum lm).
Variables (n : nat) (o : Lowpass F) (x : Arr F) (W X S : R).
Hypotheses (Ho : lw_ok n o) (Hf : lw_fits n o W S) (Hx : in_box n X x) (Hs : level_ok S (lw_sp o)).
Notation f := (lw_filter n o).
Notation eps := (low_eps n W X S).
Notation v k := (v_resp n o x k : f64).
Notation row k := (nth k (lw_spectrum o) (a_new 0)).
Notation m := (length (lw_spectrum o)).
Lemma S_nonneg : 0 <= S.
Proof. destruct (lf_lp _ _ _ _ Hf) as [_ A]. pose proof (Rabs_pos (B2R (lw_lp o : f64))). lra. Qed.
Lemma n_real : 1 <= INR n <= bpow radix2 26.
Proof.
  destruct Ho as (A & _). split; [change 1 with (INR 1); apply le_INR; lia|]. rewrite INR_IZR_INZ. change (bpow radix2 26) with (IZR (2 ^ 26)). apply IZR_le. exact (lf_dim _ _ _ _ Hf).
Qed.
(** the error of a response alone *)
Definition e1 : R := 3 * (INR n * INR n) * (W * X) * uu + 4 * INR n * ee.
Lemma WX : 0 <= W * X <= bpow radix2 400.
Proof.
  destruct (lf_W _ _ _ _ Hf) as [A B]. destruct Hx as (_ & _ & [C D] & _). split; [now apply Rmult_le_pos|]. change 400%Z with (200 + 200)%Z. rewrite bpow_plus. now apply Rmult_le_compat.
Qed.
Lemma resp_near k : (k < m)%nat -> fin (v k) = true /\ Rabs (val (v k) - response f (fcoords x) k) <= e1 /\ Rabs (val (v k)) <= INR n * (W * X) + e1.
Proof.
  intros Hk. destruct (lf_rows _ _ _ _ Hf k Hk) as [R1 R2]. pose proof (row_vec n o Ho k Hk) as Rv. destruct Hx as (Xv & Xf & XX & Xb). pose proof WX as HW. pose proof n_real as Nr. destruct (lf_W _ _ _ _ Hf) as [W0 _].
  assert (PB : forall i, (i < n)%nat -> Rabs (fcoords (row k) i * fcoords x i) <= W * X). { intros i Hi. rewrite Rabs_mult. apply Rmult_le_compat; try apply Rabs_pos; auto. }
  destruct (dot_finite lm n (row k) x (lf_dim _ _ _ _ Hf) Rv Xv R1 Xf) as (r & E & Fr). { intros i Hi. eapply Rle_trans; [now apply PB|]. eapply Rle_trans; [apply HW|]. apply bpow_le. lia. }
  pose proof (dot_f64 lm n (row k) x r (lf_dim _ _ _ _ Hf) Rv Xv E Fr) as D. rewrite (a_dot_ok n _ _ Rv Xv) in E. injection E as E. change (accum _ _ n) with (v k) in E. rewrite E.
  pose proof (bpow_gt_0 radix2 (-53)) as U. pose proof (bpow_gt_0 radix2 (-1075)) as V.
  assert (SB : Rsum n (fun i => Rabs (fcoords (row k) i * fcoords x i)) <= INR n * (W * X)).
  { eapply Rle_trans; [apply (Rsum_le n _ (fun _ => W * X)); exact PB|]. rewrite (Rsum_all n (W * X)). lra. }
  assert (B1 : Rabs (B2R r - response f (fcoords x) k) <= e1).
  { eapply Rle_trans; [exact D|]. unfold e1. apply Rplus_le_compat_r. replace (3 * (INR n * INR n) * (W * X) * uu) with (3 * INR n * uu * (INR n * (W * X))) by ring. apply Rmult_le_compat_l; [nra|exact SB]. }
  split; [exact Fr|]. split; [exact B1|].
  assert (B2 : Rabs (response f (fcoords x) k) <= INR n * (W * X)).
  { eapply Rle_trans; [|exact SB]. unfold response, dot. cbn [lw_filter f_n f_A]. apply Rabs_Rsum. }
  replace (val r) with ((B2R r - response f (fcoords x) k) + response f (fcoords x) k) by ring. eapply Rle_trans; [apply Rabs_triang|]. lra.
Qed.
Lemma e1_nonneg : 0 <= e1.
Proof. pose proof n_real. pose proof WX. pose proof (bpow_gt_0 radix2 (-53)). pose proof (bpow_gt_0 radix2 (-1075)). unfold e1. apply Rplus_le_le_0_compat; [|nra]. apply Rmult_le_pos; [|lra]. apply Rmult_le_pos; [nra|lra]. Qed.
(** what has to be spared: the error of the response and that of its difference to a bound *)
Lemma eps_big : e1 + uu * (INR n * (W * X) + e1 + S) + ee <= eps.
Proof.
  pose proof n_real as [N1 N2]. pose proof WX as [P1 P2]. pose proof S_nonneg as S0. pose proof (bpow_gt_0 radix2 (-53)) as U. pose proof (bpow_gt_0 radix2 (-1075)) as V.
  unfold low_eps. replace (5 * (INR n * INR n) * W * X) with (5 * ((INR n * INR n) * (W * X))) by ring.
  assert (U1 : uu <= / 8). { assert (uu <= bpow radix2 (-3)) by (apply bpow_le; lia). exact H. }
  assert (E4 : 4 * INR n * ee * 2 + ee <= bpow radix2 (-1000)).
  { assert (A : INR n * ee <= bpow radix2 (-1049)) by (change (-1049)%Z with (26 + -1075)%Z; rewrite bpow_plus; apply Rmult_le_compat_r; lra).
    assert (B : bpow radix2 (-1000) = bpow radix2 4 * bpow radix2 (-1004)) by (rewrite <- bpow_plus; reflexivity). change (bpow radix2 4) with 16 in B.
    assert (C : bpow radix2 (-1049) <= bpow radix2 (-1004)) by (apply bpow_le; lia). assert (D : ee <= bpow radix2 (-1004)) by (apply bpow_le; lia). lra. }
  set (T := (INR n * INR n) * (W * X)) in *. assert (NT : INR n * (W * X) <= T). { unfold T. apply Rmult_le_compat_r; [lra|]. nra. }
  assert (E1 : e1 = 3 * T * uu + 4 * INR n * ee) by (unfold e1, T; ring). assert (T0 : 0 <= T) by (unfold T; nra). assert (W4 : 0 <= 4 * INR n * ee) by nra.
  rewrite E1. set (w := 4 * INR n * ee) in *. clearbody w. clear E1. assert (Q1 : uu * (3 * T * uu) <= / 8 * (3 * T * uu)) by (apply Rmult_le_compat_r; [nra|lra]). assert (Q2 : uu * w <= / 8 * w) by (apply Rmult_le_compat_r; lra).
  assert (Q3 : uu * (INR n * (W * X)) <= uu * T) by (apply Rmult_le_compat_l; lra). set (P := INR n * (W * X)) in *. clearbody P T. assert (Q4 : 0 <= T * uu) by nra. assert (Q5 : 0 <= S * uu) by nra.
  replace (uu * (P + (3 * T * uu + w) + S)) with (uu * P + uu * (3 * T * uu) + uu * w + S * uu) by ring. replace ((5 * T + 2 * S) * uu) with (5 * (T * uu) + 2 * (S * uu)) by ring.
  replace (3 * T * uu) with (3 * (T * uu)) in * by ring. replace (uu * T) with (T * uu) in * by ring. lra.
Qed.
Lemma e1_eps : e1 <= eps.
Proof.
  pose proof eps_big as E. pose proof n_real as N1. pose proof WX as P. pose proof S_nonneg as S0. pose proof e1_nonneg. pose proof (bpow_gt_0 radix2 (-53)) as U. pose proof (bpow_gt_0 radix2 (-1075)) as V.
  assert (0 <= INR n * (W * X)) by nra. assert (0 <= uu * (INR n * (W * X) + e1 + S)) by (apply Rmult_le_pos; lra). lra.
Qed.
Lemma v_small k : (k < m)%nat -> Rabs (val (v k)) <= bpow radix2 500.
Proof.
  intros Hk. destruct (resp_near k Hk) as (_ & _ & A). eapply Rle_trans; [exact A|]. pose proof n_real as [N1 N2]. pose proof WX as [P1 P2]. pose proof (bpow_gt_0 radix2 (-53)) as U.
  assert (U1 : uu <= 1). { assert (uu <= bpow radix2 0) by (apply bpow_le; lia). exact H. } assert (V1 : ee <= 1). { assert (ee <= bpow radix2 0) by (apply bpow_le; lia). exact H. } pose proof (bpow_gt_0 radix2 (-1075)) as V.
  assert (A1 : INR n * (W * X) <= bpow radix2 426) by (change 426%Z with (26 + 400)%Z; rewrite bpow_plus; apply Rmult_le_compat; lra).
  assert (A2 : INR n * (INR n * (W * X)) <= bpow radix2 452) by (change 452%Z with (26 + 426)%Z; rewrite bpow_plus; apply Rmult_le_compat; try lra; nra).
  assert (A3 : bpow radix2 500 = bpow radix2 48 * bpow radix2 452) by (rewrite <- bpow_plus; reflexivity). assert (A4 : 100 <= bpow radix2 48). { assert (bpow radix2 7 <= bpow radix2 48) by (apply bpow_le; lia). change (bpow radix2 7) with 128 in H. lra. }
  assert (A5 : bpow radix2 426 <= bpow radix2 452) by (apply bpow_le; lia). assert (A6 : bpow radix2 26 <= bpow radix2 452) by (apply bpow_le; lia). pose proof (bpow_gt_0 radix2 452) as Z.
  unfold e1. replace (3 * (INR n * INR n) * (W * X) * uu) with (3 * (INR n * (INR n * (W * X))) * uu) by ring. set (T := INR n * (INR n * (W * X))) in *. assert (T0 : 0 <= T) by (unfold T; nra).
  assert (B1 : 3 * T * uu <= 3 * T * 1) by (apply Rmult_le_compat_l; lra). assert (B2 : 4 * INR n * ee <= 4 * INR n * 1) by (apply Rmult_le_compat_l; lra). rewrite A3. assert (B3 : 100 * bpow radix2 452 <= bpow radix2 48 * bpow radix2 452) by (apply Rmult_le_compat_r; lra). lra.
Qed.
Lemma bound_small (b : f64) : Rabs (val b) <= S -> Rabs (val b) <= bpow radix2 500.
Proof. intros H. eapply Rle_trans; [exact H|]. eapply Rle_trans; [exact (lf_S _ _ _ _ Hf)|]. apply bpow_le. lia. Qed.
(** the difference between a response and a bound *)
Lemma diff_near k (b : f64) : (k < m)%nat -> fin b = true -> Rabs (val b) <= S ->
  fin (fsub (v k) b) = true /\ Rabs (val (fsub (v k) b) - (response f (fcoords x) k - val b)) <= eps /\ (val b < val (v k) -> 0 < val (fsub (v k) b)).
Proof.
  intros Hk Fb Bb. destruct (resp_near k Hk) as (R1 & R2 & R3). destruct (sub_near (v k) b R1 Fb (v_small k Hk) (bound_small b Bb)) as (A1 & A2 & A3). split; [exact A1|]. split; [|exact A3].
  pose proof eps_big as E. pose proof (bpow_gt_0 radix2 (-53)) as U.
  replace (val (fsub (v k) b) - (response f (fcoords x) k - val b)) with ((val (fsub (v k) b) - (val (v k) - val b)) + (val (v k) - response f (fcoords x) k)) by ring. eapply Rle_trans; [apply Rabs_triang|].
  assert (uu * (Rabs (val (v k)) + Rabs (val b)) <= uu * (INR n * (W * X) + e1 + S)) by (apply Rmult_le_compat_l; lra). lra.
Qed.
Lemma opp_near k (b : f64) : (k < m)%nat -> fin b = true -> Rabs (val b) <= S ->
  fin (fadd (@Bopp fprec femax (v k)) b) = true /\ Rabs (val (fadd (@Bopp fprec femax (v k)) b) - (val b - response f (fcoords x) k)) <= eps /\ (val (v k) < val b -> 0 < val (fadd (@Bopp fprec femax (v k)) b)).
Proof.
  intros Hk Fb Bb. destruct (resp_near k Hk) as (R1 & R2 & R3). pose proof (@B2R_Bopp fprec femax (v k)) as Eo.
  destruct (add_near (@Bopp fprec femax (v k)) b) as (A1 & A2 & A3); [rewrite is_finite_Bopp; exact R1|exact Fb|rewrite Eo, Rabs_Ropp; exact (v_small k Hk)|exact (bound_small b Bb)|].
  rewrite Eo in A2, A3. rewrite Rabs_Ropp in A2. split; [exact A1|]. split; [|intros; apply A3; lra].
  pose proof eps_big as E. pose proof (bpow_gt_0 radix2 (-53)) as U. set (q := fadd _ _) in *.
  replace (val q - (val b - response f (fcoords x) k)) with ((val q - (- val (v k) + val b)) - (val (v k) - response f (fcoords x) k)) by ring. unfold Rminus at 1. eapply Rle_trans; [apply Rabs_triang|]. rewrite Rabs_Ropp.
  assert (uu * (Rabs (val (v k)) + Rabs (val b)) <= uu * (INR n * (W * X) + e1 + S)) by (apply Rmult_le_compat_l; lra). lra.
Qed.
Lemma lt_true (a b : f64) : fin a = true -> fin b = true -> nltb (n := F) a b = true -> val a < val b.
Proof. intros A B. change (nltb (n := F) a b) with (Bltb a b). rewrite fltb_fin by auto. case Rlt_bool_spec; [auto|discriminate]. Qed.
Lemma lt_false (a b : f64) : fin a = true -> fin b = true -> nltb (n := F) a b = false -> val b <= val a.
Proof. intros A B. change (nltb (n := F) a b) with (Bltb a b). rewrite fltb_fin by auto. case Rlt_bool_spec; [discriminate|auto]. Qed.
Lemma zero_fin : fin (n0 (N := F) : f64) = true.
Proof. exact (n0_fin lm). Qed.
Lemma zero_val : val (n0 (N := F) : f64) = 0.
Proof. exact (n0_val lm). Qed.
Lemma low_meets : v_meets n o x -> meets_by f (- eps) (B2R (lw_sp o : f64)) (fcoords x).
Proof.
  intros (M1 & M2 & M3 & M4). pose proof e1_eps as E. destruct (lf_lp _ _ _ _ Hf) as [L1 L2]. destruct (lf_up _ _ _ _ Hf) as [U1 U2]. destruct Hs as [S1 S2]. pose proof Ho as (Hn & Hm & Hr & H1 & H2 & _).
  assert (V : forall k, (k < m)%nat -> fin (v k) = true /\ val (v k) - eps <= response f (fcoords x) k <= val (v k) + eps).
  { intros k Hk. destruct (resp_near k Hk) as (R1 & R2 & _). split; [exact R1|]. apply Rabs_le_inv in R2. lra. }
  split; [|split; [|split]]; cbn [lw_filter f_p f_q f_m f_lp f_up].
  - intros k Hk. destruct (V k ltac:(lia)) as [V1 V2]. destruct (M1 k Hk) as [A B]. apply lt_false in A; [|auto|auto]. apply lt_false in B; [|auto|auto]. lra.
  - intros k Hk. destruct (V k ltac:(lia)) as [V1 V2]. specialize (M2 k Hk). apply lt_false in M2; [|auto|exact zero_fin]. rewrite zero_val in M2. lra.
  - intros k Hk. destruct (V k ltac:(lia)) as [V1 V2]. destruct (M3 k Hk) as [A B]. apply lt_false in A; [|auto|auto]. apply lt_false in B; [|auto|exact zero_fin]. rewrite zero_val in B. lra.
  - destruct Hx as ([Lx _] & Xf & _). apply lt_false in M4; [|apply vget_fin; [exact Xf|lia]|exact zero_fin]. rewrite zero_val in M4. exact M4.
Qed.
Lemma neg_coord k i : (k < m)%nat -> (i < n)%nat -> fcoords (neg_row (row k)) i = - fcoords (row k) i.
Proof.
  intros Hk Hi. destruct (row_vec n o Ho k Hk) as [Lr _]. unfold fcoords, neg_row, a_from. cbn [adata]. rewrite (nth_indep _ (n0 (N := F)) (nopp (n := F) (n0 (N := F)))) by (rewrite map_length; lia). rewrite map_nth. exact (@B2R_Bopp fprec femax _).
Qed.
Lemma along_row k y : along n (fcoords (row k)) y (fcoords x) = response f y k - response f (fcoords x) k.
Proof. unfold along, response, dot. cbn [lw_filter f_n f_A]. rewrite <- Rsum_minus. apply Rsum_ext. intros i Hi. ring. Qed.
Lemma along_neg k y : (k < m)%nat -> along n (fcoords (neg_row (row k))) y (fcoords x) = response f (fcoords x) k - response f y k.
Proof. intros Hk. unfold along, response, dot. cbn [lw_filter f_n f_A]. rewrite <- Rsum_minus. apply Rsum_ext. intros i Hi. rewrite neg_coord by auto. ring. Qed.
Theorem low_cut g c : v_cut n o x g c -> is_vec n g /\ all_finite g /\ is_finite (pc_beta0 c : f64) = true /\ 0 < B2R (pc_beta0 c : f64) /\ (forall b1 : f64, pc_beta1 c = Some b1 -> is_finite b1 = true) /\
  forall y, meets_by f eps (B2R (lw_sp o : f64)) y -> in_slab n Bias g c y (fcoords x).
Proof.
  intros C. destruct (lf_lp _ _ _ _ Hf) as [L1 L2]. destruct (lf_up _ _ _ _ Hf) as [U1 U2]. destruct Hs as [S1 S2]. pose proof Ho as (Hn & Hm & Hr & H1 & H2 & _). pose proof e1_eps as E1. pose proof e1_nonneg as E0.
  assert (RF : forall k, (k < m)%nat -> is_vec n (row k) /\ all_finite (row k)) by (intros k Hk; split; [now apply row_vec|apply (lf_rows _ _ _ _ Hf k Hk)]).
  assert (NF : forall k, (k < m)%nat -> is_vec n (neg_row (row k)) /\ all_finite (neg_row (row k))).
  { intros k Hk. destruct (RF k Hk) as [[A B] D]. split; [split; cbn [neg_row a_from adata acols]; [rewrite map_length; exact A|reflexivity]|]. unfold all_finite, neg_row, a_from in *. cbn [adata]. rewrite Forall_map. eapply Forall_impl; [|exact D]. intros z Hz. cbn. rewrite is_finite_Bopp. exact Hz. }
  assert (OV : forall k, (k < m)%nat -> fin (@Bopp fprec femax (v k)) = true /\ val (@Bopp fprec femax (v k)) = - val (v k)). { intros k Hk. rewrite is_finite_Bopp, B2R_Bopp. split; [apply (resp_near k Hk)|reflexivity]. }
  destruct C as [(k & Hk & C & -> & ->)|[(k & Hk & C & -> & ->)|[(k & Hk & C & -> & ->)|[(k & Hk & C & -> & ->)|[(k & Hk & C & -> & ->)|(C & G1 & G2 & ->)]]]]]; cbn [pc_beta0 pc_beta1].
  - assert (Km : (k < m)%nat) by lia. destruct (resp_near k Km) as (R1 & R2 & _). apply lt_true in C; [|auto|auto]. destruct (RF k Km) as [G1 G2]. destruct (diff_near k (lw_up o) Km U1 U2) as (A1 & A2 & A3). destruct (diff_near k (lw_lp o) Km L1 L2) as (B1 & B2 & _). apply Rabs_le_inv in A2, B2.
    split; [exact G1|]. split; [exact G2|]. split; [exact A1|]. split; [exact (A3 C)|]. split; [intros b1 Hb; injection Hb as <-; exact B1|]. intros y (Y1 & _). specialize (Y1 k Hk). cbn [lw_filter f_lp f_up] in Y1.
    unfold in_slab, poff. cbn [pc_beta0 pc_beta1]. rewrite along_row. split; [change (nsub (n := F) (v k) (lw_up o)) with (fsub (v k) (lw_up o)); lra|]. intros b1 Hb. injection Hb as <-. change (nsub (n := F) (v k) (lw_lp o)) with (fsub (v k) (lw_lp o)). lra.
  - assert (Km : (k < m)%nat) by lia. destruct (resp_near k Km) as (R1 & R2 & _). apply lt_true in C; [|auto|auto]. destruct (NF k Km) as [G1 G2]. destruct (opp_near k (lw_lp o) Km L1 L2) as (A1 & A2 & A3). destruct (opp_near k (lw_up o) Km U1 U2) as (B1 & B2 & _). apply Rabs_le_inv in A2, B2.
    split; [exact G1|]. split; [exact G2|]. split; [exact A1|]. split; [exact (A3 C)|]. split; [intros b1 Hb; injection Hb as <-; exact B1|]. intros y (Y1 & _). specialize (Y1 k Hk). cbn [lw_filter f_lp f_up] in Y1.
    unfold in_slab, poff. cbn [pc_beta0 pc_beta1]. rewrite along_neg by exact Km. split; [change (nadd (n := F) (nopp (n := F) (v k)) (lw_lp o)) with (fadd (@Bopp fprec femax (v k)) (lw_lp o)); lra|]. intros b1 Hb. injection Hb as <-. change (nadd (n := F) (nopp (n := F) (v k)) (lw_up o)) with (fadd (@Bopp fprec femax (v k)) (lw_up o)). lra.
  - assert (Km : (k < m)%nat) by lia. destruct (resp_near k Km) as (R1 & R2 & _). apply lt_true in C; [|auto|auto]. destruct (RF k Km) as [G1 G2]. destruct (diff_near k (lw_sp o) Km S1 S2) as (A1 & A2 & A3). apply Rabs_le_inv in A2, R2.
    split; [exact G1|]. split; [exact G2|]. split; [exact A1|]. split; [exact (A3 C)|]. split; [intros b1 Hb; injection Hb as <-; exact R1|]. intros y (_ & _ & Y1 & _). specialize (Y1 k Hk).
    unfold in_slab, poff. cbn [pc_beta0 pc_beta1]. rewrite along_row. split; [change (nsub (n := F) (v k) (lw_sp o)) with (fsub (v k) (lw_sp o)); lra|]. intros b1 Hb. injection Hb as <-. lra.
  - assert (Km : (k < m)%nat) by lia. destruct (resp_near k Km) as (R1 & R2 & _). apply lt_true in C; [|auto|exact zero_fin]. rewrite zero_val in C. destruct (NF k Km) as [G1 G2]. destruct (OV k Km) as [O1 O2]. destruct (opp_near k (lw_sp o) Km S1 S2) as (B1 & B2 & _). apply Rabs_le_inv in B2, R2.
    split; [exact G1|]. split; [exact G2|]. split; [exact O1|]. split; [change (0 < val (@Bopp fprec femax (v k))); lra|]. split; [intros b1 Hb; injection Hb as <-; exact B1|]. intros y (_ & _ & Y1 & _). specialize (Y1 k Hk).
    unfold in_slab, poff. cbn [pc_beta0 pc_beta1]. rewrite along_neg by exact Km. split; [change (nopp (n := F) (v k)) with (@Bopp fprec femax (v k)); lra|]. intros b1 Hb. injection Hb as <-. change (nadd (n := F) (nopp (n := F) (v k)) (lw_sp o)) with (fadd (@Bopp fprec femax (v k)) (lw_sp o)). lra.
  - assert (Km : (k < m)%nat) by lia. destruct (resp_near k Km) as (R1 & R2 & _). apply lt_true in C; [|auto|exact zero_fin]. rewrite zero_val in C. destruct (NF k Km) as [G1 G2]. destruct (OV k Km) as [O1 O2]. apply Rabs_le_inv in R2.
    split; [exact G1|]. split; [exact G2|]. split; [exact O1|]. split; [change (0 < val (@Bopp fprec femax (v k))); lra|]. split; [intros b1 Hb; discriminate|]. intros y (_ & Y1 & _). specialize (Y1 k Hk).
    unfold in_slab, poff. cbn [pc_beta0 pc_beta1]. rewrite along_neg by exact Km. split; [change (nopp (n := F) (v k)) with (@Bopp fprec femax (v k)); lra|]. intros b1 Hb. discriminate.
  - destruct Hx as ([Lx _] & Xf & _). assert (F0 : fin (vget x 0 : f64) = true) by (apply vget_fin; [exact Xf|lia]). apply lt_true in C; [|exact F0|exact zero_fin]. rewrite zero_val in C.
    assert (O2 : val (@Bopp fprec femax (vget x 0)) = - val (vget x 0 : f64)) by apply B2R_Bopp.
    split; [exact G1|]. split.
    { unfold all_finite. rewrite G2. constructor; [cbn; rewrite is_finite_Bopp; exact (proj2 (fofZ_small 1 ltac:(lia)))|]. apply Forall_forall. intros z Hz. apply repeat_spec in Hz. subst z. exact zero_fin. }
    split; [cbn; rewrite is_finite_Bopp; exact F0|]. split; [change (0 < val (@Bopp fprec femax (vget x 0))); lra|]. split; [intros; discriminate|]. intros y (_ & _ & _ & Y1).
    unfold in_slab, poff. cbn [pc_beta0 pc_beta1]. split; [|intros; discriminate].
    assert (A : along n (fcoords g) y (fcoords x) = - (y 0%nat - fcoords x 0%nat)).
    { assert (G0 : fcoords g 0%nat = -1). { unfold fcoords. rewrite G2. cbn [nth]. change (val (@Bopp fprec femax (fofZ 1)) = -1). rewrite B2R_Bopp. rewrite (proj1 (fofZ_small 1 ltac:(lia))). lra. }
      assert (GZ : forall i, fcoords g (Datatypes.S i) = 0). { intros i. unfold fcoords. rewrite G2. cbn [nth]. destruct (Nat.lt_ge_cases i (n - 1)) as [L|L]; [rewrite nth_repeat; exact zero_val|rewrite nth_overflow by (rewrite repeat_length; exact L); exact zero_val]. }
      unfold along, dot. rewrite (Rsum_one n 0); [|lia|intros [|i] _ Hi; [lia|rewrite GZ; ring]]. rewrite G0. ring. }
    rewrite A. change (nopp (n := F) (vget x 0)) with (@Bopp fprec femax (vget x 0)). rewrite O2. change (val (vget x 0 : f64)) with (fcoords x 0%nat). lra.
Qed.
(** the largest response so far, and where it was seen *)
Definition tops (l : list Z) (s : F * Z) : Prop := (forall k, In k l -> (lw_nwstop o <= k < Z.of_nat m)%Z) /\
  ((l = [] /\ s = (nninf (n := F), (-1)%Z)) \/ (In (snd s) l /\ fst s = v_resp n o x (Z.to_nat (snd s)) /\ forall j, In j l -> val (v (Z.to_nat j)) <= val (fst s : f64))).
Lemma neginf_lt (a : f64) : fin a = true -> nltb (n := F) (nninf (n := F)) a = true.
Proof. intros H. change (Bltb (B754_infinity true) a = true). destruct a as [[]|[]| |[] ? ? ?]; try discriminate; reflexivity. Qed.
Lemma tops_tracks : tracks n o x tops.
Proof.
  pose proof Ho as (_ & _ & _ & H1 & H2 & _). split; [split; [intros k []|left; auto]|]. intros l s k Hk [HR HT]. assert (Km : (Z.to_nat k < m)%nat) by lia. destruct (resp_near (Z.to_nat k) Km) as (Fk & _).
  split; [intros j [<-|Hj]; auto|]. right. destruct HT as [[-> ->]|(T1 & T2 & T3)]; cbn [fst snd] in *.
  - rewrite (neginf_lt _ Fk). cbn [fst snd]. split; [now left|]. split; [reflexivity|]. intros j [<-|[]]. lra.
  - specialize (HR _ T1). assert (Fs : fin (fst s : f64) = true) by (rewrite T2; apply resp_near; lia).
    destruct (nltb (n := F) (fst s) (v_resp n o x (Z.to_nat k))) eqn:C; cbn [fst snd].
    + apply lt_true in C; [|auto|auto]. split; [now left|]. split; [reflexivity|]. intros j [<-|Hj]; [lra|]. specialize (T3 j Hj). lra.
    + apply lt_false in C; [|auto|auto]. split; [now right|]. split; [exact T2|]. intros j [<-|Hj]; [exact C|auto].
Qed.
End S.

Section T.
Variable lm : Libm.
Notation F := (FNum lm).
(** feasibility *)
Theorem low_feas n (o : Lowpass F) (x : Arr F) W X S : lw_ok n o -> lw_fits n o W S -> in_box n X x -> level_ok S (lw_sp o) ->
  exists o' r, lowpass_feas o x = Ok (o', r) /\ lw_ok n o' /\ lw_same o o' /\ lw_sp o' = lw_sp o /\
    (r = None -> meets_by (lw_filter n o) (- low_eps n W X S) (B2R (lw_sp o : f64)) (fcoords x)) /\
    forall g c, r = Some (g, c) -> is_vec n g /\ all_finite g /\ is_finite (pc_beta0 c : f64) = true /\ 0 < B2R (pc_beta0 c : f64) /\ (forall b1 : f64, pc_beta1 c = Some b1 -> is_finite b1 = true) /\
      forall y, meets_by (lw_filter n o) (low_eps n W X S) (B2R (lw_sp o : f64)) y -> in_slab n Bias g c y (fcoords x).
Proof.
  intros Ho Hf Hx Hs. destruct (lowpass_exhaustive n o x Ho (proj1 Hx)) as (o' & r & E & O & Sm & Sp & C & D). exists o', r. do 4 (split; [assumption|]). split.
  - intros K. apply low_meets; auto. now apply C.
  - intros g c K. apply (low_cut lm n o x W X S Ho Hf Hx Hs). now apply D.
Qed.
(** optimisation *)
Theorem low_assess n (o : Lowpass F) (x : Arr F) (sp : f64) W X S : lw_ok n o -> lw_fits n o W S -> in_box n X x -> level_ok S sp -> (lw_nwstop o < Z.of_nat (length (lw_spectrum o)))%Z ->
  exists o' (ga' : F) g c sh, lowpass_assess o x (sp : F) = Ok (o', ga', ((g, c), sh)) /\ lw_ok n o' /\ lw_same o o' /\ level_ok S ga' /\ B2R (ga' : f64) <= B2R sp /\
    (sh = false -> ga' = sp /\ 0 < B2R (pc_beta0 c : f64)) /\
    (sh = true -> meets_by (lw_filter n o) (- low_eps n W X S) (B2R (ga' : f64)) (fcoords x) /\ stop_level_by (lw_filter n o) (low_eps n W X S) (fcoords x) (B2R (ga' : f64))) /\
    forall y, meets_by (lw_filter n o) (low_eps n W X S) (B2R (ga' : f64)) y -> in_slab n (cut_mode sh) g c y (fcoords x).
Proof.
  intros Ho Hf Hx Hs Hq. unfold lowpass_assess. fold (set_level (N := F) o sp). set (os := set_level (N := F) o sp).
  assert (Oo : lw_ok n os) by exact Ho. assert (Of : lw_fits n os W S) by (destruct Hf; split; assumption). assert (Os : level_ok S (lw_sp os)) by exact Hs.
  destruct (lowpass_feas_ok n os x Oo (proj1 Hx) (tops lm n os x) (tops_tracks lm n os x W X S Oo Of Hx)) as (o' & r & E & O & Sm & Sp & C). rewrite E. cbn [bind].
  assert (Sm' : lw_same o o') by exact Sm. pose proof Ho as (Hn & Hm & Hr & H1 & H2 & _). destruct r as [[g c]|].
  - exists o', sp, g, c, false. split; [reflexivity|]. split; [exact O|]. split; [exact Sm'|]. split; [exact Hs|]. split; [apply Rle_refl|].
    destruct (low_cut lm n os x W X S Oo Of Hx Os g c C) as (A1 & A2 & A3 & A4 & A5 & A6). split; [intros _; split; [reflexivity|exact A4]|]. split; [discriminate|]. exact A6.
  - destruct C as (M & _ & l & L & TR & T). cbn [os set_level lw_nwstop lw_spectrum] in L.
    destruct T as [[-> _]|(T1 & T2 & T3)]. { exfalso. apply (proj2 (L (lw_nwstop o))). lia. }
    cbn [fst snd] in *. pose proof T1 as K. apply L in K. destruct Sm as (S1 & S2 & S3 & S4 & S5). set (k := Z.to_nat (lw_kmax o')) in *. assert (Km : (k < length (lw_spectrum os))%nat) by (cbn [os set_level lw_spectrum]; lia).
    unfold rdz. rewrite (proj2 (Z.ltb_ge _ 0)) by lia. rewrite S1. rewrite (rd_nth _ _ (a_new 0)) by exact Km. fold k. cbn [bind].
    destruct (resp_near lm n os x W X S Oo Of Hx k Km) as (R1 & R2 & R3). set (f := lw_filter n o). change (lw_filter n os) with f in *. pose proof (e1_eps lm n os x W X S Oo Of Hx) as EE. pose proof (e1_nonneg lm n os x W X S Oo Of Hx) as E0.
    pose proof M as (M1 & M2 & M3 & M4). assert (Hk : (Z.to_nat (lw_nwstop os) <= k < length (lw_spectrum os))%nat) by (cbn [os set_level lw_nwstop lw_spectrum]; unfold k; lia).
    destruct (M3 k Hk) as [A B]. apply lt_false in A; [|apply Os|exact R1]. apply lt_false in B; [|exact R1|exact (n0_fin lm)]. rewrite (n0_val lm) in B. change (lw_sp os) with sp in A.
    rewrite T2. set (ga := v_resp n os x k) in *.
    eexists o', ga, _, _, true. split; [reflexivity|]. split; [exact O|]. split; [exact Sm'|].
    assert (LV : Rabs (B2R (ga : f64)) <= S). { rewrite Rabs_pos_eq by exact B. destruct Hs as [_ Hs2]. eapply Rle_trans; [exact A|]. eapply Rle_trans; [apply Rle_abs|exact Hs2]. }
    split; [split; [exact R1|exact LV]|]. split; [exact A|]. split; [discriminate|].
    assert (TM : forall j, (f_q f <= j < f_m f)%nat -> response f (fcoords x) j <= B2R (ga : f64) + low_eps n W X S).
    { intros j Hj. cbn [f lw_filter f_q f_m] in Hj. specialize (T3 (Z.of_nat j)). rewrite Nat2Z.id in T3. assert (T4 : val (v_resp n os x j : f64) <= val (ga : f64)) by (rewrite <- T2; apply T3, L; lia).
      destruct (resp_near lm n os x W X S Oo Of Hx j) as (_ & Q & _); [cbn [os set_level lw_spectrum]; lia|]. change (lw_filter n os) with f in Q. apply Rabs_le_inv in Q. lra. }
    pose proof (low_meets lm n os x W X S Oo Of Hx Os M) as (P1 & P2 & P3 & P4). change (lw_filter n os) with f in P1, P2, P3.
    split.
    + intros _. split.
      * split; [exact P1|]. split; [exact P2|]. split; [|exact P4]. intros j Hj. specialize (P3 j Hj). specialize (TM j Hj). lra.
      * split; [|exact TM]. exists k. split; [exact Hk|]. rewrite Rabs_minus_sym. eapply Rle_trans; [exact R2|exact EE].
    + intros y (_ & _ & Y & _). specialize (Y k Hk). apply Rabs_le_inv in R2. unfold in_slab, poff, cut_mode. cbn [pc_beta0 pc_beta1].
      pose proof (along_row lm n os x k y) as AR. change (lw_filter n os) with f in AR. rewrite AR. split; [lra|]. intros b1 Hb. injection Hb as <-. lra.
Qed.
End T.
