(** Lowpass designs from the constructors. *)
From Coq Require Import Reals List Arith Lia Lra Psatz Bool ZArith.
From Verif Require Import Num Res Arr CuttingPlane EllCalc Ell EllRun ArrLemmas EllLemmas Spec RealLin EllSpec EllReal EllCuts EllMore
  Det RunSpec RunProofs PowerMore ExConv ProfitConv LmiSpec ExtSpec ExtRunSpec ExtTest Lowpass LowpassSpec LowpassReal LowpassNew LowpassCase LowpassRunSpec LowpassRun.
Import ListNotations.
Local Open Scope R_scope.

Lemma dot_self n v : 0 <= dot n v v.
Proof. apply Rsum_nonneg. intros. nra. Qed.

Section Design.
Variables (n p q : nat) (lp up : R).
Hypothesis Hn : (2 <= n)%nat.
Notation f := (lowpass_problem n p q lp up).
Lemma problem_unit : unit_column f.
Proof. intros k Hk. reflexivity. Qed.
Lemma problem_row k : dot n (f_A f k) (f_A f k) <= 4 * INR n.
Proof.
  assert (H : forall m, Rsum m (fun j => f_A f k j * f_A f k j) <= 4 * INR m).
  { induction m as [|m IH]; [cbn; lra|]. rewrite S_INR. cbn [Rsum]. cbn [lowpass_problem f_A] in IH |- *. destruct (m =? 0)%nat; [lra|].
    match goal with |- context [cos ?t] => pose proof (COS_bound t) as [C1 C2]; set (c := cos t) in * end. nra. }
  apply H.
Qed.
Definition radius2 (d : R) : R := d * d / (4 * INR n).
Lemma n_pos : 0 < INR n. Proof. apply lt_0_INR. lia. Qed.
Lemma radius2_pos d : 0 < d -> 0 < radius2 d.
Proof. intros Hd. pose proof n_pos. unfold radius2. apply Rdiv_lt_0_compat; nra. Qed.
Lemma response_diff y z k : response f y k - response f z k = dot n (f_A f k) (fun i => y i - z i).
Proof. unfold response. rewrite dot_minus_r. reflexivity. Qed.
Lemma slack_ball s d z y : 0 < d -> slack f s d z -> ball n z (sqrt (radius2 d)) y -> meets f s y.
Proof.
  intros Hd (S1 & S2 & S3 & S4) Hb. unfold ball in Hb. rewrite sqrt_sqrt in Hb by (left; now apply radius2_pos). pose proof n_pos as Hp.
  assert (Hr : forall v, dot n v v <= 4 * INR n -> - d <= dot n v (fun i => y i - z i) <= d).
  { intros v Hv. pose proof (cauchy n v (fun i => y i - z i)) as Hc. set (t := dot n v _) in *. set (w := dot n (fun i => y i - z i) _) in *. 
    assert (Hw : 0 <= w) by apply dot_self.
    assert (H1 : dot n v v * w <= 4 * INR n * radius2 d). { apply Rmult_le_compat; auto. apply dot_self. }
    assert (H2 : 4 * INR n * radius2 d = d * d) by (unfold radius2; field; lra). nra. }
  assert (Hk : forall k, response f z k - d <= response f y k <= response f z k + d).
  { intros k. pose proof (Hr (f_A f k) (problem_row k)) as H. rewrite <- response_diff in H. lra. }
  assert (H0 : z 0%nat - d <= y 0%nat).
  { pose proof (Hr (fun i => if (i =? 0)%nat then 1 else 0)) as H. unfold dot at 1 in H. rewrite (Rsum_one n 0) in H; [|lia|intros [|i] ? ?; [congruence|cbn; ring]].
    unfold dot in H. rewrite (Rsum_one n 0) in H; [|lia|intros [|i] ? ?; [congruence|cbn; ring]]. cbn in H.
    assert (1 <= INR n) by (change 1 with (INR 1); apply le_INR; lia). specialize (H ltac:(lra)). lra. }
  split; [intros k H; specialize (S1 k H); specialize (Hk k); cbn [f_lp f_up lowpass_problem] in *; lra|].
  split; [intros k H; specialize (S2 k H); specialize (Hk k); lra|].
  split; [intros k H; specialize (S3 k H); specialize (Hk k); lra|]. lra.
Qed.
Lemma ball_norm z r y : ball n z r y -> dot n y y <= 2 * dot n z z + 2 * (r * r).
Proof.
  intros Hb. unfold ball in Hb. apply Rle_trans with (2 * dot n z z + 2 * dot n (fun i => y i - z i) (fun i => y i - z i)); [|lra].
  unfold dot. rewrite <- !Rsum_scal, <- Rsum_plus. apply Rsum_le. intros i Hi. pose proof (Rle_0_sqr (y i - 2 * z i)) as H. unfold Rsqr in H. nra.
Qed.
End Design.

Lemma a_new_fin n : @a_new ENum n = fin_arr (a_new (N := RNum) n).
Proof. unfold a_new, fin_arr. cbn. f_equal. induction n; cbn; [reflexivity|]. now f_equal. Qed.
Lemma a_new_vec n : vecn n (a_new (N := RNum) n).
Proof. split; [cbn; apply repeat_length|reflexivity]. Qed.
Lemma a_new_coords n i : coords (a_new (N := RNum) n) i = 0.
Proof. unfold coords, a_new. cbn [adata]. apply nth_repeat. Qed.

Lemma start_ball n (val : R) : (2 <= n)%nat -> 0 < val -> exists e, ell_new_with_scalar (N := RNum) val (a_new (N := RNum) n) = Ok e /\
  ell_new_with_scalar (N := ENum) (Fin val) (a_new n) = Ok (fin_ell e) /\ proper n e /\ vecn n (e_xc e) /\ vol2 n e = val ^ n /\
  forall y, pts n e y <-> dot n y y <= val.
Proof.
  intros Hn Hv. destruct (new_scalar_real n val (a_new (N := RNum) n) ltac:(lia) Hv (proj1 (a_new_vec n))) as (e & E & HP & Hin).
  exists e. split; [exact E|]. split; [rewrite a_new_fin; exact (new_scalar_fin n val _ e Hn (proj1 (a_new_vec n)) E)|]. split; [exact HP|].
  split; [rewrite (new_scalar_xc _ _ _ E); apply a_new_vec|]. split; [exact (new_scalar_vol n val _ e ltac:(lia) (proj1 (a_new_vec n)) E)|].
  intros y. rewrite Hin. unfold dot. rewrite (Rsum_ext n _ (fun i => y i * y i)); [reflexivity|]. intros i _. rewrite a_new_coords. ring.
Qed.
Lemma ln_pow_ratio n (a b : R) : 0 < a -> 0 < b -> ln (a ^ n / b ^ n) = INR n * ln (a / b).
Proof.
  intros Ha Hb. replace (a ^ n / b ^ n) with ((a / b) ^ n).
  - apply ln_pow. apply Rdiv_lt_0_compat; auto.
  - unfold Rdiv. rewrite Rpow_mult_distr, pow_inv. reflexivity.
Qed.

(** the whole call sequence of a user: constructors, then the optimiser *)
Lemma design (opt : Options RNum) n wp ws lp up sp val : (2 <= n)%nat -> (Z.of_nat (15 * n) <= 2 ^ 31)%Z -> 0 <= wp -> wp <= ws -> ws < 1 -> 0 < val ->
  exists o p q eE, lowpass_new (N := ENum) n (Fin wp) (Fin ws) (Fin lp) (Fin up) (Fin sp) = Ok o /\ band (15 * n) wp p /\ band (15 * n) ws q /\ (0 < p <= q)%nat /\ (q < 15 * n)%nat /\
    ell_new_with_scalar (N := ENum) (Fin val) (a_new n) = Ok eE /\
    forall (s d : R) z, let f := lowpass_problem n p q lp up in
      0 < d -> s <= sp -> slack f s d z -> 2 * dot n z z + d * d / (2 * INR n) <= val ->
      0 < tolerance opt <= d * d / (4 * INR n) -> (INR n + 1) * (INR n * ln (val / (d * d / (4 * INR n)))) < INR (max_iters opt) ->
      (exists o' eE' (level : R) (x : Arr RNum) k,
        cutting_plane_optim (lowpass_assess (N := ENum)) (ell_space (N := ENum) parallel_cut) (fin_options opt) o eE (Fin sp) = Ok (o', eE', Fin level, (Some (fin_arr x), k)) /\
        is_vec n x /\ stop_level f (xvec x) level /\ meets f level (xvec x) /\ level < s) /\
      (exists o' eE' (x : Arr RNum) k,
        cutting_plane_feas (lowpass_oracle (N := ENum)) (ell_space (N := ENum) parallel_cut) (fin_options opt) o eE = Ok (o', eE', (Some (fin_arr x), k)) /\
        is_vec n x /\ meets f sp (xvec x) /\ INR k <= (INR n + 1) * (INR n * ln (val / (d * d / (4 * INR n))))).
Proof.
  intros Hn H31 H1 H2 H3 Hval. destruct (lowpass_new_ok n wp ws lp up sp ltac:(lia) H31 H1 H2 ltac:(lra)) as (o & p & q & E & Hpq & B1 & B2 & B3 & A & Sp).
  destruct (start_ball n val Hn Hval) as (e & E1 & E2 & HP & Hx & Hvol & Hin). assert (Hq : (q < 15 * n)%nat) by (apply B3; exact H3).
  exists o, p, q, (fin_ell e). do 6 (split; [assumption|]). intros s d z f Hd Hs Hz Hzz Ht Hm. set (r := sqrt (radius2 n d)).
  assert (Hp : 0 < INR n) by (apply lt_0_INR; lia).
  assert (R2 : 0 < radius2 n d) by now apply radius2_pos.
  assert (Hr : 0 < r) by now apply sqrt_lt_R0. assert (Hrr : r * r = radius2 n d) by (apply sqrt_sqrt; lra).
  assert (Hball : forall y, ball n z r y -> meets f s y /\ pts n e y).
  { intros y Hy. split; [exact (slack_ball n p q lp up Hn s d z y Hd Hz Hy)|]. apply Hin. pose proof (ball_norm n z r y Hy) as Hb.
    rewrite Hrr in Hb. replace (2 * radius2 n d) with (d * d / (2 * INR n)) in Hb by (unfold radius2; field; lra). lra. }
  assert (Hln : ln (vol2 n e / (r * r) ^ n) = INR n * ln (val / (d * d / (4 * INR n)))).
  { rewrite Hvol, Hrr. exact (ln_pow_ratio n val (radius2 n d) Hval R2). }
  split.
  - destruct (low_converges f Hq opt o e sp s z r Hn (problem_unit n p q lp up) A HP Hx Hr Hs Hball) as (o' & eE & level & x & k & R); [rewrite Hrr; exact Ht|unfold f; cbn [f_n lowpass_problem]; rewrite Hln; exact Hm|].
    exists o', eE, level, x, k. exact R.
  - destruct (low_feasible f sp opt o e z r Hn (problem_unit n p q lp up) (conj A Sp) HP Hx Hr) as (o' & eE & x & k & R1 & R2' & R3 & R4);
      [intros y Hy; destruct (Hball y Hy) as [M P]; split; [exact (meets_mono f s sp y Hs M)|exact P]|rewrite Hrr; exact Ht|unfold f; cbn [f_n lowpass_problem]; rewrite Hln; exact Hm|].
    exists o', eE, x, k. unfold f in R4. cbn [f_n lowpass_problem] in R4. rewrite Hln in R4. auto.
Qed.

(** a case: two coefficients, the flat filter 1/2 has room 1/8 below level 5/8; with the default options *)
Lemma flat_slack p q : slack (lowpass_problem 2 p q (1 / 4) 1) (5 / 8) (1 / 8) (xvec (flat (1 / 2))).
Proof.
  assert (R : forall k, response (lowpass_problem 2 p q (1 / 4) 1) (xvec (flat (1 / 2))) k = 1 / 2).
  { intros k. unfold response, dot. cbn [f_n lowpass_problem]. rewrite (Rsum_one 2 0); [unfold xvec; cbn; lra|lia|]. intros [|[|i]] Hi Hne; [congruence| |lia]. unfold xvec; cbn; ring. }
  unfold slack. cbn [f_n f_lp f_up f_m lowpass_problem]. repeat split; intros; rewrite ?R; try lra. unfold xvec. cbn. lra.
Qed.
Lemma case_runs : exists o p q eE, lowpass_new (N := ENum) 2 (Fin (1 / 4)) (Fin (1 / 2)) (Fin (1 / 4)) (Fin 1) (Fin 1) = Ok o /\
  ell_new_with_scalar (N := ENum) (Fin 40) (a_new 2) = Ok eE /\ let f := lowpass_problem 2 p q (1 / 4) 1 in
  exists o' eE' (level : R) (x : Arr RNum) k,
    cutting_plane_optim (lowpass_assess (N := ENum)) (ell_space (N := ENum) parallel_cut) (fin_options options_default) o eE (Fin 1) = Ok (o', eE', Fin level, (Some (fin_arr x), k)) /\
    is_vec 2 x /\ stop_level f (xvec x) level /\ meets f level (xvec x) /\ level < 5 / 8.
Proof.
  destruct (design options_default 2 (1 / 4) (1 / 2) (1 / 4) 1 1 40) as (o & p & q & eE & E & _ & _ & _ & _ & E2 & H); try lra; try lia.
  exists o, p, q, eE. split; [exact E|]. split; [exact E2|]. intros f. refine (proj1 (H (5 / 8) (1 / 8) (xvec (flat (1 / 2))) ltac:(lra) ltac:(lra) (flat_slack p q) _ _ _)).
  - unfold dot. cbn. unfold xvec. cbn. lra.
  - change (INR 2) with 2. pose proof default_tol as Ht. pose proof r10_small. pose proof r10_pos. split; [exact def_tol|].
    apply Rle_trans with (1 := Ht). nra.
  - rewrite default_iters. replace (INR 2000) with 2000 by (rewrite INR_IZR_INZ; reflexivity). change (INR 2) with 2.
    assert (L : ln (40 / (1 / 8 * (1 / 8) / (4 * 2))) <= 15 * ln 2).
    { replace (40 / (1 / 8 * (1 / 8) / (4 * 2))) with 20480 by lra. replace (15 * ln 2) with (INR 15 * ln 2) by (rewrite INR_IZR_INZ; reflexivity).
      rewrite <- ln_pow by lra. left. apply ln_increasing; [lra|]. cbn. lra. }
    pose proof (ln_tangent 2 ltac:(lra)). lra.
Qed.
