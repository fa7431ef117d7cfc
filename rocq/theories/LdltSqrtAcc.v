(** The square root of an accepted matrix in binary64 (C120). *)
From Coq Require Import ZArith Reals Lra Lia Bool Psatz Arith List.
From Flocq Require Import Core IEEE754.BinarySingleNaN.
From Verif Require Import Num Res Arr ArrLemmas Spec RealLin Ldlt LdltLemmas LdltSpec LdltProofs LdltReal FloatLemmas FloatErr FloatRel StepAccSpec LdltErr LdltRej LdltAccSpec LdltAcc.
Local Open Scope R_scope.

#[local] Opaque fadd fsub fmul fdiv fsqrt fofZ.
Lemma sqrt_rel (d : f64) : fin d = true -> 0 < val d -> fin (fsqrt d) = true /\ 0 < val (fsqrt d) /\ Rabs (val (fsqrt d) - sqrt (val d)) <= 2 * uu * sqrt (val d).
Proof.
  intros Fd Pd. destruct (fsqrt_fin d Fd ltac:(lra)) as [Vs Fs]. split; [exact Fs|]. rewrite Vs.
  assert (M : bpow radix2 (-1074) <= val d). { apply (generic_format_ge_bpow radix2 fexp64 (-1074)); [|exact Pd|apply val_generic]. intros e. change (-1074 <= Z.max (e - 53) (-1074))%Z. lia. }
  assert (Q : bpow radix2 (-537) <= sqrt (val d)). { rewrite <- (sqrt_square (bpow radix2 (-537))) by apply bpow_ge_0. apply sqrt_le_1; [apply Rmult_le_pos; apply bpow_ge_0|lra|]. rewrite <- bpow_plus. exact M. }
  pose proof (rnd_err (sqrt (val d))) as E. pose proof (sqrt_lt_R0 _ Pd) as P. rewrite (Rabs_pos_eq (sqrt _)) in E by lra.
  assert (T : ee <= uu * bpow radix2 (-537)) by (rewrite <- bpow_plus; apply bpow_le; lia). pose proof (bpow_gt_0 radix2 (-53)) as U.
  assert (T2 : uu * bpow radix2 (-537) <= uu * sqrt (val d)) by (apply Rmult_le_compat_l; lra).
  assert (U2 : uu <= / 1024) by (change (/ 1024) with (bpow radix2 (-10)); apply bpow_le; lia).
  assert (K : Rabs (rnd (sqrt (val d)) - sqrt (val d)) <= 2 * uu * sqrt (val d)) by lra. split; [|exact K]. apply Rabs_le_inv in K. nra.
Qed.
Lemma prod_close u e a b p q x y : 0 < u <= 1 / 1000 -> 0 < e -> e <= u -> Rabs a <= p -> Rabs b <= q -> Rabs (x - a) <= 31 / 10 * u * p + e -> Rabs (y - b) <= 31 / 10 * u * q + e ->
  Rabs (x * y - a * b) <= 7 * u * (p * q) + 2 * e * (p + q) + e * e.
Proof.
  intros Hu He Heu Ha Hb Hx Hy. pose proof (Rabs_pos a). pose proof (Rabs_pos b). pose proof (Rabs_pos (x - a)). pose proof (Rabs_pos (y - b)).
  replace (x * y - a * b) with (a * (y - b) + (b * (x - a) + (x - a) * (y - b))) by ring.
  eapply Rle_trans; [apply Rabs_triang|]. eapply Rle_trans; [apply Rplus_le_compat_l; apply Rabs_triang|]. rewrite !Rabs_mult.
  set (dx := Rabs (x - a)) in *. set (dy := Rabs (y - b)) in *. set (ex := 31 / 10 * u * p + e) in *. set (ey := 31 / 10 * u * q + e) in *.
  assert (p0 : 0 <= p) by lra. assert (q0 : 0 <= q) by lra.
  assert (A1 : Rabs a * dy <= p * ey) by (apply Rmult_le_compat; lra). assert (A2 : Rabs b * dx <= q * ex) by (apply Rmult_le_compat; lra). assert (A3 : dx * dy <= ex * ey) by (apply Rmult_le_compat; lra).
  apply Rle_trans with (p * ey + (q * ex + ex * ey)); [lra|]. unfold ex, ey.
  assert (P : 0 <= p * q) by (apply Rmult_le_pos; lra). assert (B1 : u * u * (p * q) <= 1 / 1000 * u * (p * q)) by (apply Rmult_le_compat_r; [exact P|]; nra).
  assert (B2 : u * p * e <= 1 / 1000 * p * e) by (apply Rmult_le_compat_r; [lra|]; nra). assert (B3 : u * q * e <= 1 / 1000 * q * e) by (apply Rmult_le_compat_r; [lra|]; nra).
  assert (B4 : 0 <= p * e) by (apply Rmult_le_pos; lra). assert (B5 : 0 <= q * e) by (apply Rmult_le_pos; lra). assert (B6 : 0 <= u * (p * q)) by (apply Rmult_le_pos; lra). lra.
Qed.

Section Acc.
Variable lm : Libm.
Notation F := (FNum lm).
Variables (n : nat) (G : nat -> nat -> f64) (st : list (num F)).
Hypothesis (Hn : (1 <= n)%nat) (Hz : (Z.of_nat n <= 2 ^ 26)%Z).
Let g a b : f64 := mget (N := F) n st a b.
Let A : mtx := fun i j => val (G i j).
Let L : mtx := fun i j => val (g i j).
Let D : vec := fun i => val (g i i).
Hypotheses (Hs : sym n A) (Hd : forall i, (i < n)%nat -> bpow radix2 (-400) <= A i i <= bpow radix2 400).
Hypotheses (Hrow : forall i, (i < n)%nat -> row_ok (N := F) n 0 G st i /\ nleb (n := F) (mget n st i i) n0 = false) (Hfin : forall i, (i < n)%nat -> fin (g i i) = true).
Notation W := (bpow radix2 400).
Lemma sq_tiny : 100 * INR n * W * ee <= uu * bpow radix2 (-400). Proof. exact (tiny n Hn Hz). Qed.
Lemma sq_ee : ee <= uu. Proof. apply bpow_le. lia. Qed.
Lemma sq_W1 : 1 <= W. Proof. apply (bpow_le radix2 0 400). lia. Qed.
Lemma sq_nuu : INR n * uu <= 1 / 1000. Proof. apply (nuu n Hn Hz). Qed.
Lemma sq_Pd i : (i < n)%nat -> 0 < D i.
Proof.
  intros Hi. destruct (Hrow i Hi) as [_ K]. change (Bleb (g i i) (n0 (N := F) : f64) = false) in K. rewrite fleb_fin in K by (auto; apply (n0_fin lm)).
  rewrite (n0_val lm) in K. revert K. case Rle_bool_spec; [discriminate|]. auto.
Qed.
Lemma sq_row i : (i < n)%nat -> row_err A L L D uu ee i /\ D i <= A i i.
Proof. intros Hi. destruct (row_acc lm n G st Hn Hz i Hi (proj1 (Hrow i Hi)) (Hfin i Hi)) as (K1 & K2 & _); [intros; apply sq_Pd; lia|]. auto. Qed.
Lemma sq_PdW i k : (i < n)%nat -> (k <= i)%nat -> 0 < D k <= W.
Proof. intros Hi Hk. split; [apply sq_Pd; lia|]. destruct (sq_row k ltac:(lia)) as [_ K]. pose proof (Hd k ltac:(lia)). lra. Qed.
Lemma sq_size i : (i < n)%nat -> RR L D i i + D i <= 101 / 100 * A i i.
Proof.
  intros Hi. apply (accepted_size n A L L D uu ee (bpow radix2 (-400)) W); auto using bpow_gt_0, sq_ee, sq_W1, sq_tiny, sq_nuu.
  - apply sq_row; auto.
  - intros k Hk. apply (sq_PdW i); lia.
  - now apply sq_Pd.
Qed.
(** the entries below the diagonal are finite *)
Lemma sq_Lfin i k : (i < n)%nat -> (k < i)%nat -> fin (g i k) = true.
Proof.
  intros Hi Hk. destruct (Hrow i Hi) as [[_ R2] _]. assert (Fp : fin (piv (N := F) n 0 G st i i : f64) = true) by (rewrite <- R2; apply (Hfin i Hi)).
  destruct (piv_fin lm n G st Hn i i Fp) as [_ FK]. exact (proj1 (FK k Hk)).
Qed.
(** what the computed root should be *)
Definition aa (i k : nat) : R := if Nat.eqb i k then sqrt (D k) else L i k * sqrt (D k).
Lemma aa_sq i k : (k < n)%nat -> aa i k * aa i k = (if Nat.eqb i k then D k else L i k * L i k * D k).
Proof.
  intros Hk. pose proof (sq_Pd k Hk) as P. unfold aa. destruct (Nat.eqb i k); [apply sqrt_sqrt; lra|]. replace (L i k * sqrt (D k) * (L i k * sqrt (D k))) with (L i k * L i k * (sqrt (D k) * sqrt (D k))) by ring. rewrite sqrt_sqrt by lra. reflexivity.
Qed.
Lemma aa_sum i : (i < n)%nat -> Rsum (S i) (fun k => aa i k * aa i k) = RR L D i i + D i.
Proof.
  intros Hi. cbn [Rsum]. rewrite aa_sq, Nat.eqb_refl by auto. f_equal. apply Rsum_ext. intros k Hk. rewrite aa_sq by lia. rewrite (proj2 (Nat.eqb_neq i k)) by lia. reflexivity.
Qed.
Lemma aa_part i j : (i < n)%nat -> (j <= i)%nat -> Rsum (S j) (fun k => aa i k * aa i k) <= 101 / 100 * A i i.
Proof.
  intros Hi Hj. eapply Rle_trans; [|apply sq_size; exact Hi]. rewrite <- aa_sum by exact Hi. assert (G0 : forall m, Rsum (S j) (fun k => aa i k * aa i k) <= Rsum (S j + m) (fun k => aa i k * aa i k)).
  { induction m; [rewrite Nat.add_0_r; lra|]. rewrite Nat.add_succ_r. change (Rsum (S (S j + m)) (fun k => aa i k * aa i k)) with (Rsum (S j + m) (fun k => aa i k * aa i k) + aa i (S j + m)%nat * aa i (S j + m)%nat). pose proof (Rle_0_sqr (aa i (S j + m)%nat)) as Q. unfold Rsqr in Q. lra. }
  specialize (G0 (i - j)%nat). replace (S j + (i - j))%nat with (S i) in G0 by lia. exact G0.
Qed.
Lemma aa_big i k : (i < n)%nat -> (k <= i)%nat -> Rabs (aa i k) <= 101 / 100 * W.
Proof.
  intros Hi Hk. pose proof (aa_part i k Hi Hk) as H. cbn [Rsum] in H. assert (P : 0 <= Rsum k (fun k => aa i k * aa i k)) by (apply Rsum_nonneg; intros; apply Rle_0_sqr). pose proof (Hd i Hi) as [_ B]. pose proof sq_W1 as W1.
  assert (E : Rabs (aa i k) * Rabs (aa i k) = aa i k * aa i k) by (rewrite <- Rabs_mult; apply Rabs_pos_eq; apply Rle_0_sqr). pose proof (Rle_0_sqr (Rabs (aa i k) - 1)) as Q. unfold Rsqr in Q. nra.
Qed.
Lemma aa_ldl i j : (i < n)%nat -> (j <= i)%nat -> Rsum (S j) (fun k => aa i k * aa j k) = ldl L D i j.
Proof.
  intros Hi Hj. cbn [Rsum]. unfold ldl. f_equal.
  - apply Rsum_ext. intros k Hk. unfold aa. rewrite (proj2 (Nat.eqb_neq i k)), (proj2 (Nat.eqb_neq j k)) by lia. replace (L i k * sqrt (D k) * (L j k * sqrt (D k))) with (L i k * L j k * (sqrt (D k) * sqrt (D k))) by ring. rewrite sqrt_sqrt by (left; apply sq_Pd; lia). reflexivity.
  - unfold aa. rewrite Nat.eqb_refl. pose proof (sq_Pd j ltac:(lia)) as P. destruct (Nat.eqb_spec i j) as [->|]; [apply sqrt_sqrt; lra|]. rewrite Rmult_assoc, sqrt_sqrt by lra. reflexivity.
Qed.
(** one entry of the computed root *)
Definition rt (k i : nat) : f64 := if Nat.eqb k i then fsqrt (g k k) else fmul (g i k) (fsqrt (g k k)).
Lemma rt_close i k : (i < n)%nat -> (k <= i)%nat -> fin (rt k i) = true /\ Rabs (val (rt k i) - aa i k) <= 31 / 10 * uu * Rabs (aa i k) + ee.
Proof.
  intros Hi Hk. destruct (sqrt_rel (g k k) (Hfin k ltac:(lia)) (sq_Pd k ltac:(lia))) as (Fs & Ps & Es). pose proof (bpow_gt_0 radix2 (-53)) as U. pose proof (bpow_gt_0 radix2 (-1075)) as E0. change (val (g k k)) with (D k) in Es.
  pose proof (sqrt_lt_R0 _ (sq_Pd k ltac:(lia))) as Q0. assert (U2 : uu <= / 1024) by (change (/ 1024) with (bpow radix2 (-10)); apply bpow_le; lia).
  pose proof (aa_big i k Hi Hk) as AB. unfold rt, aa in *. rewrite (Nat.eqb_sym k i). destruct (Nat.eqb_spec i k) as [->|Hne].
  - split; [exact Fs|]. rewrite (Rabs_pos_eq (sqrt (D k))) by lra. assert (0 <= uu * sqrt (D k)) by (apply Rmult_le_pos; lra). lra.
  - pose proof (sq_Lfin i k Hi ltac:(lia)) as FL. set (s := fsqrt (g k k)) in *. set (l := Rabs (L i k)).
    assert (l0 : 0 <= l) by apply Rabs_pos. assert (EA : Rabs (L i k * sqrt (D k)) = l * sqrt (D k)) by (rewrite Rabs_mult, (Rabs_pos_eq (sqrt _)) by lra; reflexivity). rewrite EA in *.
    assert (M1 : Rabs (L i k * val s - L i k * sqrt (D k)) <= 2 * uu * (l * sqrt (D k))).
    { replace (L i k * val s - L i k * sqrt (D k)) with (L i k * (val s - sqrt (D k))) by ring. rewrite Rabs_mult. fold l. apply Rle_trans with (l * (2 * uu * sqrt (D k))); [apply Rmult_le_compat_l; auto|]. lra. }
    assert (P0 : 0 <= l * sqrt (D k)) by (apply Rmult_le_pos; lra). set (p := l * sqrt (D k)) in *.
    assert (M2 : Rabs (L i k * val s) <= (1 + 2 * uu) * p). { replace (L i k * val s) with (L i k * sqrt (D k) + (L i k * val s - L i k * sqrt (D k))) by ring. eapply Rle_trans; [apply Rabs_triang|]. rewrite EA. lra. }
    pose proof (rnd_err (L i k * val s)) as R. assert (UP : uu * p <= / 1024 * p) by (apply Rmult_le_compat_r; lra). pose proof sq_W1 as W1.
    assert (M3 : uu * Rabs (L i k * val s) <= uu * ((1 + 2 * uu) * p)) by (apply Rmult_le_compat_l; lra). assert (UUP : uu * (uu * p) <= / 1024 * (uu * p)) by (apply Rmult_le_compat_r; [apply Rmult_le_pos|]; lra). assert (UP0 : 0 <= uu * p) by (apply Rmult_le_pos; lra).
    destruct (fmul_fin (g i k) s FL Fs) as [V1 F1].
    { change (val (g i k)) with (L i k). apply Rle_lt_trans with (bpow radix2 402); [|apply bpow_lt; unfold femax; lia].
      apply abs_round_le_generic; [typeclasses eauto|typeclasses eauto|apply bpow_generic; lia|]. change 402%Z with (2 + 400)%Z. rewrite bpow_plus. change (bpow radix2 2) with 4. lra. }
    split; [exact F1|]. rewrite V1. change (val (g i k)) with (L i k).
    replace (rnd (L i k * val s) - L i k * sqrt (D k)) with ((rnd (L i k * val s) - L i k * val s) + (L i k * val s - L i k * sqrt (D k))) by ring.
    eapply Rle_trans; [apply Rabs_triang|]. lra.
Qed.
Lemma rt_sum i j : (i < n)%nat -> (j <= i)%nat ->
  Rabs (Rsum (S j) (fun k => val (rt k i) * val (rt k j)) - ldl L D i j) <= 7 * uu * Rsum (S j) (fun k => Rabs (aa i k) * Rabs (aa j k)) + uu * bpow radix2 (-400) / 20.
Proof.
  intros Hi Hj. rewrite <- aa_ldl by auto. rewrite <- Rsum_minus. eapply Rle_trans; [apply Rabs_Rsum|].
  pose proof (bpow_gt_0 radix2 (-53)) as U. pose proof (bpow_gt_0 radix2 (-1075)) as E0. pose proof sq_tiny as T. pose proof sq_W1 as W1. pose proof sq_ee as EU. assert (U2 : uu <= / 1024) by (change (/ 1024) with (bpow radix2 (-10)); apply bpow_le; lia).
  apply Rle_trans with (Rsum (S j) (fun k => 7 * uu * (Rabs (aa i k) * Rabs (aa j k)) + 5 * ee * W)).
  - apply Rsum_le. intros k Hk. destruct (rt_close i k Hi ltac:(lia)) as [_ C1]. destruct (rt_close j k ltac:(lia) ltac:(lia)) as [_ C2].
    eapply Rle_trans; [apply (prod_close uu ee (aa i k) (aa j k) (Rabs (aa i k)) (Rabs (aa j k))); auto; lra|].
    pose proof (aa_big i k Hi ltac:(lia)) as B1. pose proof (aa_big j k ltac:(lia) ltac:(lia)) as B2.
    assert (X1 : 2 * ee * (Rabs (aa i k) + Rabs (aa j k)) <= 2 * ee * (202 / 100 * W)) by (apply Rmult_le_compat_l; lra). assert (X2 : ee * ee <= ee * (1 / 2 * W)) by (apply Rmult_le_compat_l; lra). assert (0 <= ee * W) by (apply Rmult_le_pos; lra). lra.
  - rewrite Rsum_plus, Rsum_scal. apply Rplus_le_compat_l. rewrite Rsum_const. assert (N : INR (S j) <= INR n) by (apply le_INR; lia). assert (P : 0 <= ee * W) by (apply Rmult_le_pos; lra).
    assert (INR (S j) * (ee * W) <= INR n * (ee * W)) by (apply Rmult_le_compat_r; lra). lra.
Qed.
Lemma rt_entry i j : (i < n)%nat -> (j <= i)%nat -> Rabs (Rsum (S j) (fun k => val (rt k i) * val (rt k j)) - A i j) <= 12 * INR n * uu * sqrt (A i i * A j j).
Proof.
  intros Hi Hj. pose proof (bpow_gt_0 radix2 (-53)) as U. pose proof (bpow_gt_0 radix2 (-400)) as w0. destruct (Hd i Hi) as [Ai _]. destruct (Hd j ltac:(lia)) as [Aj _]. assert (ni : 1 <= INR n) by (apply (le_INR 1 n); exact Hn).
  set (x := fun k => / sqrt (A k k)). assert (xp : forall k, (k < n)%nat -> 0 < x k /\ x k * x k * A k k = 1).
  { intros k Hk. destruct (Hd k Hk) as [Ak _]. assert (S0 : 0 < sqrt (A k k)) by (apply sqrt_lt_R0; lra). split; [apply Rinv_0_lt_compat; exact S0|]. unfold x. rewrite <- (sqrt_sqrt (A k k)) at 3 by lra. field. lra. }
  destruct (xp i Hi) as [xi ai]. destruct (xp j ltac:(lia)) as [xj aj]. set (Z := Rsum (S j) (fun k => val (rt k i) * val (rt k j))).
  assert (E1 : Rabs (x i * x j * (A i j - ldl L D i j)) <= 4 * INR n * uu).
  { replace (4 * INR n * uu) with (2 * INR n * uu * (A i i * (x i * x i)) + 2 * INR n * uu * (A j j * (x j * x j))) by (replace (A i i * (x i * x i)) with 1 by lra; replace (A j j * (x j * x j)) with 1 by lra; ring).
    destruct (Nat.eq_dec i j) as [<-|Hne].
    - apply (self_err n A L L D uu ee (bpow radix2 (-400)) W); auto using bpow_gt_0, sq_ee, sq_W1, sq_tiny, sq_nuu; [apply sq_row; auto|intros k Hk; apply (sq_PdW i); lia].
    - apply (pair_err n A L L D uu ee (bpow radix2 (-400)) W); auto using bpow_gt_0, sq_ee, sq_W1, sq_tiny, sq_nuu; try lia; [apply sq_row; auto|apply sq_row; lia|intros k Hk; apply (sq_PdW i); lia| |apply sq_size; lia].
      pose proof (aa_part i j Hi Hj) as Q. eapply Rle_trans; [|exact Q]. right. unfold RR. apply Rsum_ext. intros k Hk. rewrite aa_sq by lia. rewrite (proj2 (Nat.eqb_neq i k)) by lia. reflexivity. }
  assert (E2 : Rabs (x i * x j * (Z - ldl L D i j)) <= 72 / 10 * uu).
  { rewrite Rabs_mult, (Rabs_pos_eq (x i * x j)) by (apply Rmult_le_pos; lra). apply Rle_trans with (x i * x j * (7 * uu * Rsum (S j) (fun k => Rabs (aa i k) * Rabs (aa j k)) + uu * bpow radix2 (-400) / 20)); [apply Rmult_le_compat_l; [apply Rmult_le_pos; lra|apply rt_sum; auto]|].
    assert (B1 : 2 * (x i * x j) * Rsum (S j) (fun k => Rabs (aa i k) * Rabs (aa j k)) <= x i * x i * Rsum (S j) (fun k => aa i k * aa i k) + x j * x j * Rsum (S j) (fun k => aa j k * aa j k)).
    { rewrite <- !Rsum_scal, <- Rsum_plus. apply Rsum_le. intros k Hk. assert (Q1 : Rabs (aa i k) * Rabs (aa i k) = aa i k * aa i k) by (rewrite <- Rabs_mult; apply Rabs_pos_eq; apply Rle_0_sqr). assert (Q2 : Rabs (aa j k) * Rabs (aa j k) = aa j k * aa j k) by (rewrite <- Rabs_mult; apply Rabs_pos_eq; apply Rle_0_sqr).
      pose proof (Rle_0_sqr (x i * Rabs (aa i k) - x j * Rabs (aa j k))) as Q. unfold Rsqr in Q. rewrite <- Q1, <- Q2. lra. }
    assert (B2 : x i * x i * Rsum (S j) (fun k => aa i k * aa i k) <= x i * x i * (101 / 100 * A i i)) by (apply Rmult_le_compat_l; [apply Rle_0_sqr|apply aa_part; auto]).
    assert (B3 : x j * x j * Rsum (S j) (fun k => aa j k * aa j k) <= x j * x j * (101 / 100 * A j j)) by (apply Rmult_le_compat_l; [apply Rle_0_sqr|apply aa_part; lia]).
    assert (B4 : 2 * (x i * x j) * bpow radix2 (-400) <= 2).
    { apply Rle_trans with (x i * x i * bpow radix2 (-400) + x j * x j * bpow radix2 (-400)); [pose proof (Rle_0_sqr (x i - x j)) as Q; unfold Rsqr in Q; assert (0 <= ((x i - x j) * (x i - x j)) * bpow radix2 (-400)) by (apply Rmult_le_pos; lra); lra|].
      assert (x i * x i * bpow radix2 (-400) <= x i * x i * A i i) by (apply Rmult_le_compat_l; [apply Rle_0_sqr|lra]). assert (x j * x j * bpow radix2 (-400) <= x j * x j * A j j) by (apply Rmult_le_compat_l; [apply Rle_0_sqr|lra]). lra. }
    set (Y := Rsum (S j) (fun k => Rabs (aa i k) * Rabs (aa j k))) in *. assert (B5 : x i * x j * Y <= 101 / 100) by lra.
    assert (B6 : uu * (x i * x j * Y) <= uu * (101 / 100)) by (apply Rmult_le_compat_l; lra). assert (B7 : uu * (x i * x j * bpow radix2 (-400)) <= uu * 1) by (apply Rmult_le_compat_l; lra). lra. }
  assert (E3 : Rabs (x i * x j * (Z - A i j)) <= 12 * INR n * uu).
  { replace (x i * x j * (Z - A i j)) with (x i * x j * (Z - ldl L D i j) - x i * x j * (A i j - ldl L D i j)) by ring. eapply Rle_trans; [apply Rabs_triang|]. rewrite Rabs_Ropp. assert (1 * uu <= INR n * uu) by (apply Rmult_le_compat_r; lra). lra. }
  rewrite Rabs_mult, (Rabs_pos_eq (x i * x j)) in E3 by (apply Rmult_le_pos; lra). rewrite sqrt_mult by lra.
  assert (P1 : 0 < sqrt (A i i)) by (apply sqrt_lt_R0; lra). assert (P2 : 0 < sqrt (A j j)) by (apply sqrt_lt_R0; lra).
  apply (Rmult_le_reg_l (x i * x j)); [apply Rmult_lt_0_compat; lra|]. replace (x i * x j * (12 * INR n * uu * (sqrt (A i i) * sqrt (A j j)))) with (12 * INR n * uu); [exact E3|]. unfold x. field. lra.
Qed.
End Acc.
Section Final.
Context {lm : Libm}.
Notation F := (FNum lm).
Theorem sqrt_f64 n get (G : nat -> nat -> f64) (m m' : LDLT F) : (Z.of_nat n <= 2 ^ 26)%Z -> mgr n m -> reads (N := F) n get G -> sym n (real_of G) -> moderate_diag n G ->
  ldlt_factor get m = Ok (m', true) -> (forall i, (i < n)%nat -> fin (pivot n m' i) = true) ->
  exists r, ldlt_sqrt m' = Ok r /\ (arows r = n /\ acols r = n /\ length (adata r) = (n * n)%nat) /\ all_finite r /\
    (forall i j, (j < i)%nat -> (i < n)%nat -> fentry n r i j = 0) /\ (forall i, (i < n)%nat -> 0 < fentry n r i i) /\
    forall i j, (i < n)%nat -> (j < n)%nat -> Rabs (mulmm n (fun a b => fentry n r b a) (fentry n r) i j - real_of G i j) <= 12 * INR n * uu * sqrt (real_of G i i * real_of G j j).
Proof.
  intros Hz Hm Hr Hs Hd Hf Hp. unfold real_of in *. destruct (ldlt_factor_ok n get G m (mgr_wf n m Hm) Hr) as (st & Ls & [(E & H)|(p & Hp' & E & _)]); [|rewrite E in Hf; discriminate].
  rewrite E in Hf. assert (Em : m' = mkLDLT (N := F) (0, 0)%nat (l_wit m) n st) by congruence. subst m'. unfold pivot in Hp. cbn [l_storage] in Hp.
  destruct (ldlt_sqrt_ok n (mkLDLT (N := F) (0, 0)%nat (l_wit m) n st)) as (r & Er & Lr & Hrr); auto. cbn [l_storage] in Hrr.
  exists (mkArr (N := F) r n n). split; [exact Er|]. split; [split; [reflexivity|split; [reflexivity|exact Lr]]|]. destruct (Nat.eq_dec n 0) as [->|Hn0].
  { split; [destruct r; [constructor|discriminate]|]. repeat split; intros; lia. } assert (Hn : (1 <= n)%nat) by lia.
  assert (RV : forall i j, (i < n)%nat -> (j < n)%nat -> (mget (N := F) n r i j : f64) = if (i <=? j)%nat then rt lm n st i j else (n0 (N := F) : f64)).
  { intros i j Hi Hj. rewrite (Hrr i j Hi Hj). unfold rt. destruct (Nat.eqb_spec i j) as [->|Hne]; [rewrite Nat.leb_refl; reflexivity|]. destruct (Nat.ltb_spec i j), (Nat.leb_spec i j); try lia; reflexivity. }
  assert (RV' : forall i j, (i < n)%nat -> (j < n)%nat -> fentry n (mkArr (N := F) r n n) i j = if (i <=? j)%nat then val (rt lm n st i j) else 0).
  { intros i j Hi Hj. change (fentry n (mkArr (N := F) r n n) i j) with (val (mget (N := F) n r i j : f64)). rewrite RV by auto. destruct (i <=? j)%nat; [reflexivity|apply (n0_val lm)]. }
  assert (CL : forall i k, (i < n)%nat -> (k <= i)%nat -> fin (rt lm n st k i) = true) by (intros i k Hi Hk; exact (proj1 (rt_close lm n G st Hn Hz Hd H Hp i k Hi Hk))).
  split; [|split; [|split]].
  - apply Forall_forall. intros z Hz0. cbn [adata] in Hz0. destruct (In_nth _ _ (n0 (N := F)) Hz0) as (q & Hq & Eq). rewrite Lr in Hq. assert (Hi : (q / n < n)%nat) by (apply Nat.div_lt_upper_bound; lia). assert (Hj : (q mod n < n)%nat) by (apply Nat.mod_upper_bound; lia).
    pose proof (RV _ _ Hi Hj) as V. unfold mget in V. replace (q / n * n + q mod n)%nat with q in V by (pose proof (Nat.div_mod q n Hn0); lia). rewrite Eq in V. rewrite V. destruct (Nat.leb_spec (q / n) (q mod n)); [apply CL; auto|apply (n0_fin lm)].
  - intros i j Hj Hi. rewrite RV' by lia. now rewrite (proj2 (Nat.leb_gt i j)) by lia.
  - intros i Hi. rewrite RV' by lia. rewrite Nat.leb_refl. unfold rt. rewrite Nat.eqb_refl. exact (proj1 (proj2 (sqrt_rel _ (Hp i Hi) (sq_Pd lm n G st H Hp i Hi)))).
  - set (r' := mkArr (N := F) r n n) in *. assert (K : forall i j, (j <= i)%nat -> (i < n)%nat -> Rabs (mulmm n (fun a b => fentry n r' b a) (fentry n r') i j - val (G i j)) <= 12 * INR n * uu * sqrt (val (G i i) * val (G j j))).
    { intros i j Hj Hi. unfold mulmm. rewrite (Rsum_block n 0 (S j)).
      - cbn [plus]. rewrite (Rsum_ext (S j) _ (fun k => val (rt lm n st k i) * val (rt lm n st k j))).
        + exact (rt_entry lm n G st Hn Hz Hd H Hp i j Hi Hj).
        + intros k Hk. rewrite !RV' by lia. rewrite (proj2 (Nat.leb_le k i)), (proj2 (Nat.leb_le k j)) by lia. reflexivity.
      - lia.
      - intros k Hk Ho. rewrite (RV' k j) by lia. rewrite (proj2 (Nat.leb_gt k j)) by lia. ring. }
    intros i j Hi Hj. destruct (Nat.le_ge_cases j i) as [Hl|Hl]; [apply K; auto|].
    rewrite (Hs i j) by auto. rewrite (Rmult_comm (val (G i i))). replace (mulmm n (fun a b => fentry n r' b a) (fentry n r') i j) with (mulmm n (fun a b => fentry n r' b a) (fentry n r') j i); [apply K; auto|]. unfold mulmm. apply Rsum_ext. intros. ring.
Qed.
End Final.
