(** Rounding errors of sums of products in binary64, underflow included. *)
From Coq Require Import ZArith Reals Lra Lia Bool Psatz.
From Flocq Require Import Core IEEE754.BinarySingleNaN.
From Verif Require Import Num FloatLemmas.
Local Open Scope R_scope.

Notation uu := (bpow radix2 (-53)).
Notation ee := (bpow radix2 (-1075)).

Lemma half_ulp_bound y : / 2 * ulp radix2 fexp64 y <= uu * Rabs y + ee.
Proof.
  pose proof (Rabs_pos y) as Py. pose proof (bpow_gt_0 radix2 (-53)) as U. pose proof (bpow_gt_0 radix2 (-1075)) as E.
  assert (0 <= uu * Rabs y) by (apply Rmult_le_pos; lra).
  destruct (Rlt_le_dec (Rabs y) (bpow radix2 (3 - femax - fprec + fprec))) as [H1|H1].
  - unfold fexp64. rewrite ulp_FLT_small by (auto; exact fprec_gt_0).
    replace (/ 2 * bpow radix2 (3 - femax - fprec)) with ee; [lra|].
    change (/ 2) with (bpow radix2 (-1)). rewrite <- bpow_plus. reflexivity.
  - assert (K : ulp radix2 fexp64 y <= Rabs y * bpow radix2 (1 - fprec)).
    { apply ulp_FLT_le. apply Rle_trans with (2 := H1). apply bpow_le. unfold femax, fprec. lia. }
    replace uu with (/ 2 * bpow radix2 (1 - fprec)); [|change (/ 2) with (bpow radix2 (-1)); rewrite <- bpow_plus; reflexivity].
    apply Rle_trans with (/ 2 * (Rabs y * bpow radix2 (1 - fprec))); [apply Rmult_le_compat_l; lra|]. lra.
Qed.
(** relative to the exact value, and relative to the rounded one *)
Lemma rnd_err x : Rabs (rnd x - x) <= uu * Rabs x + ee.
Proof. eapply Rle_trans; [apply error_le_half_ulp; typeclasses eauto|apply half_ulp_bound]. Qed.
Lemma rnd_err_r x : Rabs (rnd x - x) <= uu * Rabs (rnd x) + ee.
Proof. eapply Rle_trans; [apply error_le_half_ulp_round; typeclasses eauto|apply half_ulp_bound]. Qed.

(** A finite result comes from finite operands and is the rounded exact one. *)
Lemma fsub_inv (x y : f64) : fin (fsub x y) = true -> fin x = true /\ fin y = true /\ val (fsub x y) = rnd (val x - val y).
Proof.
  intros H. assert (K : fin x = true /\ fin y = true).
  { destruct x as [sx|sx| |sx mx ex Hx]; destruct y as [sy|sy| |sy my ey Hy]; cbn in H; try discriminate H; auto; try (destruct sx; discriminate H); try (destruct sy; discriminate H); destruct sx, sy; discriminate H. }
  destruct K as [Fx Fy]. repeat split; auto. apply fsub_fin_inv; auto.
Qed.
Lemma fadd_inv (x y : f64) : fin (fadd x y) = true -> fin x = true /\ fin y = true /\ val (fadd x y) = rnd (val x + val y).
Proof.
  intros H. assert (K : fin x = true /\ fin y = true).
  { destruct x as [sx|sx| |sx mx ex Hx]; destruct y as [sy|sy| |sy my ey Hy]; cbn in H; try discriminate H; auto; destruct sx, sy; discriminate H. }
  destruct K as [Fx Fy]. repeat split; auto.
  generalize (Bplus_correct fprec femax fprec_gt_0 fprec_lt_emax mode_NE x y Fx Fy). case Rlt_bool_spec; intros Hb; [intros (E & _); exact E|].
  intros [E _]. exfalso. unfold fadd in H. rewrite <- is_finite_SF_B2SF in H. rewrite E in H. destruct (Bsign x); discriminate H.
Qed.
Lemma fmul_inv (x y : f64) : fin (fmul x y) = true -> fin x = true /\ fin y = true /\ val (fmul x y) = rnd (val x * val y).
Proof.
  intros H. assert (K : fin x = true /\ fin y = true).
  { destruct x as [sx|sx| |sx mx ex Hx]; destruct y as [sy|sy| |sy my ey Hy]; cbn in H; try discriminate H; auto. }
  destruct K as [Fx Fy]. repeat split; auto.
  generalize (Bmult_correct fprec femax fprec_gt_0 fprec_lt_emax mode_NE x y). case Rlt_bool_spec; intros Hb; [intros (E & _); exact E|].
  intros E. exfalso. unfold fmul in H. rewrite <- is_finite_SF_B2SF in H. rewrite E in H. destruct (xorb _ _); discriminate H.
Qed.
Lemma fdiv_inv (x y : f64) : val y <> 0 -> fin (fdiv x y) = true -> fin x = true /\ val (fdiv x y) = rnd (val x / val y).
Proof.
  intros Hy H. generalize (Bdiv_correct fprec femax fprec_gt_0 fprec_lt_emax mode_NE x y Hy). case Rlt_bool_spec; intros Hb.
  - intros (E & F & _). split; [|exact E]. unfold fdiv in H. now rewrite F in H.
  - intros E. exfalso. unfold fdiv in H. rewrite <- is_finite_SF_B2SF in H. rewrite E in H. destruct (xorb _ _); discriminate H.
Qed.

(** ** Sums of products *)
From Verif Require Import Spec RealLin ArrLemmas.
Lemma Rabs_Rsum n f : Rabs (Rsum n f) <= Rsum n (fun k => Rabs (f k)).
Proof. induction n; cbn [Rsum]; [rewrite Rabs_R0; lra|]. eapply Rle_trans; [apply Rabs_triang|lra]. Qed.

Section Sum.
Variable lm : Libm.
Notation F := (FNum lm).
Variables (z0 : f64) (x y : nat -> f64).
Hypotheses (Zv : val z0 = 0) (Zf : fin z0 = true).
Let f : nat -> num F := fun k => fmul (x k) (y k).
Let p k := val (x k) * val (y k).
Lemma accum_fin_z j : fin (accum (N := F) z0 f j : f64) = true -> forall k, (k < j)%nat ->
  fin (x k) = true /\ fin (y k) = true /\ fin (f k : f64) = true /\ fin (accum (N := F) z0 f k : f64) = true.
Proof.
  induction j; intros H k Hk; [lia|]. cbn [accum] in H. change (fin (fadd (accum (N := F) z0 f j) (f j)) = true) in H.
  apply fadd_inv in H. destruct H as (H1 & H2 & _). destruct (Nat.eq_dec k j) as [->|]; [|apply IHj; auto; lia].
  destruct (fmul_inv _ _ H2) as (H3 & H4 & _). auto.
Qed.
(** [j] products summed up from zero: 3 j roundings *)
Lemma accum_err_z j : fin (accum (N := F) z0 f j : f64) = true -> 8 * INR j * uu <= 1 ->
  Rabs (val (accum (N := F) z0 f j : f64) - Rsum j p) <= 3 * INR j * uu * Rsum j (fun k => Rabs (p k)) + 4 * INR j * ee.
Proof.
  pose proof (bpow_gt_0 radix2 (-53)) as U. pose proof (bpow_gt_0 radix2 (-1075)) as E.
  induction j; intros H Hj.
  - cbn [accum Rsum]. rewrite Zv. cbn [INR].
    replace (0 - 0) with 0 by ring. rewrite Rabs_R0. lra.
  - rewrite S_INR in *. pose proof (pos_INR j) as Pj. cbn [accum] in *. change (fin (fadd (accum (N := F) z0 f j) (f j)) = true) in H.
    change (val (nadd (n := F) (accum (N := F) z0 f j) (f j))) with (val (fadd (accum (N := F) z0 f j) (f j))).
    destruct (fadd_inv _ _ H) as (H1 & H2 & EV). rewrite EV. cbn [Rsum].
    assert (H8 : 8 * INR j * uu <= 1) by (assert (0 <= 8 * uu) by lra; lra).
    specialize (IHj H1 H8). destruct (fmul_inv _ _ H2) as (H3 & H4 & EF). change (val (f j : f64)) with (val (fmul (x j) (y j))) in *. rewrite EF in *.
    fold (p j). fold (p j) in EF.
    set (S := val (accum (N := F) z0 f j : f64)) in *. set (P := Rsum j p) in *. set (Q := Rsum j (fun k => Rabs (p k))) in *.
    assert (HQ : Rabs P <= Q) by apply Rabs_Rsum. pose proof (Rabs_pos P) as P0.
    pose proof (rnd_err (p j)) as R1. pose proof (rnd_err (S + rnd (p j))) as R2.
    set (r := rnd (p j)) in *. set (z := Rabs (p j)) in *. assert (0 <= z) by apply Rabs_pos.
    assert (A1 : Rabs r <= z + uu * z + ee).
    { replace r with (p j + (r - p j)) by ring. eapply Rle_trans; [apply Rabs_triang|]. fold z. lra. }
    assert (A2 : Rabs S <= Q + (3 * INR j * uu * Q + 4 * INR j * ee)).
    { replace S with (P + (S - P)) by ring. eapply Rle_trans; [apply Rabs_triang|]. lra. }
    assert (A3 : Rabs (S + r) <= Rabs S + Rabs r) by apply Rabs_triang.
    assert (A4 : uu * Rabs (S + r) <= uu * (Q + (3 * INR j * uu * Q + 4 * INR j * ee) + (z + uu * z + ee))) by (apply Rmult_le_compat_l; lra).
    replace (rnd (S + r) - (P + p j)) with ((rnd (S + r) - (S + r)) + ((S - P) + (r - p j))) by ring.
    eapply Rle_trans; [apply Rabs_triang|]. eapply Rle_trans; [apply Rplus_le_compat_l; apply Rabs_triang|].
    assert (Q0 : 0 <= Q) by lra. assert (U1 : uu <= 1 / 8). { change (1 / 8) with (1 * / 8). replace (1 * / 8) with (bpow radix2 (-3)) by (cbn; lra). apply bpow_le; lia. }
    assert (B1 : 3 * INR j * uu <= 1) by lra.
    assert (B2 : uu * (3 * INR j * uu * Q) <= uu * Q). { apply Rmult_le_compat_l; [lra|]. rewrite <- (Rmult_1_l Q) at 2. apply Rmult_le_compat_r; auto. }
    assert (B3 : uu * (uu * z) <= uu * z * (1 / 8)). { replace (uu * z * (1 / 8)) with (uu * (1 / 8 * z)) by ring. apply Rmult_le_compat_l; [lra|]. apply Rmult_le_compat_r; auto. }
    assert (B4 : uu * (4 * INR j * ee) <= ee). { replace (uu * (4 * INR j * ee)) with (4 * INR j * uu * ee) by ring. rewrite <- (Rmult_1_l ee) at 2. apply Rmult_le_compat_r; lra. }
    assert (B5 : uu * ee <= ee * (1 / 8)) by (rewrite Rmult_comm; apply Rmult_le_compat_l; lra).
    assert (B6 : 0 <= INR j * uu * z) by (repeat apply Rmult_le_pos; lra).
    assert (B7 : 0 <= uu * z) by (apply Rmult_le_pos; lra). assert (B8 : 0 <= uu * Q) by (apply Rmult_le_pos; lra).
    clear - IHj R1 R2 A4 B2 B3 B4 B5 B6 B7 B8 E. 
    replace (3 * (INR j + 1) * uu * (Q + z)) with (3 * INR j * uu * Q + 3 * (uu * Q) + 3 * (INR j * uu * z) + 3 * (uu * z)) by ring. lra.
Qed.
(** products up to 2^600: no overflow *)
Lemma accum_small j : (Z.of_nat j <= 2 ^ 26)%Z -> (forall k, (k < j)%nat -> fin (x k) = true /\ fin (y k) = true /\ Rabs (p k) <= bpow radix2 600) ->
  fin (accum (N := F) z0 f j : f64) = true.
Proof.
  intros Hj H. enough (fin (accum (N := F) z0 f j : f64) = true /\ Rabs (val (accum (N := F) z0 f j : f64)) <= INR j * bpow radix2 602) by tauto.
  induction j; [cbn [accum INR]; rewrite Zv, Rabs_R0; split; auto; lra|].
  destruct IHj as [I1 I2]; [lia|intros; apply H; lia|]. destruct (H j ltac:(lia)) as (H1 & H2 & H3). cbn [accum].
  change (nadd (n := F) (accum (N := F) z0 f j) (f j)) with (fadd (accum (N := F) z0 f j) (f j)). change (f j : f64) with (fmul (x j) (y j)).
  assert (S : forall r e, (e < femax)%Z -> (-1074 <= e)%Z -> Rabs r <= bpow radix2 e -> Rabs (rnd r) <= bpow radix2 e).
  { intros r e He He' Hr. apply abs_round_le_generic; [typeclasses eauto|typeclasses eauto|apply bpow_generic; auto|auto]. }
  assert (M1 : Rabs (rnd (val (x j) * val (y j))) <= bpow radix2 600) by (apply S; [reflexivity|lia|exact H3]).
  destruct (fmul_fin (x j) (y j) H1 H2) as [E1 F1]; [eapply Rle_lt_trans; [exact M1|apply bpow_lt; reflexivity]|].
  assert (J : INR j * bpow radix2 602 <= bpow radix2 628).
  { change 628%Z with (26 + 602)%Z. rewrite bpow_plus. apply Rmult_le_compat_r; [apply bpow_ge_0|]. rewrite INR_IZR_INZ. change (bpow radix2 26) with (IZR (2 ^ 26)). apply IZR_le. lia. }
  set (a := val (accum (N := F) z0 f j : f64)) in *. set (r := rnd (val (x j) * val (y j))) in *.
  assert (B6 : bpow radix2 602 = 4 * bpow radix2 600) by (change 602%Z with (2 + 600)%Z; rewrite bpow_plus; reflexivity).
  assert (B7 : bpow radix2 629 = 2 * bpow radix2 628) by (change 629%Z with (1 + 628)%Z; rewrite bpow_plus; reflexivity).
  assert (B8 : bpow radix2 600 <= bpow radix2 628) by (apply bpow_le; lia).
  assert (A1 : Rabs (a + r) <= INR j * bpow radix2 602 + bpow radix2 600) by (eapply Rle_trans; [apply Rabs_triang|lra]).
  assert (A2 : Rabs (rnd (a + r)) <= bpow radix2 629) by (apply S; [reflexivity|lia|lra]).
  destruct (fadd_fin (accum (N := F) z0 f j) (fmul (x j) (y j)) I1 F1) as [E2 F2]; [rewrite E1; fold a; fold r; eapply Rle_lt_trans; [exact A2|apply bpow_lt; reflexivity]|].
  split; auto. rewrite E2, E1. fold a. fold r. rewrite S_INR. pose proof (rnd_err (a + r)) as R. 
  replace (rnd (a + r)) with ((a + r) + (rnd (a + r) - (a + r))) by ring. eapply Rle_trans; [apply Rabs_triang|].
  assert (U : uu * Rabs (a + r) <= bpow radix2 600).
  { apply Rle_trans with (uu * bpow radix2 629); [apply Rmult_le_compat_l; [apply bpow_ge_0|]; lra|]. rewrite <- bpow_plus. apply bpow_le. lia. }
  assert (EE : ee <= bpow radix2 600) by (apply bpow_le; lia). pose proof (bpow_gt_0 radix2 600). lra.
Qed.
End Sum.
Lemma n0_val lm : val (n0 (N := FNum lm) : f64) = 0. Proof. exact (proj1 (fofZ_small 0 ltac:(lia))). Qed.
Lemma n0_fin lm : fin (n0 (N := FNum lm) : f64) = true. Proof. exact (proj2 (fofZ_small 0 ltac:(lia))). Qed.
Definition accum_fin lm := accum_fin_z lm (n0 (N := FNum lm)).
Definition accum_err lm x y := accum_err_z lm (n0 (N := FNum lm)) x y (n0_val lm).
