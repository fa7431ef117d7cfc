(** LowpassOracle::new in binary64 (C112). *)
From Coq Require Import ZArith Reals Lra Lia Psatz List Bool Arith.
From Flocq Require Import Core IEEE754.BinarySingleNaN.
From Verif Require Import Num Res Arr ArrLemmas CuttingPlane Spec RealLin FloatLemmas FloatErr PiBound FcosAcc KernAcc StepAccSpec Lowpass LowpassSpec LowpassNew LowAccSpec LowNewSpec.
Local Open Scope R_scope.
#[local] Opaque fadd fsub fmul fdiv fsqrt fofZ.

(** ** Bands *)
Lemma ffloor_val (x : f64) : fin x = true -> fin (ffloor x) = true /\ val (ffloor x) = IZR (Zfloor (val x)).
Proof.
  intros H. unfold ffloor. destruct (Bnearbyint_correct fprec femax fprec_lt_emax mode_DN x) as (A & B & _). rewrite B. split; [exact H|]. rewrite A.
  unfold round, F2R, scaled_mantissa, cexp, FIX_exp. cbn [Fnum Fexp Z.opp bpow round_mode]. now rewrite !Rmult_1_r.
Qed.
Lemma floor_i32 lm (x : f64) : fin x = true -> (- 2 ^ 31 <= Zfloor (val x) <= 2 ^ 31 - 1)%Z -> as_i32 (N := FNum lm) (nfloor (n := FNum lm) x) = Zfloor (val x).
Proof.
  intros H B. unfold as_i32. cbn [nfloor ntrunc FNum]. destruct (ffloor_val x H) as [F V]. rewrite ftrunc_val, V, Ztrunc_IZR by exact F. lia.
Qed.
(** a factor below one makes an integer smaller *)
Lemma shrink_int (w : f64) (K : Z) : (0 < K <= 2 ^ 31)%Z -> val w < 1 -> rnd (val w * IZR K) < IZR K.
Proof.
  intros HK Hw. assert (K0 : 0 < IZR K) by (apply IZR_lt; lia).
  assert (P1 : val w <= 1 - uu).
  { assert (L : val w <= pred radix2 fexp64 1). { apply pred_ge_gt; [apply (fexp_correct fprec femax); reflexivity|apply val_generic|exact (bpow_generic 0 ltac:(lia))|exact Hw]. }
    change 1 with (bpow radix2 0) in L. rewrite pred_bpow in L by (apply (fexp_correct fprec femax); reflexivity). exact L. }
  assert (Y : val w * IZR K <= IZR K - uu * IZR K) by nra.
  assert (FK : generic_format radix2 fexp64 (IZR K)). { destruct (fofZ_small K) as [E _]; [lia|]. rewrite <- E. apply val_generic. }
  assert (LE : rnd (val w * IZR K) <= IZR K). { rewrite <- (rnd_generic (IZR K) FK) at 2. apply rnd_le. pose proof (bpow_gt_0 radix2 (-53)). nra. }
  destruct (Rle_lt_or_eq_dec _ _ LE) as [H|H]; [exact H|]. exfalso.
  assert (E := error_le_half_ulp_round radix2 fexp64 (fun x => negb (Z.even x)) (val w * IZR K)). change (round radix2 fexp64 (Znearest (fun x => negb (Z.even x))) (val w * IZR K)) with (rnd (val w * IZR K)) in E. rewrite H in E.
  set (e := (mag radix2 (IZR K) : Z)). assert (H1 : bpow radix2 (e - 1) <= IZR K). { pose proof (bpow_mag_le radix2 (IZR K) ltac:(lra)) as M. rewrite Rabs_right in M by lra. exact M. }
  assert (e1 : (1 <= e)%Z). { unfold e. apply mag_ge_bpow. rewrite Rabs_right by lra. change (bpow radix2 (1 - 1)) with 1. apply IZR_le. lia. }
  assert (U : / 2 * ulp radix2 fexp64 (IZR K) = uu * bpow radix2 (e - 1)).
  { rewrite ulp_neq_0 by lra. unfold cexp. fold e. unfold fexp64, FLT_exp. change (3 - femax - fprec)%Z with (-1074)%Z. unfold fprec. rewrite Z.max_l by lia. change (/ 2) with (bpow radix2 (-1)). rewrite <- !bpow_plus. f_equal. lia. }
  rewrite U in E. pose proof (bpow_gt_0 radix2 (-53)) as Up. rewrite Rabs_right in E by nra.
  destruct (Rle_lt_or_eq_dec _ _ H1) as [L|L]; [nra|].
  assert (GP : generic_format radix2 fexp64 (IZR K - uu * IZR K)).
  { rewrite <- L, <- bpow_plus. replace (-53 + (e - 1))%Z with (fexp64 (e - 1)). 2: { unfold fexp64, FLT_exp. change (3 - femax - fprec)%Z with (-1074)%Z. unfold fprec. lia. }
    rewrite <- pred_bpow by (apply (fexp_correct fprec femax); reflexivity). apply generic_format_pred; [apply (fexp_correct fprec femax); reflexivity|]. apply bpow_generic. lia. }
  assert (Q : rnd (val w * IZR K) <= IZR K - uu * IZR K). { rewrite <- (rnd_generic _ GP). now apply rnd_le. } nra.
Qed.
Lemma band_f64 lm (w : f64) m : (2 <= m)%nat -> (Z.of_nat m <= 2 ^ 31)%Z -> fin w = true -> 0 <= val w < 1 ->
  exists p, (as_i32 (N := FNum lm) (nfloor (n := FNum lm) (nmul (n := FNum lm) w (nN (m - 1)))) + 1)%Z = Z.of_nat p /\ (0 < p < m)%nat /\ band_by (bpow radix2 (-52)) m (val w) p /\ Z.of_nat p = (Zfloor (rnd (val w * INR (m - 1))) + 1)%Z.
Proof.
  intros Hm H31 Fw Hw. unfold nN. cbn [nmul nZ FNum]. set (K := Z.of_nat (m - 1)). assert (HK : (0 < K < 2 ^ 31)%Z) by lia. assert (EK : INR (m - 1) = IZR K) by apply INR_IZR_INZ.
  assert (K0 : 1 <= IZR K) by (apply IZR_le; lia). assert (K1 : IZR K <= 2147483648) by (apply IZR_le; lia).
  destruct (fofZ_small K ltac:(lia)) as [VK FK]. pose proof (shrink_int w K ltac:(lia) ltac:(lra)) as SH. assert (R0 : 0 <= rnd (val w * IZR K)). { rewrite <- rnd_0. apply rnd_le. nra. }
  destruct (fmul_fin w (fofZ K) Fw FK) as [V FV]. { rewrite VK, Rabs_right by lra. apply Rlt_trans with (bpow radix2 32); [|apply bpow_lt; reflexivity]. change (bpow radix2 32) with 4294967296. lra. }
  rewrite VK in V. set (y := rnd (val w * IZR K)) in *.
  assert (F0 : (0 <= Zfloor y < K)%Z). { split; [apply Zfloor_lub; exact R0|]. apply lt_IZR. eapply Rle_lt_trans; [apply Zfloor_lb|exact SH]. }
  rewrite floor_i32; [|exact FV|rewrite V; lia]. rewrite V. exists (Z.to_nat (Zfloor y + 1)). rewrite Z2Nat.id by lia. split; [reflexivity|]. split; [lia|]. split; [|now rewrite EK].
  split; [lia|]. rewrite EK. intros k Hk. assert (Ki : IZR K * / IZR K = 1) by (apply Rinv_r; lra). assert (Kp : 0 < / IZR K) by (apply Rinv_0_lt_compat; lra). split; intros H.
  - assert (L : INR k <= val w * IZR K). { apply Rmult_le_compat_r with (r := IZR K) in H; [|lra]. unfold Rdiv in H. rewrite Rmult_assoc, Rinv_l, Rmult_1_r in H by lra. exact H. }
    assert (GI : rnd (INR k) = INR k). { rewrite INR_IZR_INZ. destruct (fofZ_small (Z.of_nat k) ltac:(lia)) as [E _]. rewrite <- E. apply rnd_val. }
    apply rnd_le in L. rewrite GI in L. fold y in L. assert (Z.of_nat k <= Zfloor y)%Z; [|lia]. apply Zfloor_lub. now rewrite <- INR_IZR_INZ.
  - assert (L : INR k <= y). { apply Rle_trans with (IZR (Zfloor y)); [|apply Zfloor_lb]. rewrite INR_IZR_INZ. apply IZR_le. lia. }
    pose proof (rnd_err (val w * IZR K)) as ER. fold y in ER. rewrite (Rabs_right (val w * IZR K)) in ER by nra. apply Rabs_le_inv in ER.
    assert (E2 : ee <= uu) by (apply bpow_le; lia). assert (D2 : bpow radix2 (-52) = 2 * uu). { change 2 with (bpow radix2 1). rewrite <- bpow_plus. reflexivity. } rewrite D2. pose proof (bpow_gt_0 radix2 (-53)) as Up.
    apply (Rmult_le_reg_r (IZR K)); [lra|]. unfold Rdiv. rewrite Rmult_assoc, Rinv_l, Rmult_1_r by lra. nra.
Qed.

(** ** Coefficients *)
Definition pf : R := IZR 7074237752028440 / IZR (2 ^ 51).
Lemma fpi_val : fin fpi = true /\ val fpi = pf.
Proof.
  destruct (fofZ_small 7074237752028440 ltac:(lia)) as [V1 F1]. destruct (fofZ_small (2 ^ 51) ltac:(lia)) as [V2 F2].
  assert (G : rnd pf = pf).
  { apply rnd_generic. unfold pf. change (IZR (2 ^ 51)) with (bpow radix2 51). unfold Rdiv. rewrite <- bpow_opp. change (- (51))%Z with (-51)%Z. apply generic_format_FLT. exists (Float radix2 7074237752028440 (-51)); [reflexivity|cbn; lia|cbn; unfold femax, fprec; lia]. }
  assert (N2 : val (fofZ (2 ^ 51)) <> 0) by (rewrite V2; apply IZR_neq; discriminate).
  destruct (fdiv_fin (fofZ 7074237752028440) (fofZ (2 ^ 51)) F1 N2) as [A B]; rewrite V1, V2 in *; fold pf in *.
  - rewrite G. unfold pf. apply Rle_lt_trans with 4; [apply Rabs_le; change (IZR (2 ^ 51)) with 2251799813685248; lra|]. change 4 with (bpow radix2 2). apply bpow_lt. reflexivity.
  - rewrite G in A. auto.
Qed.
Lemma pf_bounds : 3 <= pf <= 3.2 /\ Rabs (pf - PI) <= 8 * uu.
Proof.
  split; [unfold pf; change (IZR (2 ^ 51)) with 2251799813685248; lra|]. eapply Rle_trans; [exact pi_close|]. change (/ IZR (2 ^ 50)) with (bpow radix2 (-50)). change 8 with (bpow radix2 3). rewrite <- bpow_plus. apply bpow_le. lia.
Qed.
Section C.
Variable lm : Libm.
Notation F := (FNum lm).
Lemma small_fin x B : Rabs x <= B -> B < bpow radix2 femax -> Rabs x < bpow radix2 femax. Proof. lra. Qed.
Lemma uu_tiny : 0 < uu <= / 1000000000000. Proof. pose proof uu_small. lra. Qed.
Lemma ee_tiny : 0 < ee /\ ee * 67108864 <= uu / 1000.
Proof. split; [apply bpow_gt_0|]. assert (H : ee <= uu * bpow radix2 (-40)) by (rewrite <- bpow_plus; apply bpow_le; lia). change (bpow radix2 (-40)) with (/ 1099511627776) in H. pose proof uu_tiny. lra. Qed.
Lemma big_max : 1000000000 < bpow radix2 femax. Proof. apply Rlt_trans with (bpow radix2 30); [|apply bpow_lt; reflexivity]. change (bpow radix2 30) with 1073741824. lra. Qed.
Lemma omega_near m k : (15 <= m)%nat -> (Z.of_nat m <= 2 ^ 26)%Z -> (k < m)%nat ->
  let w : F := (n0 +! (npi -! n0) /! nN (m - 1) *! nN k) in fin (w : f64) = true /\ Rabs (val w - PI * INR k / INR (m - 1)) <= 18 * uu /\ 0 <= val w <= 3.5.
Proof.
  intros Hm H26 Hk. unfold nN, n0. cbn [nadd nsub nmul ndiv nZ npi FNum]. set (w := fadd _ _).
  destruct fpi_val as [FP VP]. destruct pf_bounds as [PB PD]. pose proof uu_tiny as U. destruct ee_tiny as [Ep E26]. pose proof big_max as BM.
  destruct (fofZ_small 0 ltac:(lia)) as [V0 F0]. destruct (fofZ_small (Z.of_nat (m - 1)) ltac:(lia)) as [VK FK]. destruct (fofZ_small (Z.of_nat k) ltac:(lia)) as [Vk Fk].
  rewrite <- INR_IZR_INZ in VK, Vk. set (K := INR (m - 1)) in *. set (kk := INR k) in *.
  assert (HK : 14 <= K <= 67108864). { unfold K. rewrite INR_IZR_INZ. split; apply IZR_le; lia. } assert (Hkk : 0 <= kk <= K). { split; [apply pos_INR|]. apply le_INR. lia. }
  assert (Kp : 0 < / K) by (apply Rinv_0_lt_compat; lra). assert (Ki : K * / K = 1) by (apply Rinv_r; lra).
  (* npi - 0 *)
  assert (G0 : rnd (val fpi - val (fofZ 0)) = pf). { rewrite V0, VP, Rminus_0_r, <- VP. apply rnd_val. }
  destruct (fsub_fin fpi (fofZ 0) FP F0) as [V1 F1]; [rewrite G0; apply (small_fin _ 4); [apply Rabs_le|]; lra|]. rewrite G0 in V1. set (x1 := fsub fpi (fofZ 0)) in *.
  (* the step *)
  assert (Q1 : 0 <= pf / K <= 3.2). { unfold Rdiv. split; [nra|]. assert (pf * / K <= pf * 1); [apply Rmult_le_compat_l; [lra|]; rewrite <- Rinv_1; apply Rinv_le_contravar; lra|lra]. }
  pose proof (rnd_err (pf / K)) as E1. rewrite (Rabs_right (pf / K)) in E1 by lra. apply Rabs_le_inv in E1.
  destruct (fdiv_fin x1 (fofZ (Z.of_nat (m - 1))) F1) as [V2 F2]; [rewrite VK; lra|rewrite V1, VK; apply (small_fin _ 4); [apply Rabs_le; nra|lra]|]. rewrite V1, VK in V2. set (x2 := fdiv x1 _) in *. rewrite <- V2 in E1.
  assert (P2 : 0 <= val x2). { rewrite V2, <- rnd_0. apply rnd_le. lra. }
  (* times k *)
  assert (D2 : Rabs (val x2 * kk - pf * kk / K) <= 3.3 * uu). { replace (val x2 * kk - pf * kk / K) with ((val x2 - pf / K) * kk) by (field; lra). rewrite Rabs_mult, (Rabs_right kk) by lra. assert (A : Rabs (val x2 - pf / K) <= uu * (pf / K) + ee) by (apply Rabs_le; lra).
    assert (B : (uu * (pf / K) + ee) * K <= 3.3 * uu). { replace ((uu * (pf / K) + ee) * K) with (uu * pf + ee * K) by (field; lra). nra. } pose proof (Rabs_pos (val x2 - pf / K)). nra. }
  assert (D3 : Rabs (pf * kk / K - PI * kk / K) <= 8 * uu). { replace (pf * kk / K - PI * kk / K) with ((pf - PI) * (kk / K)) by (field; lra). rewrite Rabs_mult. assert (A : 0 <= kk / K <= 1). { unfold Rdiv. split; [nra|]. apply (Rmult_le_reg_r K); [lra|]. rewrite Rmult_assoc, Rinv_l by lra. lra. } rewrite (Rabs_right (kk / K)) by lra. pose proof (Rabs_pos (pf - PI)). nra. }
  assert (A1 : 0 <= pf * kk / K <= 3.2). { replace (pf * kk / K) with (pf * (kk * / K)) by (unfold Rdiv; ring). assert (A : 0 <= kk * / K <= 1). { split; [nra|]. apply (Rmult_le_reg_r K); [lra|]. rewrite Rmult_assoc, Rinv_l by lra. lra. } nra. }
  apply Rabs_le_inv in D2, D3. pose proof (rnd_err (val x2 * kk)) as E3. rewrite (Rabs_right (val x2 * kk)) in E3 by nra. apply Rabs_le_inv in E3.
  destruct (fmul_fin x2 (fofZ (Z.of_nat k)) F2 Fk) as [V3 F3]; [rewrite Vk; apply (small_fin _ 4); [apply Rabs_le; nra|lra]|]. rewrite Vk in V3. set (x3 := fmul x2 _) in *. rewrite <- V3 in E3.
  assert (P3 : 0 <= val x3). { rewrite V3, <- rnd_0. apply rnd_le. nra. }
  (* plus zero *)
  assert (G4 : rnd (val (fofZ 0) + val x3) = val x3) by (rewrite V0, Rplus_0_l; apply rnd_val).
  assert (X3 : val x3 <= 3.5) by nra.
  destruct (fadd_fin (fofZ 0) x3 F0 F3) as [V4 F4]; [rewrite G4; apply (small_fin _ 4); [apply Rabs_le|]; lra|]. rewrite G4 in V4.
  unfold w. rewrite V4. split; [exact F4|]. split; [|lra]. apply Rabs_le. split; nra.
Qed.
Variables (n : nat) (dl : R).
Hypotheses (Hn : (0 < n)%nat) (H20 : (Z.of_nat n <= 2 ^ 20)%Z) (Hdl : dl <= / 2) (HC : cos_near lm (4 * INR (n - 1)) dl).
Lemma dl_pos : 0 <= dl.
Proof. destruct (HC (fofZ 0)) as [_ A]; [reflexivity|rewrite (proj1 (fofZ_small 0 ltac:(lia))), Rabs_R0; pose proof (pos_INR (n - 1)); lra|]. eapply Rle_trans; [apply Rabs_pos|exact A]. Qed.
Lemma coef_near k j : (k < 15 * n)%nat -> (j < n)%nat ->
  let c : F := row_val (n0 +! (npi -! n0) /! nN (15 * n - 1) *! nN k) j in
  fin (c : f64) = true /\ Rabs (val c - (if (j =? 0)%nat then 1 else 2 * cos (PI * INR k / INR (15 * n - 1) * INR j))) <= coef_eps n dl /\ Rabs (val c) <= 4.
Proof.
  intros Hk Hj. pose proof dl_pos as D0. pose proof uu_tiny as U. destruct ee_tiny as [Ep E26]. pose proof big_max as BM. assert (N1 : 1 <= INR n <= 1048576). { rewrite INR_IZR_INZ. split; apply IZR_le; lia. }
  assert (C47 : bpow radix2 (-47) = 64 * uu). { change 64 with (bpow radix2 6). rewrite <- bpow_plus. reflexivity. }
  destruct (omega_near (15 * n) k ltac:(lia) ltac:(lia) Hk) as (Fw & Ew & Bw). set (w := (n0 +! _)) in *. unfold row_val. unfold coef_eps. rewrite C47. destruct (Nat.eqb_spec j 0) as [->|Nj].
  - cbv zeta. assert (Vc : val (n1 (N := F) : f64) = 1) by exact (proj1 (fofZ_small 1 ltac:(lia))). rewrite Vc. split; [exact (proj2 (fofZ_small 1 ltac:(lia)))|]. replace (1 - 1) with 0 by ring. rewrite Rabs_R0, (Rabs_right 1) by lra. split; nra.
  - unfold nN, n2. cbn [nmul nZ ncos FNum]. destruct (fofZ_small (Z.of_nat j) ltac:(lia)) as [Vj Fj]. rewrite <- INR_IZR_INZ in Vj. destruct (fofZ_small 2 ltac:(lia)) as [V2 F2].
    set (jj := INR j) in *. assert (Hjj : 1 <= jj <= INR (n - 1)). { split; [apply (le_INR 1); lia|apply le_INR; lia]. } assert (Hn1 : INR (n - 1) <= INR n) by (apply le_INR; lia).
    set (I := PI * INR k / INR (15 * n - 1)) in *. apply Rabs_le_inv in Ew.
    pose proof (rnd_err (val w * jj)) as E1. rewrite (Rabs_right (val w * jj)) in E1 by nra. apply Rabs_le_inv in E1.
    assert (BW : 0 <= val w * jj <= 3.5 * jj) by nra. assert (EU : uu * (val w * jj) <= 3.5 * (uu * jj)) by nra. assert (UJ : 0 < uu * jj <= / 100000) by (split; nra). assert (EJ : ee <= uu * jj) by nra.
    destruct (fmul_fin w (fofZ (Z.of_nat j)) Fw Fj) as [Va Fa]; [rewrite Vj; apply (small_fin _ 8000000); [apply Rabs_le; lra|lra]|]. rewrite Vj in Va. set (a := fmul w _) in *. rewrite <- Va in E1.
    destruct (HC a Fa) as [Fc Ec]; [apply Rabs_le; lra|]. set (c := lm_cos lm a) in *.
    pose proof (cos_lip (val a) (I * jj)) as L. assert (LA : Rabs (val a - I * jj) <= 23 * (uu * jj)). { replace (val a - I * jj) with ((val a - val w * jj) + (val w - I) * jj) by ring. apply Rabs_le. split; nra. }
    assert (L2 := Rle_trans _ _ _ L LA). apply Rabs_le_inv in L2, Ec. pose proof (COS_bound (val a)) as CB.
    assert (B2 : Rabs (2 * val c) <= 3.1) by (apply Rabs_le; lra). pose proof (rnd_err (2 * val c)) as E2. assert (UB : uu * Rabs (2 * val c) <= 3.1 * uu) by (pose proof (Rabs_pos (2 * val c)); nra). apply Rabs_le_inv in E2, B2.
    assert (UN : uu * jj <= uu * INR n) by nra. assert (U1 : uu <= uu * INR n) by nra.
    destruct (fmul_fin (fofZ 2) c F2 Fc) as [Vd Fd]; [rewrite V2; apply (small_fin _ 4); [apply Rabs_le; lra|lra]|]. rewrite V2 in Vd. cbv zeta. rewrite Vd. split; [exact Fd|]. split; apply Rabs_le; [split; nra|split; lra].
Qed.
End C.
