(** The cosine of [lm0] is good to 1/1000 on [-4, 4]. *)
From Coq Require Import ZArith Reals Lra Lia Psatz.
From Flocq Require Import Core IEEE754.BinarySingleNaN.
From Verif Require Import Num FloatLemmas FloatErr.
Local Open Scope R_scope.

Lemma sin_le_abs x : Rabs (sin x) <= Rabs x.
Proof.
  assert (P : forall x, 0 <= x -> Rabs (sin x) <= x).
  { intros y Hy. destruct (Req_dec y 0) as [->|N]; [rewrite sin_0, Rabs_R0; lra|]. apply Rabs_le. split; [|left; apply sin_lt_x; lra].
    destruct (Rle_lt_dec y 1) as [L|L]; [pose proof (sin_ge_0 y Hy); pose proof PI2_1; assert (0 <= sin y) by (apply H; lra); lra|]. pose proof (SIN_bound y). lra. }
  destruct (Rle_lt_dec 0 x) as [H|H]; [rewrite (Rabs_right x) by lra; now apply P|]. rewrite <- Rabs_Ropp, <- sin_neg, (Rabs_left x) by lra. apply P. lra.
Qed.
Lemma cos_lip x y : Rabs (cos x - cos y) <= Rabs (x - y).
Proof.
  rewrite form2, !Rabs_mult. rewrite (Rabs_left (-2)) by lra. pose proof (sin_le_abs ((x - y) / 2)) as A. pose proof (SIN_bound ((x + y) / 2)) as B.
  assert (C : Rabs (sin ((x + y) / 2)) <= 1) by (apply Rabs_le; lra). unfold Rdiv in A at 2. rewrite Rabs_mult, (Rabs_right (/ 2)) in A by lra.
  pose proof (Rabs_pos (sin ((x - y) / 2))). pose proof (Rabs_pos (x - y)). nra.
Qed.
Definition taylor (a : R) : R := 1 - a ^ 2 / 2 + a ^ 4 / 24 - a ^ 6 / 720 + a ^ 8 / 40320 - a ^ 10 / 3628800.
Lemma fact_next n : INR (fact (S n)) = (INR n + 1) * INR (fact n).
Proof. change (fact (S n)) with (S n * fact n)%nat. rewrite mult_INR, S_INR. ring. Qed.
Lemma facts : INR (fact 2) = 2 /\ INR (fact 4) = 24 /\ INR (fact 6) = 720 /\ INR (fact 8) = 40320 /\ INR (fact 10) = 3628800 /\ INR (fact 12) = 479001600.
Proof. rewrite !fact_next. change (INR (fact 0)) with 1. cbn [INR]. repeat split; ring. Qed.
Lemma taylor_ok a : -2 <= a <= 2 -> taylor a <= cos a <= taylor a + / 100000.
Proof.
  intros H. destruct (pre_cos_bound a 2 ltac:(lra) ltac:(lra)) as [A B]. destruct facts as (F2 & F4 & F6 & F8 & F10 & F12).
  change (2 * 2 + 1)%nat with 5%nat in A. change (2 * (2 + 1))%nat with 6%nat in B.
  assert (E5 : cos_approx a 5 = taylor a).
  { unfold cos_approx, taylor. rewrite !tech5. unfold cos_term. cbn [sum_f_R0]. change (2 * 0)%nat with 0%nat. change (2 * 1)%nat with 2%nat. change (2 * 2)%nat with 4%nat. change (2 * 3)%nat with 6%nat. change (2 * 4)%nat with 8%nat. change (2 * 5)%nat with 10%nat.
    rewrite F2, F4, F6, F8, F10. change (INR (fact 0)) with 1. field. }
  rewrite E5 in A.
  assert (E6 : cos_approx a 6 = taylor a + a ^ 12 / 479001600). { rewrite <- E5. unfold cos_approx. rewrite (tech5 _ 5). f_equal. unfold cos_term. change (2 * 6)%nat with 12%nat. rewrite F12. replace ((-1) ^ 6) with 1 by ring. ring. }
  rewrite E6 in B. split; [exact A|]. eapply Rle_trans; [exact B|]. apply Rplus_le_compat_l.
  assert (P : 0 <= a ^ 2 <= 4) by nra. replace (a ^ 12) with ((a ^ 2) ^ 6) by ring. assert (Q : (a ^ 2) ^ 6 <= 4 ^ 6) by (apply pow_incr; lra). lra.
Qed.
#[local] Opaque fadd fsub fmul fdiv fsqrt fofZ.
Lemma uu_small : uu <= / 1000000000000 /\ 0 < uu. Proof. split; [|apply bpow_gt_0]. assert (H : bpow radix2 (-53) <= bpow radix2 (-40)) by (apply bpow_le; lia). change (bpow radix2 (-40)) with (/ 1099511627776) in H. lra. Qed.
Lemma ee_small : ee <= / 1000000000000 /\ 0 < ee. Proof. split; [|apply bpow_gt_0]. assert (H : bpow radix2 (-1075) <= bpow radix2 (-40)) by (apply bpow_le; lia). change (bpow radix2 (-40)) with (/ 1099511627776) in H. lra. Qed.
Lemma ftrunc_val (x : f64) : fin x = true -> ftrunc x = Ztrunc (val x).
Proof.
  intros H. assert (E : ftrunc x = Btrunc x) by (destruct x; try reflexivity; discriminate). rewrite E. apply eq_IZR. rewrite (Btrunc_correct fprec femax fprec_lt_emax x).
  unfold round, F2R, scaled_mantissa, cexp, FIX_exp. cbn [Fnum Fexp Z.opp bpow]. now rewrite !Rmult_1_r.
Qed.
Lemma half_arg (x : f64) : fin x = true -> Rabs (val x) <= 4 -> let v := ftrunc (fmul x (fofZ (2 ^ 20))) in (Z.abs v <= 2 ^ 22)%Z /\ Rabs (IZR v / 1048576 - val x) <= / 100000.
Proof.
  intros Fx Bx v. destruct (fofZ_small (2 ^ 20) ltac:(cbn; lia)) as [V20 F20]. pose proof uu_small as U. pose proof ee_small as E.
  change (2 ^ 20)%Z with 1048576%Z in V20, F20, v. apply Rabs_le_inv in Bx.
  assert (B0 : Rabs (rnd (val x * val (fofZ 1048576))) <= 4194304).
  { rewrite V20. apply Rabs_le. assert (G : generic_format radix2 fexp64 4194304) by exact (bpow_generic 22 ltac:(lia)). rewrite <- (rnd_generic 4194304 G) at 2. assert (G2 : generic_format radix2 fexp64 (- 4194304)) by now apply generic_format_opp. rewrite <- (rnd_generic (-4194304) G2) at 1. split; apply rnd_le; lra. }
  destruct (fmul_fin x (fofZ 1048576) Fx F20) as [W FW]. { eapply Rle_lt_trans; [exact B0|]. change 4194304 with (bpow radix2 22). apply bpow_lt. reflexivity. }
  pose proof (rnd_err (val x * val (fofZ 1048576))) as ER. rewrite V20 in ER.
  assert (EV : v = Ztrunc (rnd (val x * 1048576))). { unfold v. rewrite ftrunc_val by exact FW. now rewrite W, V20. }
  rewrite V20 in B0. set (r := rnd (val x * 1048576)) in *.
  assert (T : Rabs (IZR v - r) <= 1 /\ Rabs (IZR v) <= Rabs r).
  { rewrite EV. destruct (Rle_lt_dec 0 r) as [P|P].
    - rewrite Ztrunc_floor by exact P. pose proof (Zfloor_lb r). pose proof (Zfloor_ub r). assert (0 <= IZR (Zfloor r)). { apply IZR_le. apply Zfloor_lub. exact P. } split; [apply Rabs_le; lra|]. rewrite !Rabs_right by lra. lra.
    - rewrite Ztrunc_ceil by lra. pose proof (Zceil_ub r). assert (IZR (Zceil r) < r + 1). { unfold Zceil. rewrite opp_IZR. pose proof (Zfloor_ub (- r)). lra. } assert (IZR (Zceil r) <= 0). { apply IZR_le. apply Zceil_glb. lra. } split; [apply Rabs_le; lra|]. rewrite !Rabs_left1 by lra. lra. }
  destruct T as [T1 T2]. split.
  - apply le_IZR. rewrite abs_IZR. change (IZR (2 ^ 22)) with 4194304. lra.
  - apply Rabs_le_inv in T1. assert (Bp : Rabs (val x * 1048576) <= 4194304) by (apply Rabs_le; lra). apply Rabs_le_inv in ER. assert (uu * Rabs (val x * 1048576) <= / 1000). { pose proof (Rabs_pos (val x * 1048576)). nra. }
    apply Rabs_le. lra.
Qed.
Lemma fcos_near (x : f64) : fin x = true -> Rabs (val x) <= 4 -> fin (fcos x) = true /\ Rabs (val (fcos x) - cos (val x)) <= / 1000.
Proof.
  intros Fx Bx. destruct (half_arg x Fx Bx) as [HV HA]. unfold fcos. set (v := ftrunc _) in *. clearbody v. cbv zeta. set (y := (v * v)%Z). set (d := (2 ^ 42)%Z).
  set (q := (3628800 * d ^ 5)%Z). set (p := (q - _ + _ - _ + _ - _)%Z). set (r := ((2 * p * p - q * q) * 2 ^ 40 / (q * q))%Z).
  set (a := IZR v / 2097152). assert (Ha : -2 <= a <= 2). { apply Z.abs_le in HV. destruct HV as [H1 H2]. apply IZR_le in H1, H2. change (2 ^ 22)%Z with 4194304%Z in *. rewrite opp_IZR in H1. unfold a. lra. }
  assert (Qp : 0 < IZR q) by (apply IZR_lt; reflexivity).
  assert (PQ : IZR p = taylor a * IZR q).
  { unfold p, q, y. rewrite ?plus_IZR, ?minus_IZR, ?plus_IZR, ?minus_IZR, ?plus_IZR, ?minus_IZR, ?mult_IZR. assert (Ed : IZR d = 2097152 ^ 2) by (rewrite pow_IZR; reflexivity).
    replace (IZR (d ^ 5)) with (IZR d ^ 5) by (rewrite pow_IZR; reflexivity). replace (IZR (d ^ 4)) with (IZR d ^ 4) by (rewrite pow_IZR; reflexivity). replace (IZR (d ^ 3)) with (IZR d ^ 3) by (rewrite pow_IZR; reflexivity). replace (IZR (d ^ 2)) with (IZR d ^ 2) by (rewrite pow_IZR; reflexivity).
    replace (IZR ((v * v) ^ 2)) with ((IZR v * IZR v) ^ 2) by (rewrite <- mult_IZR, pow_IZR; reflexivity). replace (IZR ((v * v) ^ 3)) with ((IZR v * IZR v) ^ 3) by (rewrite <- mult_IZR, pow_IZR; reflexivity).
    replace (IZR ((v * v) ^ 4)) with ((IZR v * IZR v) ^ 4) by (rewrite <- mult_IZR, pow_IZR; reflexivity). replace (IZR ((v * v) ^ 5)) with ((IZR v * IZR v) ^ 5) by (rewrite <- mult_IZR, pow_IZR; reflexivity).
    rewrite Ed. unfold taylor, a. field. }
  destruct (taylor_ok a Ha) as [T1 T2]. set (c := taylor a) in *. pose proof (COS_bound a) as CB.
  assert (DB : cos (2 * a) = 2 * cos a * cos a - 1) by apply cos_2a_cos.
  assert (C2 : Rabs (2 * c * c - 1 - cos (2 * a)) <= / 10000). { rewrite DB. apply Rabs_le. split; nra. }
  assert (RR : Rabs (IZR r / IZR (2 ^ 40) - (2 * c * c - 1)) <= / 10000).
  { assert (QQ : (0 < q * q)%Z) by reflexivity. pose proof (Z.div_mod ((2 * p * p - q * q) * 2 ^ 40) (q * q) ltac:(lia)) as DM. pose proof (Z.mod_pos_bound ((2 * p * p - q * q) * 2 ^ 40) (q * q) QQ) as [M1 M2]. fold r in DM. set (m := (_ mod _)%Z) in *.
    assert (E : (2 * IZR p * IZR p - IZR q * IZR q) * IZR (2 ^ 40) = IZR q * IZR q * IZR r + IZR m). { rewrite <- !mult_IZR, <- minus_IZR, <- !mult_IZR, <- plus_IZR. f_equal. exact DM. }
    apply IZR_le in M1. apply IZR_lt in M2. rewrite mult_IZR in M2. rewrite PQ in E. set (Q := IZR q) in *. set (t := IZR (2 ^ 40)) in *. assert (Ht : 1000000 <= t) by (apply IZR_le; discriminate).
    assert (E2 : IZR r = (2 * c * c - 1) * t - IZR m / (Q * Q)). { apply (Rmult_eq_reg_l (Q * Q)); [|nra]. replace (Q * Q * ((2 * c * c - 1) * t - IZR m / (Q * Q))) with ((2 * (c * Q) * (c * Q) - Q * Q) * t - IZR m) by (field; lra). lra. }
    assert (Hm : 0 <= IZR m / (Q * Q) <= 1). { split; [apply Rmult_le_pos; [lra|]; left; apply Rinv_0_lt_compat; nra|]. apply (Rmult_le_reg_r (Q * Q)); [nra|]. unfold Rdiv. rewrite Rmult_assoc, Rinv_l by nra. lra. }
    rewrite E2. replace (((2 * c * c - 1) * t - IZR m / (Q * Q)) / t - (2 * c * c - 1)) with (- (IZR m / (Q * Q) * / t)) by (field; split; lra). rewrite Rabs_Ropp, Rabs_right. 2: { apply Rle_ge. apply Rmult_le_pos; [lra|]. left. apply Rinv_0_lt_compat. lra. }
    assert (I : 0 < / t <= / 1000000). { split; [apply Rinv_0_lt_compat; lra|]. apply Rinv_le_contravar; lra. } nra. }
  apply Rabs_le_inv in RR, C2. assert (C3 : -1 <= cos (2 * a) <= 1) by apply COS_bound. set (z := IZR r / IZR (2 ^ 40)) in *. assert (Bz : Rabs z <= 2) by (apply Rabs_le; lra).
  assert (Br : (Z.abs r <= 2 ^ 53)%Z). { apply le_IZR. rewrite abs_IZR. replace (IZR r) with (z * IZR (2 ^ 40)) by (unfold z; field; apply IZR_neq; discriminate). rewrite Rabs_mult. change (Rabs (IZR (2 ^ 40))) with (Rabs 1099511627776). rewrite (Rabs_right 1099511627776) by lra. change (IZR (2 ^ 53)) with 9007199254740992. lra. }
  destruct (fofZ_small r Br) as [VR FR]. destruct (fofZ_small (2 ^ 40) ltac:(cbn; lia)) as [V40 F40].
  pose proof uu_small as U. pose proof ee_small as E. pose proof (rnd_err z) as ER. assert (UZ : uu * Rabs z <= / 100000) by (pose proof (Rabs_pos z); nra). apply Rabs_le_inv in ER, Bz.
  destruct (fdiv_fin (fofZ r) (fofZ (2 ^ 40)) FR) as [W FW]. { rewrite V40. apply IZR_neq. discriminate. } { rewrite VR, V40. fold z. apply Rle_lt_trans with 4; [apply Rabs_le; lra|]. change 4 with (bpow radix2 2). apply bpow_lt. reflexivity. }
  rewrite W, VR, V40. fold z. split; [exact FW|].
  pose proof (cos_lip (2 * a) (val x)) as L. assert (LA : Rabs (2 * a - val x) <= / 100000). { replace (2 * a) with (IZR v / 1048576) by (unfold a; field). exact HA. }
  assert (L2 := Rle_trans _ _ _ L LA). apply Rabs_le_inv in L2. apply Rabs_le. lra.
Qed.
