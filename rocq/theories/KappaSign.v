(** Kappa never turns negative in binary64 (C91). *)
From Coq Require Import ZArith Reals Lra Lia Bool Psatz List Arith.
From Flocq Require Import Core IEEE754.BinarySingleNaN.
From Verif Require Import Num Res Arr CuttingPlane EllCalc Ell EllRun RunProofs FloatLemmas FloatSign KappaSpec.
Local Open Scope R_scope.

Section K.
Variable lm : Libm.
Notation F := (FNum lm).

Lemma int_plus n : (Z.of_nat n <= 2 ^ 53)%Z -> val (nN (N := F) n : f64) = INR n /\ fin (nN (N := F) n : f64) = true /\ clear (nN (N := F) n : f64).
Proof.
  intros H. destruct (fofZ_small (Z.of_nat n)) as [E1 E2]; [lia|]. split; [rewrite INR_IZR_INZ; exact E1|]. split; [exact E2|].
  unfold nN. cbn. destruct n as [|n]; [reflexivity|]. apply val_plus. rewrite E1. apply IZR_lt. lia.
Qed.
Lemma one_val : val (fofZ 1) = 1 /\ fin (fofZ 1) = true /\ clear (fofZ 1).
Proof. destruct (fofZ_small 1) as [E1 E2]; [lia|]. split; [exact E1|]. split; [exact E2|reflexivity]. Qed.
Lemma two_val : val (fofZ 2) = 2 /\ fin (fofZ 2) = true /\ clear (fofZ 2).
Proof. destruct (fofZ_small 2) as [E1 E2]; [lia|]. split; [exact E1|]. split; [exact E2|reflexivity]. Qed.
Lemma rnd_int z : (Z.abs z <= 2 ^ 53)%Z -> rnd (IZR z) = IZR z.
Proof. intros H. destruct (fofZ_small z H) as [E _]. rewrite <- E. apply rnd_val. Qed.
Lemma lt_max x k : (k <= 1023)%Z -> 0 <= x <= bpow radix2 k -> Rabs (rnd x) < bpow radix2 femax.
Proof.
  intros Hk [H1 H2]. assert (0 <= rnd x) by (rewrite <- rnd_0; apply rnd_le; exact H1). rewrite Rabs_pos_eq by assumption.
  apply Rle_lt_trans with (bpow radix2 (Z.max k (-1074))).
  - rewrite <- (rnd_generic (bpow radix2 (Z.max k (-1074)))) by (apply bpow_generic; lia). apply rnd_le. apply Rle_trans with (1 := H2). apply bpow_le. lia.
  - apply bpow_lt. unfold femax. lia.
Qed.

(** what the proofs need of the tables *)
Record good (c : EllCalcCore F) : Prop := mkGood {
  g_n : clear (c_n_f c : f64); g_n1 : clear (c_n_plus_1 c : f64); g_half : clear (c_half_n c : f64);
  g_cst1 : clear (c_cst1 c : f64); g_cst2 : clear (c_cst2 c : f64);
  g_halfv : fin (c_half_n c : f64) = true /\ 1 <= val (c_half_n c : f64);
  g_invv : fin (c_inv_n c : f64) = true /\ 0 <= val (c_inv_n c : f64) <= / 2 }.
Lemma core_good n : (2 <= n)%nat -> (Z.of_nat n <= 2 ^ 53)%Z -> good (core_new (N := F) (nN n)).
Proof.
  intros Hn Hz. destruct (int_plus n Hz) as (E & Ff & P). destruct one_val as (O1 & O2 & O3). destruct two_val as (T1 & T2 & T3).
  set (nf := nN (N := F) n : f64) in *.
  assert (Hn2 : 2 <= INR n) by (apply (le_INR 2) in Hn; exact Hn).
  assert (Hn53 : INR n <= bpow radix2 53) by (rewrite INR_IZR_INZ; apply IZR_le; exact Hz).
  assert (Hh : val (fdiv nf (fofZ 2)) = rnd (INR n / 2) /\ fin (fdiv nf (fofZ 2)) = true).
  { rewrite <- E, <- T1. apply fdiv_fin; [exact Ff|rewrite T1; lra|]. rewrite E, T1. apply (lt_max _ 53); [lia|]. lra. }
  assert (Hi : val (fdiv (fofZ 1) nf) = rnd (1 / INR n) /\ fin (fdiv (fofZ 1) nf) = true).
  { rewrite <- E, <- O1. apply fdiv_fin; [exact O2|rewrite E; lra|]. rewrite E, O1. apply (lt_max _ 0); [lia|].
    unfold Rdiv. rewrite Rmult_1_l. change (bpow radix2 0) with 1. split; [left; apply Rinv_0_lt_compat; lra|]. rewrite <- Rinv_1. apply Rinv_le_contravar; lra. }
  assert (Hsq : val (fmul nf nf) = rnd (INR n * INR n) /\ fin (fmul nf nf) = true).
  { rewrite <- E. apply fmul_fin; auto. rewrite E. apply (lt_max _ 106); [lia|]. change 106%Z with (53 + 53)%Z. rewrite bpow_plus. nra. }
  assert (H1 : 1 <= rnd (INR n * INR n)) by (rewrite <- (rnd_int 1) by lia; apply rnd_le; nra).
  constructor; unfold core_new; cbn [c_n_f c_n_plus_1 c_half_n c_cst1 c_cst2 c_inv_n].
  - exact P.
  - apply add_plus; [exact P|exact O3].
  - apply div_plus; [exact P|exact T3].
  - apply div_plus; [apply mul_plus; exact P|]. apply sub_plus; [apply mul_plus; exact P|apply Hsq|exact O2|]. change (val (fofZ 1) <= val (fmul nf nf)). destruct Hsq as [-> _]. rewrite O1. exact H1.
  - apply mul_plus; [exact T3|]. apply div_plus; [exact O3|]. apply add_plus; [exact P|exact O3].
  - split; [apply Hh|]. change (1 <= val (fdiv nf (fofZ 2))). destruct Hh as [-> _]. rewrite <- (rnd_int 1) at 1 by lia. apply rnd_le. lra.
  - split; [apply Hi|]. change (0 <= val (fdiv (fofZ 1) nf) <= / 2). destruct Hi as [-> _]. unfold Rdiv. rewrite Rmult_1_l. split.
    + rewrite <- rnd_0. apply rnd_le. left. apply Rinv_0_lt_compat. lra.
    + assert (G : rnd (/ 2) = / 2) by (change (/ 2) with (bpow radix2 (-1)); apply rnd_generic, bpow_generic; lia). rewrite <- G. apply rnd_le. apply Rinv_le_contravar; lra.
Qed.

Definition clear3 (r : f64 * f64 * f64) : Prop := let '(rho, sigma, delta) := r in clear rho /\ clear sigma /\ clear delta.
Lemma z3_clear : clear3 (z3 (N := F)).
Proof. repeat split. Qed.

Lemma nan_of_nan (x : f64) : is_nan x = true -> x = B754_nan.
Proof. destruct x; try discriminate; reflexivity. Qed.

(** *** single cuts *)
Lemma root_clear (t : f64) : not_tiny t -> clear (fsqrt t).
Proof.
  intros H. destruct t as [s|s| |s m e Hb].
  - exfalso. destruct (H eq_refl) as [A|A]; cbn in A; [lra|]. pose proof (bpow_gt_0 radix2 (-1000)). cbn in H0. lra.
  - destruct s; reflexivity.
  - reflexivity.
  - destruct s; [reflexivity|]. apply sqrt_plus. reflexivity.
Qed.
Lemma alpha_clear (b t : f64) : clear b -> not_tiny t -> Bltb t (fmul b b) = false ->
  clear (fsub (fofZ 1) (fmul (fdiv b (fsqrt t)) (fdiv b (fsqrt t)))).
Proof.
  intros Pb Ht H. destruct one_val as (O1 & O2 & O3).
  destruct (is_finite t) eqn:Ft.
  - destruct (is_finite b) eqn:Fb.
    2:{ destruct b as [s|s| |s m e Hb]; try discriminate Fb.
        - exfalso. cbn in Pb. unfold clear in Pb. cbn in Pb. subst. destruct t as [s|s| |s m e Hb]; try discriminate Ft; discriminate H.
        - destruct (fsqrt t); reflexivity. }
    assert (Fbb : fin (fmul b b) = true).
    { destruct (fmul b b) as [s|s| |s m e Hb] eqn:E; auto.
      - exfalso. assert (P : clear (fmul b b)) by (apply mul_plus; exact Pb). rewrite E in P. unfold clear in P. cbn in P. subst. destruct t as [s|s| |s m e Hb]; try discriminate Ft; discriminate H.
      - exfalso. generalize (Bmult_correct fprec femax fprec_gt_0 fprec_lt_emax mode_NE b b). change (Bmult mode_NE b b) with (fmul b b). rewrite E. case Rlt_bool; intros K; [|discriminate K].
        destruct K as (_ & K & _). rewrite Fb in K. discriminate K. }
    assert (Vbb : val (fmul b b) = rnd (val b * val b)).
    { generalize (Bmult_correct fprec femax fprec_gt_0 fprec_lt_emax mode_NE b b). change (Bmult mode_NE b b) with (fmul b b). case Rlt_bool; intros K; [apply K|].
      destruct (fmul b b); try discriminate Fbb; discriminate K. }
    rewrite (fltb_fin t (fmul b b) Ft Fbb) in H. destruct (Rlt_bool_spec (val t) (val (fmul b b))) as [?|L]; [discriminate|]. clear H. rewrite Vbb in L.
    pose proof (plus_val b Pb) as Vb. assert (B0 : 0 <= rnd (val b * val b)) by (rewrite <- rnd_0; apply rnd_le; nra).
    destruct (Ht Ft) as [Hneg|Hbig]; [lra|].
    pose proof (sqrt_square_up (val b) (val t) (val_generic b) (val_generic t) Vb Hbig L) as S.
    generalize (Bsqrt_correct fprec femax fprec_gt_0 fprec_lt_emax mode_NE t). change (Bsqrt mode_NE t) with (fsqrt t). intros (V & Fs & _).
    change (val (fsqrt t) = rnd (sqrt (val t))) in V. rewrite <- V in S. pose proof (bpow_gt_0 radix2 (-1000)) as Hp.
    assert (Hs : 0 < val (fsqrt t)).
    { destruct (Rle_lt_or_eq_dec 0 (val b) Vb) as [?|Ez]; [lra|]. rewrite V. apply Rlt_le_trans with (bpow radix2 (-500)); [apply bpow_gt_0|].
      rewrite <- (rnd_generic (bpow radix2 (-500))) by (apply bpow_generic; lia). apply rnd_le. rewrite <- (sqrt_square (bpow radix2 (-500))) by apply bpow_ge_0. rewrite <- bpow_plus. apply sqrt_le_1_alt. exact Hbig. }
    assert (Q : 0 <= val b / val (fsqrt t) <= 1).
    { split; [unfold Rdiv; apply Rmult_le_pos; [exact Vb|left; apply Rinv_0_lt_compat; exact Hs]|]. apply Rmult_le_reg_r with (1 := Hs). unfold Rdiv. rewrite Rmult_assoc, Rinv_l by lra. lra. }
    destruct (fdiv_fin b (fsqrt t) Fb) as [VA FA]; [lra|apply (lt_max _ 0); [lia|exact Q]|].
    assert (QA : 0 <= val (fdiv b (fsqrt t)) <= 1).
    { rewrite VA. split; [rewrite <- rnd_0; apply rnd_le, Q|]. rewrite <- (rnd_int 1) by lia. apply rnd_le, Q. }
    set (al := fdiv b (fsqrt t)) in *.
    assert (QB : 0 <= val al * val al <= 1) by nra.
    destruct (fmul_fin al al FA FA) as [VB FB]; [apply (lt_max _ 0); [lia|exact QB]|].
    apply sub_plus; auto. rewrite VB, O1. rewrite <- (rnd_int 1) by lia. apply rnd_le, QB.
  - destruct t as [s|s| |s m e Hb]; try discriminate Ft.
    + destruct s.
      * change (fsqrt (B754_infinity true)) with (B754_nan : f64). destruct b; reflexivity.
      * change (fsqrt (B754_infinity false)) with (B754_infinity false : f64). destruct b as [s|s| |s m e Hb]; try reflexivity; unfold clear in Pb; cbn in Pb; subst; apply sub_plus; auto; rewrite O1; cbn; lra.
    + change (fsqrt B754_nan) with (B754_nan : f64). destruct b; reflexivity.
Qed.
Lemma square_clear (z : f64) : clear (fmul z z).
Proof.
  generalize (Bmult_correct fprec femax fprec_gt_0 fprec_lt_emax mode_NE z z). change (Bmult mode_NE z z) with (fmul z z).
  case Rlt_bool; intros K.
  - destruct K as (_ & _ & K). destruct (is_nan (fmul z z)) eqn:E; [apply nan_of_nan in E; rewrite E; reflexivity|]. unfold clear. rewrite (K eq_refl). apply xorb_nilpotent.
  - apply overflow_sign in K. unfold clear. rewrite K. apply xorb_nilpotent.
Qed.
(** *** parallel cuts *)
Lemma mul_not_nan (b : f64) : is_nan b = false -> is_nan (fmul b b) = false.
Proof.
  destruct b as [s|s| |s m e Hb]; intros H; try discriminate H; try reflexivity.
  generalize (Bmult_correct fprec femax fprec_gt_0 fprec_lt_emax mode_NE (B754_finite s m e Hb) (B754_finite s m e Hb)).
  change (Bmult mode_NE ?x ?y) with (fmul x y). destruct (fmul (B754_finite s m e Hb) (B754_finite s m e Hb)); auto.
  case Rlt_bool; intros K; [destruct K as (_ & K & _); discriminate K|discriminate K].
Qed.
Lemma leb_clear (t y : f64) : clear y -> is_nan y = false -> Bleb t y = false -> clear t.
Proof.
  intros Py Hn H. destruct t as [s|s| |s m e Hb]; destruct y as [s'|s'| |s' m' e' Hb']; try discriminate Hn; unfold clear in *; cbn in Py; subst; auto; try (destruct s; auto; discriminate H); try discriminate H.
Qed.
Lemma leb_square (b0 b1 t : f64) : clear b0 -> Bltb (fofZ 0) b1 = true -> Bltb b1 b0 = false -> Bleb t (fmul b1 b1) = false -> Bleb t (fmul b0 b0) = false.
Proof.
  intros P0 P1 H01 H. 
  assert (C1 : clear b1 /\ is_nan b1 = false) by (destruct b1 as [s|s| |s m e Hb]; try (destruct s); try discriminate P1; split; reflexivity).
  destruct C1 as [C1 N1].
  destruct (is_nan t) eqn:Nt; [apply nan_of_nan in Nt; subst; destruct (fmul b0 b0); reflexivity|].
  destruct (is_nan b0) eqn:N0; [apply nan_of_nan in N0; subst; destruct t; reflexivity|].
  assert (F1 : fin (fmul b1 b1) = true).
  { pose proof (mul_not_nan b1 N1) as M. assert (P : clear (fmul b1 b1)) by (apply mul_plus; exact C1). destruct (fmul b1 b1) as [s|s| |s m e Hb]; auto; try discriminate M.
    unfold clear in P. cbn in P. subst. exfalso. destruct t as [s|s| |s m e Hb]; try (destruct s); try discriminate Nt; discriminate H. }
  assert (G1 : fin b1 = true).
  { destruct b1 as [s|s| |s m e Hb]; auto; try discriminate N1; discriminate F1. }
  assert (G0 : fin b0 = true).
  { destruct b0 as [s|s| |s m e Hb]; auto; try discriminate N0. unfold clear in P0. cbn in P0. subst. destruct b1 as [s|s| |s m e Hb]; try discriminate G1; discriminate H01. }
  rewrite (fltb_fin b1 b0 G1 G0) in H01. destruct (Rlt_bool_spec (val b1) (val b0)) as [?|L]; [discriminate|].
  pose proof (plus_val b0 P0) as V0.
  assert (V1 : val (fmul b1 b1) = rnd (val b1 * val b1)).
  { generalize (Bmult_correct fprec femax fprec_gt_0 fprec_lt_emax mode_NE b1 b1). change (Bmult mode_NE b1 b1) with (fmul b1 b1). case Rlt_bool; intros K; [apply K|].
    destruct (fmul b1 b1); try discriminate F1; discriminate K. }
  assert (LL : rnd (val b0 * val b0) <= rnd (val b1 * val b1)) by (apply rnd_le; nra).
  assert (Z0 : 0 <= rnd (val b0 * val b0)) by (rewrite <- rnd_0; apply rnd_le; nra).
  destruct (fmul_fin b0 b0 G0 G0) as [V0' F0'].
  { rewrite Rabs_pos_eq by exact Z0. apply Rle_lt_trans with (1 := LL). rewrite <- V1. apply Rle_lt_trans with (2 := val_bound (fmul b1 b1)). apply Rle_abs. }
  destruct (is_finite t) eqn:Ft.
  - rewrite (fleb_fin t _ Ft F1) in H. rewrite (fleb_fin t _ Ft F0'). destruct (Rle_bool_spec (val t) (val (fmul b1 b1))) as [?|L2]; [discriminate|].
    apply Rle_bool_false. rewrite V0'. rewrite V1 in L2. lra.
  - destruct t as [s|s| |s m e Hb]; try discriminate Ft; try discriminate Nt. destruct s.
    + exfalso. destruct (fmul b1 b1) as [s|s| |s m e Hb]; try discriminate F1; discriminate H.
    + destruct (fmul b0 b0) as [s|s| |s m e Hb]; try discriminate F0'; reflexivity.
Qed.
Lemma half_val : fin (fofZ 1) = true /\ bpow radix2 (-1) = / 2.
Proof. split; [apply one_val|reflexivity]. Qed.

(** the root of the parallel central cut stays above 1/n *)
Lemma central_root (hn inv b t : f64) : fin hn = true /\ 1 <= val hn -> fin inv = true /\ 0 <= val inv <= / 2 -> clear b -> Bleb t (fmul b b) = false ->
  let a := fdiv (fmul b b) t in let hv := fmul hn a in
  let root := fadd hv (fsqrt (fadd (fsub (fofZ 1) a) (fmul hv hv))) in
  clear root /\ clear (fsub root inv).
Proof.
  intros [Fh Vh] [Fi Vi] Pb H. cbv zeta. destruct one_val as (O1 & O2 & O3).
  assert (Ph : clear hn) by (apply val_plus; lra).
  destruct (is_nan b) eqn:Nb.
  { apply nan_of_nan in Nb. subst. replace (fdiv (fmul B754_nan B754_nan) t) with (B754_nan : f64) by (destruct t; reflexivity).
    replace (fmul hn B754_nan) with (B754_nan : f64) by (destruct hn; reflexivity). split; reflexivity. }
  pose proof (mul_not_nan b Nb) as Nbb. assert (Pbb : clear (fmul b b)) by (apply mul_plus; exact Pb).
  pose proof (leb_clear t (fmul b b) Pbb Nbb H) as Pt.
  destruct (is_nan t) eqn:Nt.
  { apply nan_of_nan in Nt. subst. replace (fdiv (fmul b b) B754_nan) with (B754_nan : f64) by (destruct (fmul b b); reflexivity).
    replace (fmul hn B754_nan) with (B754_nan : f64) by (destruct hn; reflexivity). split; reflexivity. }
  (* the quotient lies in [0, 1] *)
  assert (Fbb : fin (fmul b b) = true).
  { destruct (fmul b b) as [s|s| |s m e Hb]; auto; try discriminate Nbb. unfold clear in Pbb. cbn in Pbb. subst. exfalso. destruct t as [s|s| |s m e Hb]; try (destruct s); try discriminate Nt; discriminate H. }
  assert (Q : fin (fdiv (fmul b b) t) = true /\ 0 <= val (fdiv (fmul b b) t) <= 1).
  { pose proof (plus_val _ Pbb) as V0. destruct (is_finite t) eqn:Ft.
    - rewrite (fleb_fin t _ Ft Fbb) in H. destruct (Rle_bool_spec (val t) (val (fmul b b))) as [?|L]; [discriminate|].
      assert (K : 0 <= val (fmul b b) / val t <= 1).
      { split; [unfold Rdiv; apply Rmult_le_pos; [exact V0|left; apply Rinv_0_lt_compat; lra]|]. apply Rmult_le_reg_r with (val t); [lra|]. unfold Rdiv. rewrite Rmult_assoc, Rinv_l by lra. lra. }
      destruct (fdiv_fin (fmul b b) t Fbb) as [VA FA]; [lra|apply (lt_max _ 0); [lia|exact K]|]. split; [exact FA|]. rewrite VA. split; [rewrite <- rnd_0; apply rnd_le, K|]. rewrite <- (rnd_int 1) by lia. apply rnd_le, K.
    - destruct t as [s|s| |s m e Hb]; try discriminate Ft; try discriminate Nt. destruct (fmul b b) as [s'|s'| |s' m' e' Hb']; try discriminate Fbb; (split; [reflexivity|cbn; lra]). }
  destruct Q as [Fa Va]. assert (Pa : clear (fdiv (fmul b b) t)) by (apply div_plus; [exact Pbb|exact Pt]). set (a := fdiv (fmul b b) t) in *. clearbody a. clear H Pt Nt Pbb Nbb Fbb.
  assert (Pv : clear (fmul hn a)) by (apply mul_plus; [exact Ph|exact Pa]).
  assert (P1a : clear (fsub (fofZ 1) a)) by (apply sub_plus; auto; rewrite O1; lra).
  assert (Pq : clear (fadd (fsub (fofZ 1) a) (fmul (fmul hn a) (fmul hn a)))) by (apply add_plus; [exact P1a|apply mul_plus; exact Pv]).
  assert (Pr : clear (fadd (fmul hn a) (fsqrt (fadd (fsub (fofZ 1) a) (fmul (fmul hn a) (fmul hn a)))))) by (apply add_plus; [exact Pv|apply sqrt_plus; exact Pq]).
  split; [exact Pr|].
  assert (G2 : rnd (/ 2) = / 2) by (change (/ 2) with (bpow radix2 (-1)); apply rnd_generic, bpow_generic; lia).
  (* either summand is at least 1/2 *)
  set (q := fadd (fsub (fofZ 1) a) (fmul (fmul hn a) (fmul hn a))) in *. set (hv := fmul hn a) in *.
  destruct (is_finite (fadd hv (fsqrt q))) eqn:Fr.
  2:{ destruct (fadd hv (fsqrt q)) as [s|s| |s m e Hb] eqn:E; try discriminate Fr; [|reflexivity]. unfold clear in Pr. cbn in Pr. subst. destruct inv as [s|s| |s m e Hb]; try discriminate Fi; reflexivity. }
  assert (Fhv : fin hv = true /\ fin (fsqrt q) = true).
  { unfold clear in Pv. pose proof (sqrt_plus q Pq) as Ps. destruct hv as [s|s| |s m e Hb], (fsqrt q) as [s'|s'| |s' m' e' Hb']; cbn in Pv, Ps; subst; try discriminate Fr; auto. }
  destruct Fhv as [Fhv Fsq].
  apply sub_plus; auto.
  destruct (Rle_lt_dec (/ 2) (val a)) as [L|L].
  - (* hv >= 1/2 *)
    assert (Vhv : / 2 <= val hv).
    { generalize (Bmult_correct fprec femax fprec_gt_0 fprec_lt_emax mode_NE hn a). change (Bmult mode_NE hn a) with hv. case Rlt_bool; intros K.
      - destruct K as (K & _). change (val hv = rnd (val hn * val a)) in K. rewrite K, <- G2. apply rnd_le. nra.
      - destruct hv; try discriminate Fhv; discriminate K. }
    apply Rle_trans with (val hv); [lra|].
    generalize (Bplus_correct fprec femax fprec_gt_0 fprec_lt_emax mode_NE hv (fsqrt q) Fhv Fsq). change (Bplus mode_NE hv (fsqrt q)) with (fadd hv (fsqrt q)). case Rlt_bool; intros K.
    + destruct K as (K & _). rewrite K. rewrite <- (rnd_val hv) at 1. apply rnd_le. pose proof (plus_val _ (sqrt_plus q Pq)). lra.
    + destruct K as (K & _). destruct (fadd hv (fsqrt q)); try discriminate Fr; discriminate K.
  - assert (Vsq : / 2 <= val (fsqrt q)).
    { generalize (Bsqrt_correct fprec femax fprec_gt_0 fprec_lt_emax mode_NE q). change (Bsqrt mode_NE q) with (fsqrt q). intros (V & Fs & _). change (val (fsqrt q) = rnd (sqrt (val q))) in V.
      assert (Fq : fin q = true).
      { rewrite Fsq in Fs. destruct q as [s|s| |s m e Hb]; try discriminate Fs; auto. }
      rewrite V, <- G2. apply rnd_le. rewrite <- (sqrt_square (/ 2)) by lra. apply sqrt_le_1_alt.
      destruct (fsub_fin (fofZ 1) a O2 Fa) as [Vs Fs1]; [rewrite O1; apply (lt_max _ 0); [lia|]; change (bpow radix2 0) with 1; lra|].
      assert (Vs2 : / 2 <= val (fsub (fofZ 1) a)) by (rewrite Vs, O1, <- G2; apply rnd_le; lra).
      assert (Fm : fin (fmul hv hv) = true).
      { assert (Pm : clear (fmul hv hv)) by (apply mul_plus; exact Pv). unfold q in Fq. destruct (fmul hv hv) as [s|s| |s m e Hb]; auto; exfalso; unfold clear in Pm; cbn in Pm; subst; destruct (fsub (fofZ 1) a) as [s|s| |s m e Hb]; try discriminate Fs1; discriminate Fq. }
      generalize (Bplus_correct fprec femax fprec_gt_0 fprec_lt_emax mode_NE (fsub (fofZ 1) a) (fmul hv hv) Fs1 Fm). change (Bplus mode_NE (fsub (fofZ 1) a) (fmul hv hv)) with q. case Rlt_bool; intros K.
      - destruct K as (K & _). rewrite K. apply Rle_trans with (/ 2); [lra|]. rewrite <- G2. apply rnd_le. pose proof (plus_val (fmul hv hv) (mul_plus _ _ Pv Pv)). lra.
      - destruct K as (K & _). destruct q; try discriminate Fq; discriminate K. }
    apply Rle_trans with (val (fsqrt q)); [lra|].
    generalize (Bplus_correct fprec femax fprec_gt_0 fprec_lt_emax mode_NE hv (fsqrt q) Fhv Fsq). change (Bplus mode_NE hv (fsqrt q)) with (fadd hv (fsqrt q)). case Rlt_bool; intros K.
    + destruct K as (K & _). rewrite K. rewrite <- (rnd_val (fsqrt q)) at 1. apply rnd_le. pose proof (plus_val _ Pv). lra.
    + destruct K as (K & _). destruct (fadd hv (fsqrt q)); try discriminate Fr; discriminate K.
Qed.

#[local] Opaque fadd fsub fmul fdiv fsqrt fofZ.
Lemma bias_clear (h : EllCalc F) (b t : F) st r : good (ec_helper h) -> clear (b : f64) -> not_tiny t ->
  calc_bias_cut h b t = (st, r) -> clear3 r.
Proof.
  intros G Pb Ht E. unfold calc_bias_cut in E. destruct (nltb (n := F) t (nmul b b)) eqn:B.
  - inversion E; subst. apply z3_clear.
  - cbv zeta in E. unfold core_bias_cut, core_bias_cut_fast in E. inversion E; subst. clear E.
    pose proof (root_clear t Ht) as Pt. destruct two_val as (_ & _ & T3).
    assert (Pe : clear (fadd (fsqrt t) (fmul (c_n_f (ec_helper h)) b))) by (apply add_plus; [exact Pt|]; apply mul_plus; [apply (g_n _ G)|exact Pb]).
    assert (Pr : clear (fdiv (fadd (fsqrt t) (fmul (c_n_f (ec_helper h)) b)) (c_n_plus_1 (ec_helper h)))) by (apply div_plus; [exact Pe|apply (g_n1 _ G)]).
    split; [exact Pr|]. split.
    + apply div_plus; [apply mul_plus; [exact T3|exact Pr]|]. apply add_plus; [exact Pt|exact Pb].
    + apply mul_plus; [apply (g_cst1 _ G)|]. exact (alpha_clear b t Pb Ht B).
Qed.
Lemma central_clear (h : EllCalc F) (t : F) st r : good (ec_helper h) -> calc_central_cut h t = (st, r) ->
  let '(rho, sigma, delta) := r in (not_tiny t \/ clear (t : f64) -> clear (rho : f64)) /\ clear (sigma : f64) /\ clear (delta : f64).
Proof.
  intros G E. unfold calc_central_cut, core_central_cut in E. inversion E; subst. split; [|split].
  - intros [H|H]; (apply div_plus; [|apply (g_n1 _ G)]); [apply root_clear; exact H|apply sqrt_plus; exact H].
  - apply (g_cst2 _ G).
  - apply (g_cst1 _ G).
Qed.
Lemma parallel_bias_clear (h : EllCalc F) (b0 b1 t : F) st r : good (ec_helper h) -> clear (b0 : f64) -> Bltb (fofZ 0) b1 = true -> not_tiny t ->
  calc_parallel_bias_cut h b0 b1 t = (st, r) -> clear3 r.
Proof.
  intros G P0 P1 Ht E. unfold calc_parallel_bias_cut in E.
  change (nltb (n := F) (n0 (N := F)) b1) with (Bltb (fofZ 0) b1) in E. rewrite P1, andb_true_l in E.
  destruct (nltb (n := F) b1 b0) eqn:B1; [inversion E; subst; apply z3_clear|].
  destruct (nleb (n := F) t (nmul b1 b1)) eqn:B2; [exact (bias_clear h b0 t st r G P0 Ht E)|].
  destruct (ec_use_parallel_cut h); [|exact (bias_clear h b0 t st r G P0 Ht E)]. cbn [orb negb] in E.
  assert (C1 : clear (b1 : f64) /\ is_nan (b1 : f64) = false).
  { destruct (b1 : f64) as [s|s| |s m e Hb]; try (destruct s); try discriminate P1; split; reflexivity. }
  destruct C1 as [C1 N1].
  assert (C11 : clear (fmul b1 b1)) by (apply mul_plus; exact C1).
  assert (C00 : clear (fmul b0 b0)) by (apply mul_plus; exact P0).
  assert (C01 : clear (fmul b0 b1)) by (apply mul_plus; assumption).
  pose proof (leb_clear t (fmul b1 b1) C11 (mul_not_nan b1 N1) B2) as Pt.
  assert (Z1 : clear (fsub t (fmul b1 b1))) by (apply sub_plus_leb; assumption).
  assert (Z0 : clear (fsub t (fmul b0 b0))) by (apply sub_plus_leb; [exact Pt|]; exact (leb_square b0 b1 t P0 P1 B1 B2)).
  destruct two_val as (_ & _ & T3).
  unfold core_parallel_bias_cut, core_parallel_bias_cut_fast in E. inversion E; subst. clear E.
  assert (Pxi : clear (fsqrt (fadd (fmul (fsub t (fmul b0 b0)) (fsub t (fmul b1 b1)))
      (fmul (fmul (c_half_n (ec_helper h)) (fsub (fmul b1 b1) (fmul b0 b0))) (fmul (c_half_n (ec_helper h)) (fsub (fmul b1 b1) (fmul b0 b0))))))).
  { apply sqrt_plus, add_plus; [apply mul_plus; assumption|]. generalize (fmul (c_half_n (ec_helper h)) (fsub (fmul b1 b1) (fmul b0 b0))). intros z. apply square_clear. }
  assert (Ps : clear (fdiv (fmul (fofZ 2) (fadd t (fmul (c_n_f (ec_helper h)) (fmul b0 b1)))) (fadd (fadd (fadd t (fmul b0 b1)) (fmul (c_half_n (ec_helper h)) (fmul (fadd b0 b1) (fadd b0 b1))))
      (fsqrt (fadd (fmul (fsub t (fmul b0 b0)) (fsub t (fmul b1 b1)))
      (fmul (fmul (c_half_n (ec_helper h)) (fsub (fmul b1 b1) (fmul b0 b0))) (fmul (c_half_n (ec_helper h)) (fsub (fmul b1 b1) (fmul b0 b0))))))))).
  { apply div_plus; [apply mul_plus; [exact T3|]; apply add_plus; [exact Pt|]; apply mul_plus; [apply (g_n _ G)|exact C01]|].
    apply add_plus; [|exact Pxi]. apply add_plus; [apply add_plus; assumption|]. apply mul_plus; [apply (g_half _ G)|apply square_clear]. }
  split; [|split].
  - apply div_plus; [|exact T3]. apply mul_plus; [exact Ps|]. apply add_plus; assumption.
  - exact Ps.
  - apply div_plus; [|exact Pt]. apply mul_plus; [apply (g_cst1 _ G)|]. apply add_plus; [apply div_plus; [apply add_plus; assumption|exact T3]|]. apply div_plus; [exact Pxi|apply (g_n _ G)].
Qed.
Lemma parallel_central_clear (h : EllCalc F) (b1 t : F) st r : good (ec_helper h) ->
  calc_parallel_central_cut h b1 t = (st, r) -> let '(_, sigma, delta) := r in clear (sigma : f64) /\ clear (delta : f64).
Proof.
  intros G E. unfold calc_parallel_central_cut in E.
  destruct (nltb (n := F) b1 (n0 (N := F))) eqn:B1; [inversion E; subst; split; reflexivity|].
  destruct (nleb (n := F) t (nmul b1 b1)) eqn:B2; [destruct r as [[? ?] ?]; apply (central_clear h t st _ G E)|].
  destruct (ec_use_parallel_cut h); [|destruct r as [[? ?] ?]; apply (central_clear h t st _ G E)]. cbn [orb negb] in E.
  assert (P1 : exists b : f64, clear b /\ fmul b b = fmul b1 b1).
  { destruct (Bsign (b1 : f64)) eqn:S1; [|exists b1; split; [exact S1|reflexivity]]. exists (fofZ 0). split; [reflexivity|].
    destruct (b1 : f64) as [s'|s'| |s' m' e0 Hb]; try (destruct s'); try discriminate B1; try discriminate S1; reflexivity. }
  destruct P1 as (b & P1 & Eb). assert (B3 : Bleb t (fmul b b) = false) by (rewrite Eb; exact B2).
  destruct (central_root _ _ b t (g_halfv _ G) (g_invv _ G) P1 B3) as [R1 R2]. rewrite Eb in R1, R2. cbv zeta in R1, R2. destruct two_val as (_ & _ & T3). destruct one_val as (_ & _ & O3).
  unfold core_parallel_central_cut in E. inversion E; subst. clear E. split.
  - apply div_plus; [exact T3|]. apply add_plus; [exact R1|exact O3].
  - apply div_plus; [exact R1|exact R2].
Qed.
End K.
