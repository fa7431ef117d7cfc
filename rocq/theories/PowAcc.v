(** The power iterations in binary64 (C116). *)
From Coq Require Import ZArith Reals Lra Lia Psatz List Bool Arith.
From Flocq Require Import Core IEEE754.BinarySingleNaN.
From Verif Require Import Num Res Arr ArrLemmas ArrProps Spec RealLin PowerIter PowerSpec PowerOps PowerProofs PowerMore FloatLemmas FloatErr FloatRel KernAcc FcosAcc StepAccSpec CgAcc ProfAcc.
Import ListNotations.
Local Open Scope R_scope.
#[local] Opaque fadd fsub fmul fdiv fsqrt fofZ.

(** ** Norms *)
Lemma norm2_mono n (f g : vec) : (forall i, (i < n)%nat -> Rabs (f i) <= g i) -> norm2 n f <= norm2 n g.
Proof.
  intros H. unfold norm2. apply sqrt_le_1_alt. unfold dot. apply Rsum_le. intros i Hi. pose proof (H i Hi) as K. pose proof (Rabs_pos (f i)).
  replace (f i * f i) with (Rabs (f i) * Rabs (f i)) by (rewrite <- Rabs_mult; apply Rabs_pos_eq, Rle_0_sqr). apply Rmult_le_compat; auto.
Qed.
Lemma norm2_abs n (f : vec) : norm2 n (fun i => Rabs (f i)) = norm2 n f.
Proof. unfold norm2. f_equal. apply Rsum_ext. intros i _. rewrite <- Rabs_mult. apply Rabs_pos_eq, Rle_0_sqr. Qed.
Lemma frob_abs n (M : mtx) : frob n (fun i j => Rabs (M i j)) = frob n M.
Proof. unfold frob. f_equal. apply Rsum_ext. intros i _. apply Rsum_ext. intros j _. rewrite <- Rabs_mult. apply Rabs_pos_eq, Rle_0_sqr. Qed.
Lemma dot_norm2 n (f g : vec) : Rabs (dot n f g) <= norm2 n f * norm2 n g.
Proof.
  pose proof (cauchy n f g) as C. rewrite <- !norm2_sq in C. apply le_sq; [apply Rmult_le_pos; apply sqrt_pos|]. rewrite <- Rabs_mult, Rabs_pos_eq by apply Rle_0_sqr. lra.
Qed.
Lemma dot_abs_norm2 n (f g : vec) : Rsum n (fun i => Rabs (f i * g i)) <= norm2 n f * norm2 n g.
Proof.
  rewrite <- (norm2_abs n f), <- (norm2_abs n g). eapply Rle_trans; [|apply dot_norm2]. eapply Rle_trans; [|apply Rle_abs]. right. apply Rsum_ext. intros i _. apply Rabs_mult.
Qed.

(** ** Sums *)
Section Sum.
Variable lm : Libm.
Notation F := (FNum lm).
Variables (z0 : f64) (f : nat -> f64).
Hypotheses (Zv : val z0 = 0) (Zf : fin z0 = true).
Let g : nat -> num F := f.
Lemma sum_fin j : fin (accum (N := F) z0 g j : f64) = true -> forall k, (k < j)%nat -> fin (f k) = true.
Proof.
  induction j; intros H k Hk; [lia|]. cbn [accum] in H. change (fin (fadd (accum (N := F) z0 g j) (f j)) = true) in H.
  apply fadd_inv in H. destruct H as (H1 & H2 & _). destruct (Nat.eq_dec k j) as [->|]; [exact H2|apply IHj; auto; lia].
Qed.
Lemma sum_err j : fin (accum (N := F) z0 g j : f64) = true -> 8 * INR j * uu <= 1 ->
  Rabs (val (accum (N := F) z0 g j : f64) - Rsum j (fun k => val (f k))) <= 2 * INR j * uu * Rsum j (fun k => Rabs (val (f k))) + 2 * INR j * ee.
Proof.
  pose proof (bpow_gt_0 radix2 (-53)) as U. pose proof (bpow_gt_0 radix2 (-1075)) as E.
  induction j; intros H Hj.
  - cbn [accum Rsum]. rewrite Zv. cbn [INR]. replace (0 - 0) with 0 by ring. rewrite Rabs_R0. lra.
  - rewrite S_INR in *. pose proof (pos_INR j) as Pj. cbn [accum] in *. change (fin (fadd (accum (N := F) z0 g j) (f j)) = true) in H.
    change (val (nadd (n := F) (accum (N := F) z0 g j) (g j))) with (val (fadd (accum (N := F) z0 g j) (f j))).
    destruct (fadd_inv _ _ H) as (H1 & H2 & EV). rewrite EV. cbn [Rsum].
    assert (H8 : 8 * INR j * uu <= 1) by (assert (0 <= 8 * uu) by lra; lra). specialize (IHj H1 H8).
    set (S := val (accum (N := F) z0 g j : f64)) in *. set (P := Rsum j (fun k => val (f k))) in *. set (Q := Rsum j (fun k => Rabs (val (f k)))) in *. set (r := val (f j)) in *.
    assert (HQ : Rabs P <= Q) by apply Rabs_Rsum. pose proof (Rabs_pos P) as P0. pose proof (Rabs_pos r) as R0. set (z := Rabs r) in *. pose proof (rnd_err (S + r)) as R2.
    assert (A2 : Rabs S <= Q + (2 * INR j * uu * Q + 2 * INR j * ee)). { replace S with (P + (S - P)) by ring. eapply Rle_trans; [apply Rabs_triang|]. lra. }
    assert (A3 : Rabs (S + r) <= Rabs S + z) by apply Rabs_triang.
    assert (A4 : uu * Rabs (S + r) <= uu * (Q + (2 * INR j * uu * Q + 2 * INR j * ee) + z)) by (apply Rmult_le_compat_l; lra).
    replace (rnd (S + r) - (P + r)) with ((rnd (S + r) - (S + r)) + (S - P)) by ring. eapply Rle_trans; [apply Rabs_triang|].
    assert (Q0 : 0 <= Q) by lra. assert (B1 : 2 * INR j * uu <= 1) by lra.
    assert (B2 : uu * (2 * INR j * uu * Q) <= uu * Q). { apply Rmult_le_compat_l; [lra|]. rewrite <- (Rmult_1_l Q) at 2. apply Rmult_le_compat_r; auto. }
    assert (B4 : uu * (2 * INR j * ee) <= ee). { replace (uu * (2 * INR j * ee)) with (2 * INR j * uu * ee) by ring. rewrite <- (Rmult_1_l ee) at 2. apply Rmult_le_compat_r; lra. }
    assert (B6 : 0 <= INR j * uu * z) by (repeat apply Rmult_le_pos; lra). assert (B7 : 0 <= uu * z) by (apply Rmult_le_pos; lra).
    clear - IHj R2 A4 B2 B4 B6 B7 E. replace (2 * (INR j + 1) * uu * (Q + z)) with (2 * INR j * uu * Q + 2 * (uu * Q) + 2 * (INR j * uu * z) + 2 * (uu * z)) by ring. lra.
Qed.
(** terms up to 2^290: no overflow *)
Lemma sum_small j : (Z.of_nat j <= 2 ^ 20)%Z -> (forall k, (k < j)%nat -> fin (f k) = true /\ Rabs (val (f k)) <= bpow radix2 290) -> fin (accum (N := F) z0 g j : f64) = true.
Proof.
  intros Hj H. enough (fin (accum (N := F) z0 g j : f64) = true /\ Rabs (val (accum (N := F) z0 g j : f64)) <= INR j * bpow radix2 292) by tauto.
  induction j; [cbn [accum INR]; rewrite Zv, Rabs_R0; split; auto; lra|]. destruct IHj as [I1 I2]; [lia|intros; apply H; lia|]. destruct (H j ltac:(lia)) as (H1 & H3). cbn [accum].
  change (nadd (n := F) (accum (N := F) z0 g j) (g j)) with (fadd (accum (N := F) z0 g j) (f j)).
  assert (J : INR j * bpow radix2 292 <= bpow radix2 312). { change 312%Z with (20 + 292)%Z. rewrite bpow_plus. apply Rmult_le_compat_r; [apply bpow_ge_0|]. rewrite INR_IZR_INZ. change (bpow radix2 20) with (IZR (2 ^ 20)). apply IZR_le. lia. }
  set (b := val (accum (N := F) z0 g j : f64)) in *. set (r := val (f j)) in *. assert (B6 : bpow radix2 292 = 4 * bpow radix2 290) by (change 292%Z with (2 + 290)%Z; rewrite bpow_plus; reflexivity). assert (B7 : bpow radix2 313 = 2 * bpow radix2 312) by (change 313%Z with (1 + 312)%Z; rewrite bpow_plus; reflexivity). assert (B8 : bpow radix2 290 <= bpow radix2 312) by (apply bpow_le; lia).
  assert (A1 : Rabs (b + r) <= INR j * bpow radix2 292 + bpow radix2 290) by (eapply Rle_trans; [apply Rabs_triang|lra]).
  assert (A2 : Rabs (rnd (b + r)) <= bpow radix2 313). { apply abs_round_le_generic; [typeclasses eauto|typeclasses eauto|apply bpow_generic; lia|lra]. }
  destruct (fadd_fin (accum (N := F) z0 g j) (f j) I1 H1) as [E2 F2]; [fold b; fold r; eapply Rle_lt_trans; [exact A2|apply bpow_lt; reflexivity]|].
  split; auto. rewrite E2. fold b. fold r. rewrite S_INR. pose proof (rnd_err (b + r)) as R. replace (rnd (b + r)) with ((b + r) + (rnd (b + r) - (b + r))) by ring. eapply Rle_trans; [apply Rabs_triang|].
  assert (U : uu * Rabs (b + r) <= bpow radix2 290). { apply Rle_trans with (uu * bpow radix2 313); [apply Rmult_le_compat_l; [apply bpow_ge_0|]; lra|]. rewrite <- bpow_plus. apply bpow_le. lia. }
  assert (EE : ee <= bpow radix2 290) by (apply bpow_le; lia). pose proof (bpow_gt_0 radix2 290). lra.
Qed.
(** a sum of magnitudes is not negative *)
Definition nonneg (x : f64) : Prop := match x with B754_infinity true => False | B754_finite true _ _ _ => False | _ => True end.
Lemma nonneg_val x : nonneg x -> 0 <= val x.
Proof. destruct x as [|[]| |[] m e H]; cbn; try lra; try contradiction. intros _. apply F2R_ge_0. cbn. lia. Qed.
Lemma nonneg_add x y : nonneg x -> nonneg y -> nonneg (fadd x y).
Proof.
  intros Hx Hy. destruct (fin x) eqn:Fx, (fin y) eqn:Fy.
  - pose proof (nonneg_val x Hx) as Vx. pose proof (nonneg_val y Hy) as Vy. pose proof (Bplus_correct fprec femax _ _ mode_NE x y Fx Fy) as C.
    change (fadd x y) with (Bplus (prec := fprec) (emax := femax) mode_NE x y). set (w := Bplus mode_NE x y) in *. clearbody w. revert C. case Rlt_bool_spec; intros Ov.
    + intros (V & Fz & _). pose proof (rnd_nn (val x + val y) ltac:(lra)) as Z. change (round radix2 (SpecFloat.fexp fprec femax) (round_mode mode_NE) (val x + val y)) with (rnd (val x + val y)) in V. rewrite <- V in Z. clear - Fz Z.
      destruct w as [|[]| |[] m e H]; cbn; auto; try discriminate Fz. cbn in Z. assert (F2R (Float radix2 (Zneg m) e) < 0) by (apply F2R_lt_0; cbn; lia). lra.
    + intros (V & Sg). assert (N : Bsign x = false). { destruct x as [sx|[]| |[] mx ex Bx]; try discriminate Fx; try contradiction; try reflexivity. destruct y as [sy|[]| |[] my ey By]; try discriminate Fy; try contradiction; [|exact Sg]. exfalso. cbn [B2R] in Ov. rewrite Rplus_0_l, round_0, Rabs_R0 in Ov by typeclasses eauto. pose proof (bpow_gt_0 radix2 femax). lra. }
      rewrite N in V. clear - V. destruct w as [|[]| |[] m e H]; cbn in *; auto; discriminate V.
  - destruct y as [|[]| |]; try discriminate Fy; try contradiction; destruct x as [|[]| |[]]; cbn; auto.
  - destruct x as [|[]| |]; try discriminate Fx; try contradiction; destruct y as [|[]| |[]]; cbn; auto.
  - destruct x as [|[]| |]; try discriminate Fx; try contradiction; destruct y as [|[]| |]; try discriminate Fy; try contradiction; cbn; auto.
Qed.
#[local] Opaque fadd.
Lemma sum_nonneg j : (forall k, (k < j)%nat -> nonneg (f k)) -> nonneg (accum (N := F) z0 g j).
Proof.
  assert (Z : nonneg z0).
  { destruct z0 as [|[]| |[] m e B]; cbn; auto; try discriminate Zf. assert (F2R (Float radix2 (Zneg m) e) < 0) by (apply F2R_lt_0; cbn; lia). cbn in Zv. lra. }
  induction j; intros H; [exact Z|].
  cbn [accum]. change (nonneg (fadd (accum (N := F) z0 g j) (f j))). apply nonneg_add; auto.
Qed.
End Sum.

Lemma abs_nonneg (x : f64) : nonneg (Babs (x : f64)).
Proof. destruct x as [|[]| |[]]; cbn; auto. Qed.
Lemma fabs_val (x : f64) : val (Babs (x : f64)) = Rabs (val x). Proof. apply B2R_Babs. Qed.
Lemma fabs_fin (x : f64) : fin (Babs (x : f64)) = fin x. Proof. apply is_finite_Babs. Qed.

Section P.
Variable lm : Libm.
Notation F := (FNum lm).
Variables (n : nat) (a : Arr F).
Hypotheses (Hn : (0 < n)%nat) (H20 : (Z.of_nat n <= 2 ^ 20)%Z) (Ha : is_mat n n a).
Notation M := (fentry n a).
Notation Phi := (frob n M).
Notation NN := (INR n).
Notation vf := (vfin lm n).

Lemma n2_ee : 4 * (NN * NN) * ee <= bpow radix2 (-1030).
Proof.
  assert (A : NN <= bpow radix2 20). { rewrite INR_IZR_INZ. change (bpow radix2 20) with (IZR (2 ^ 20)). now apply IZR_le. } pose proof (pos_INR n).
  assert (B : NN * NN <= bpow radix2 40) by (change 40%Z with (20 + 20)%Z; rewrite bpow_plus; apply Rmult_le_compat; auto).
  apply Rle_trans with (bpow radix2 2 * bpow radix2 40 * ee); [change (bpow radix2 2) with 4; apply Rmult_le_compat_r; [apply bpow_ge_0|lra]|]. rewrite <- !bpow_plus. apply bpow_le. lia.
Qed.
Lemma mv_vec (x y : Arr F) : is_vec n x -> a_dot_mv a x = Ok y -> is_vec n y.
Proof. intros Hx E. rewrite (a_dot_mv_ok n n a x Hn Ha Hx) in E. injection E as <-. split; [cbn; rewrite map_length, seq_length; reflexivity|reflexivity]. Qed.
Lemma unit_ok (y : Arr F) : is_vec n y -> exists d x, a_dot y y = Ok d /\ p_unit y = Ok x /\ is_vec n x /\
  forall i, (i < n)%nat -> (vget x i : f64) = fmul (vget y i) (fdiv (fofZ 1) (fsqrt d)).
Proof.
  intros Hy. unfold p_unit. rewrite (a_dot_ok n y y Hy Hy). cbn [bind]. eexists. eexists. split; [reflexivity|]. split; [reflexivity|]. destruct Hy as [L C]. split; [split; [cbn; rewrite map_length; exact L|exact C]|].
  intros i Hi. unfold vget, a_divs, a_mapd. cbn [adata]. rewrite (nth_indep _ _ (nmul (n := F) (n0 (N := F)) (ndiv (n := F) (n1 (N := F)) (nsqrt (n := F) (accum (nsum0 (n := F)) (fun i => nmul (n := F) (vget y i) (vget y i)) n))))) by (rewrite map_length, L; exact Hi).
  exact (map_nth (fun v => nmul (n := F) v (ndiv (n := F) (n1 (N := F)) (nsqrt (n := F) (accum (nsum0 (n := F)) (fun i => nmul (n := F) (vget y i) (vget y i)) n)))) (adata y) (n0 (N := F)) i).
Qed.
(** the product of the matrix and a vector *)
Lemma mv_err (x y : Arr F) : is_vec n x -> a_dot_mv a x = Ok y -> vf y ->
  norm2 n (fun i => fcoords y i - mulmv n M (fcoords x) i) <= 3 * (NN * uu) * (Phi * norm2 n (fcoords x)) + bpow radix2 (-1030).
Proof.
  intros Hx E Fy. pose proof uu_small as U. destruct (n_facts n Hn H20) as [N1 NU].
  apply Rle_trans with (norm2 n (fun i => 3 * (NN * uu) * mulmv n (fun i j => Rabs (M i j)) (fun j => Rabs (fcoords x j)) i + 4 * NN * ee)).
  - apply norm2_mono. intros i Hi. eapply Rle_trans; [exact (mv_f64 lm n n a x y i ltac:(lia) Hn Ha Hx E Hi (Fy i Hi))|]. right. f_equal. replace (3 * NN * uu) with (3 * (NN * uu)) by ring. f_equal. apply Rsum_ext. intros j _. apply Rabs_mult.
  - eapply Rle_trans; [apply (norm2_tri n (fun i => 3 * (NN * uu) * mulmv n (fun i j => Rabs (M i j)) (fun j => Rabs (fcoords x j)) i) (fun _ => 4 * NN * ee))|].
    apply Rplus_le_compat.
    + rewrite norm2_any, Rabs_pos_eq by (apply Rmult_le_pos; [lra|apply Rmult_le_pos; [apply pos_INR|lra]]). apply Rmult_le_compat_l; [apply Rmult_le_pos; [lra|apply Rmult_le_pos; [apply pos_INR|lra]]|].
      rewrite <- (frob_abs n M), <- (norm2_abs n (fcoords x)). apply frob_bound.
    + eapply Rle_trans; [apply (norm2_max n Hn H20 _ (4 * NN * ee))|]. * intros i _. rewrite Rabs_pos_eq; [lra|]. apply Rmult_le_pos; [lra|apply bpow_ge_0]. * eapply Rle_trans; [|exact n2_ee]. right. ring.
Qed.
Lemma norm2_sub f g : norm2 n f <= norm2 n g + norm2 n (fun i => f i - g i).
Proof. eapply Rle_trans; [|apply norm2_tri]. right. apply norm2_ext. intros; ring. Qed.
(** the value *)
Lemma quot_err (x : Arr F) (q : f64) : is_vec n x -> p_quot a x = Ok q -> fin q = true -> dot n (fcoords x) (fcoords x) <= 2 ->
  vf x /\ Rabs (val q - quad n M (fcoords x)) <= 13 * (NN * uu) * Phi + bpow radix2 (-1020).
Proof.
  intros Hx E Fq HD. pose proof uu_small as U. destruct (n_facts n Hn H20) as [N1 NU]. unfold p_quot in E. destruct (a_dot_mv a x) as [y|] eqn:Ey; cbn [bind] in E; [|discriminate]. pose proof (mv_vec x y Hx Ey) as Hy.
  assert (FF : forall i, (i < n)%nat -> fin (vget x i : f64) = true /\ fin (vget y i : f64) = true).
  { pose proof E as E'. rewrite (a_dot_ok n x y Hx Hy) in E'. injection E' as E'. subst q. intros i Hi. destruct (accum_fin_z lm (nsum0 (n := F)) (fun i => vget x i) (fun i => vget y i) n Fq i Hi) as (A & B & _). auto. }
  assert (Fx : vf x) by (intros i Hi; apply FF; exact Hi). assert (Fy : vf y) by (intros i Hi; apply FF; exact Hi). split; [exact Fx|].
  pose proof (mv_err x y Hx Ey Fy) as ME. pose proof (dot_f64 lm n x y q ltac:(lia) Hx Hy E Fq) as DE.
  pose proof (dot_abs_norm2 n (fcoords x) (fcoords y)) as DA. set (X := norm2 n (fcoords x)) in *. set (Y := norm2 n (fcoords y)) in *. set (G := norm2 n (fun i => fcoords y i - mulmv n M (fcoords x) i)) in *.
  assert (X0 : 0 <= X) by apply sqrt_pos. assert (XX : X * X <= 2) by (unfold X; rewrite norm2_sq; exact HD). assert (X1 : X <= 3 / 2) by nra. assert (P0 : 0 <= Phi) by apply sqrt_pos.
  assert (YB : Y <= Phi * X + G). { unfold Y. eapply Rle_trans; [apply (norm2_sub (fcoords y) (mulmv n M (fcoords x)))|]. apply Rplus_le_compat_r. apply frob_bound. }
  assert (QE : Rabs (dot n (fcoords x) (fcoords y) - quad n M (fcoords x)) <= X * G).
  { unfold quad. replace (dot n (fcoords x) (fcoords y) - dot n (fcoords x) (mulmv n M (fcoords x))) with (dot n (fcoords x) (fun i => fcoords y i - mulmv n M (fcoords x) i)); [apply dot_norm2|]. rewrite dot_minus_r. reflexivity. }
  set (v := NN * uu) in *. assert (V0 : 0 <= v <= / 1000) by (split; [unfold v; apply Rmult_le_pos; lra|exact NU]). replace (3 * NN * uu) with (3 * v) in DE by (unfold v; ring).
  set (t := bpow radix2 (-1030)) in *. assert (T0 : 0 < t) by apply bpow_gt_0. assert (NE : 4 * NN * ee <= t). { eapply Rle_trans; [|exact n2_ee]. replace (4 * (NN * NN) * ee) with (4 * NN * ee * NN) by ring. assert (0 <= 4 * NN * ee) by (apply Rmult_le_pos; [lra|apply bpow_ge_0]). nra. }
  assert (TT : bpow radix2 (-1020) = 1024 * t) by (unfold t; change (-1020)%Z with (10 + -1030)%Z; rewrite bpow_plus; reflexivity). rewrite TT.
  replace (val q - quad n M (fcoords x)) with ((val q - dot n (fcoords x) (fcoords y)) + (dot n (fcoords x) (fcoords y) - quad n M (fcoords x))) by ring. eapply Rle_trans; [apply Rabs_triang|]. eapply Rle_trans; [apply Rplus_le_compat; [exact DE|exact QE]|].
  set (p := Phi) in *. set (s := Rsum n (fun i => Rabs (fcoords x i * fcoords y i))) in *.
  assert (VP : 0 <= v * p) by (apply Rmult_le_pos; lra). assert (XG : X * G <= 3 * (v * p) * 2 + 3 / 2 * t). { apply Rle_trans with (X * (3 * v * (p * X) + t)); [apply Rmult_le_compat_l; auto|]. replace (X * (3 * v * (p * X) + t)) with (3 * (v * p) * (X * X) + X * t) by ring. nra. }
  assert (XY : X * Y <= p * 2 + (3 * (v * p) * 2 + 3 / 2 * t)). { apply Rle_trans with (X * (p * X + G)); [apply Rmult_le_compat_l; auto|]. replace (X * (p * X + G)) with (p * (X * X) + X * G) by ring. nra. }
  assert (VS : 3 * v * s <= 3 * v * (p * 2 + (3 * (v * p) * 2 + 3 / 2 * t))) by (apply Rmult_le_compat_l; lra). assert (VVP : v * (v * p) <= v * p / 1000) by nra. nra.
Qed.
(** ** The test *)
Lemma norm1_nn m (f : vec) : 0 <= norm1 m f.
Proof. unfold norm1. induction m as [|m IH]; cbn [Rsum]; [lra|]. pose proof (Rabs_pos (f m)). lra. Qed.
Lemma l1_ok (d : Arr F) : is_vec n d -> norm_l1 d = accum (N := F) (nsum0 (n := F)) (fun i => nabs (n := F) (vget d i)) n.
Proof.
  intros [L _]. unfold norm_l1, isum. rewrite fold_accum, map_length, L. apply accum_ext. intros i Hi. unfold vget. rewrite (nth_indep _ _ (nabs (n := F) (n0 (N := F)))) by (rewrite map_length, L; exact Hi). apply map_nth.
Qed.
Lemma leb_nonneg (x t : f64) : nonneg x -> fin t = true -> Bleb x t = true -> fin x = true /\ val x <= val t.
Proof.
  intros Hx Ht H. assert (Fx : fin x = true). { destruct x as [|[]| |[]]; try reflexivity; try contradiction; destruct t as [|[]| |[]]; cbn in *; discriminate. }
  split; [exact Fx|]. rewrite Bleb_correct in H by assumption. revert H. case Rle_bool_spec; [auto|discriminate].
Qed.
Lemma l1_le (d : Arr F) (tol : f64) : is_vec n d -> fin tol = true -> Bleb (norm_l1 d : f64) tol = true ->
  0 <= val tol /\ vf d /\ norm1 n (fcoords d) <= (1 + 3 * (NN * uu)) * val tol + 3 * NN * ee.
Proof.
  intros Hd Ft H. pose proof uu_small as U. destruct (n_facts n Hn H20) as [N1 NU]. rewrite (l1_ok d Hd) in H. set (fd := fun i => Babs (vget d i : f64)).
  change (Bleb (accum (N := F) (nsum0 (n := F)) (fun i => fd i) n) tol = true) in H.
  pose proof (sum_nonneg lm (nsum0 (n := F)) fd eq_refl eq_refl n (fun k _ => abs_nonneg _)) as NN0.
  destruct (leb_nonneg _ tol NN0 Ft H) as [FL LE]. assert (Fd : vf d). { intros i Hi. pose proof (sum_fin lm (nsum0 (n := F)) fd n FL i Hi) as K. unfold fd in K. rewrite fabs_fin in K. exact K. }
  split; [pose proof (nonneg_val _ NN0); lra|]. split; [exact Fd|]. pose proof (sum_err lm (nsum0 (n := F)) fd eq_refl n FL (nu8 n ltac:(lia))) as E.
  assert (E1 : Rsum n (fun k => val (fd k)) = norm1 n (fcoords d)) by (apply Rsum_ext; intros i _; apply fabs_val).
  assert (E2 : Rsum n (fun k => Rabs (val (fd k))) = norm1 n (fcoords d)) by (apply Rsum_ext; intros i _; unfold fd; rewrite fabs_val, Rabs_Rabsolu; reflexivity).
  rewrite E1, E2 in E. pose proof (nonneg_val _ NN0) as L0. set (L := val (accum (N := F) (nsum0 (n := F)) (fun i => fd i) n : f64)) in *. change (val (accum (N := F) (nsum0 (n := F)) (fd : nat -> num F) n : f64)) with L in E. change (0 <= L) in L0.
  set (S := norm1 n (fcoords d)) in *. apply Rabs_le_inv in E. assert (S0 : 0 <= S) by apply norm1_nn.
  replace (2 * NN * uu) with (2 * (NN * uu)) in E by ring. set (v := NN * uu) in *. assert (V0 : 0 <= v <= / 1000) by (split; [unfold v; apply Rmult_le_pos; lra|exact NU]).
  set (t := val tol) in *. assert (E3 : S * (1 - 2 * v) <= t + 2 * NN * ee) by nra. pose proof (bpow_gt_0 radix2 (-1075)) as E0. set (h := NN * ee) in *. replace (3 * NN * ee) with (3 * h) by (unfold h; ring). replace (2 * NN * ee) with (2 * h) in E3 by (unfold h; ring).
  assert (H0 : 0 <= h) by (apply Rmult_le_pos; lra). assert (T0 : 0 <= t) by lra.
  assert (1 <= (1 - 2 * v) * (1 + 3 * v)) by nra. apply Rle_trans with (S * ((1 - 2 * v) * (1 + 3 * v))); [nra|]. replace (S * ((1 - 2 * v) * (1 + 3 * v))) with (S * (1 - 2 * v) * (1 + 3 * v)) by ring. apply Rle_trans with ((t + 2 * h) * (1 + 3 * v)); [apply Rmult_le_compat_r; lra|]. nra.
Qed.
Lemma zip_vec op (x y d : Arr F) : is_vec n x -> is_vec n y -> a_zip op x y = Ok d -> is_vec n d /\ forall i, (i < n)%nat -> vget d i = op (vget x i) (vget y i).
Proof.
  intros [L1 C1] [L2 C2] E. unfold a_zip, a_len in E. rewrite L1, L2, Nat.eqb_refl in E. cbn [Res.assert] in E. injection E as <-. split; [split; [eapply eq_trans; [apply zipwith_length|rewrite L1, L2; apply Nat.min_id]|exact C1]|].
  intros i Hi. unfold vget. cbn [adata]. apply zipwith_nth; [rewrite L1|rewrite L2]; exact Hi.
Qed.
Lemma diff_tol (x x1 d : Arr F) (s : R) (tol : f64) : (s = 1 \/ s = -1) -> is_vec n d -> fin tol = true ->
  (forall i, (i < n)%nat -> fin (vget d i : f64) = true -> Rabs (fcoords x i - s * fcoords x1 i - fcoords d i) <= uu * Rabs (fcoords d i) + ee) ->
  Bleb (norm_l1 d : f64) tol = true -> 0 <= val tol /\ norm1 n (fun i => fcoords x i - s * fcoords x1 i) <= (1 + 5 * (NN * uu)) * val tol + bpow radix2 (-1030).
Proof.
  intros Hs Hd Ft HE H. pose proof uu_small as U. destruct (n_facts n Hn H20) as [N1 NU]. destruct (l1_le d tol Hd Ft H) as (T0 & Fd & S).
  assert (A : norm1 n (fun i => fcoords x i - s * fcoords x1 i) <= (1 + uu) * norm1 n (fcoords d) + NN * ee).
  { unfold norm1. apply Rle_trans with (Rsum n (fun i => (1 + uu) * Rabs (fcoords d i) + ee)).
    - apply Rsum_le. intros i Hi. specialize (HE i Hi (Fd i Hi)). replace (fcoords x i - s * fcoords x1 i) with (fcoords d i + (fcoords x i - s * fcoords x1 i - fcoords d i)) by ring. eapply Rle_trans; [apply Rabs_triang|]. lra.
    - rewrite Rsum_plus, Rsum_scal. apply Req_le. f_equal. clear. induction n as [|m IH]; [cbn; lra|]. rewrite S_INR. cbn [Rsum]. lra. }
  set (q := norm1 n (fcoords d)) in *. assert (Q0 : 0 <= q) by apply norm1_nn.
  assert (U1 : uu <= NN * uu) by (rewrite <- (Rmult_1_l uu) at 1; apply Rmult_le_compat_r; lra).
  set (v := NN * uu) in *. assert (V0 : 0 <= v <= / 1000) by (split; [unfold v; apply Rmult_le_pos; lra|exact NU]). pose proof (bpow_gt_0 radix2 (-1075)) as E0.
  assert (NE : 4 * (NN * ee) <= bpow radix2 (-1030)). { eapply Rle_trans; [|exact n2_ee]. assert (0 <= NN * ee) by (apply Rmult_le_pos; lra). nra. }
  assert (NE2 : 5 * (NN * ee) <= bpow radix2 (-1030)). { pose proof n2_ee as K. assert (T : 2 * (4 * (NN * NN) * ee) <= 2 * bpow radix2 (-1031)). { assert (A2 : NN <= bpow radix2 20). { rewrite INR_IZR_INZ. change (bpow radix2 20) with (IZR (2 ^ 20)). now apply IZR_le. }
      assert (B : NN * NN <= bpow radix2 40) by (change 40%Z with (20 + 20)%Z; rewrite bpow_plus; apply Rmult_le_compat; lra). apply Rmult_le_compat_l; [lra|]. apply Rle_trans with (bpow radix2 2 * bpow radix2 40 * ee); [change (bpow radix2 2) with 4; apply Rmult_le_compat_r; lra|]. rewrite <- !bpow_plus. apply bpow_le. lia. }
    replace (bpow radix2 (-1030)) with (2 * bpow radix2 (-1031)) by (change (-1030)%Z with (1 + -1031)%Z; rewrite bpow_plus; reflexivity). assert (0 <= NN * ee) by (apply Rmult_le_pos; lra). nra. }
  replace (3 * NN * ee) with (3 * (NN * ee)) in * by ring. set (h := NN * ee) in *. set (t := val tol) in *. assert (H0 : 0 <= h) by (apply Rmult_le_pos; lra).
  split; [exact T0|]. eapply Rle_trans; [exact A|]. apply Rle_trans with ((1 + uu) * ((1 + 3 * v) * t + 3 * h) + h); [apply Rplus_le_compat_r, Rmult_le_compat_l; lra|].
  assert (uu * t <= v * t) by nra. assert (0 <= v * t) by nra. assert (uu * (v * t) <= v * t / 1000) by nra. assert (uu * h <= h / 1000) by nra. nra.
Qed.
Lemma close_err (x x1 : Arr F) (tol : f64) : is_vec n x -> is_vec n x1 -> fin tol = true -> p_close (tol : F) x x1 = Ok true ->
  0 <= val tol /\ vf x /\ vf x1 /\ exists s, (s = 1 \/ s = -1) /\ norm1 n (fun i => fcoords x i - s * fcoords x1 i) <= (1 + 5 * (NN * uu)) * val tol + bpow radix2 (-1030).
Proof.
  intros Hx Hx1 Ft E. unfold p_close in E. destruct (a_sub x x1) as [d|] eqn:Ed; cbn [bind] in E; [|discriminate]. destruct (zip_vec _ x x1 d Hx Hx1 Ed) as [Hd Vd].
  assert (G : forall s (d : Arr F), (s = 1 \/ s = -1) -> is_vec n d -> Bleb (norm_l1 d : f64) tol = true ->
    (forall i, (i < n)%nat -> fin (vget d i : f64) = true -> fin (vget x i : f64) = true /\ fin (vget x1 i : f64) = true /\ fcoords d i = rnd (fcoords x i - s * fcoords x1 i)) ->
    0 <= val tol /\ vf x /\ vf x1 /\ exists s, (s = 1 \/ s = -1) /\ norm1 n (fun i => fcoords x i - s * fcoords x1 i) <= (1 + 5 * (NN * uu)) * val tol + bpow radix2 (-1030)).
  { clear - Hn H20 Ft. intros s d Hs Hd H HF. destruct (diff_tol x x1 d s tol Hs Hd Ft) as [T0 T1]; [|exact H|].
    - intros i Hi Fi. destruct (HF i Hi Fi) as (_ & _ & ->). rewrite Rabs_minus_sym. apply rnd_err_r.
    - destruct (l1_le d tol Hd Ft H) as (_ & Fd & _). split; [exact T0|]. split; [intros i Hi; apply (HF i Hi (Fd i Hi))|]. split; [intros i Hi; apply (HF i Hi (Fd i Hi))|]. exists s. auto. }
  destruct (nleb (n := F) (norm_l1 d) tol) eqn:L.
  - apply (G 1 d); auto. intros i Hi Fi. rewrite (Vd i Hi) in Fi. destruct (fsub_inv _ _ Fi) as (F1 & F2 & V). split; [exact F1|]. split; [exact F2|]. rewrite Rmult_1_l. eapply eq_trans; [exact (f_equal (fun v : f64 => B2R v) (Vd i Hi))|exact V].
  - destruct (a_add x x1) as [d2|] eqn:Ed2; cbn [bind] in E; [|discriminate]. destruct (zip_vec _ x x1 d2 Hx Hx1 Ed2) as [Hd2 Vd2]. injection E as E.
    apply (G (-1) d2); auto. intros i Hi Fi. rewrite (Vd2 i Hi) in Fi. destruct (fadd_inv _ _ Fi) as (F1 & F2 & V). split; [exact F1|]. split; [exact F2|]. replace (fcoords x i - -1 * fcoords x1 i) with (fcoords x i + fcoords x1 i) by ring. eapply eq_trans; [exact (f_equal (fun v : f64 => B2R v) (Vd2 i Hi))|exact V].
Qed.
(** ** The residual when the test passed *)
Lemma gen_residual (x x1 y : Arr F) (r tol : f64) : is_vec n x -> is_vec n x1 -> a_dot_mv a x1 = Ok y -> (forall i, (i < n)%nat -> (vget x i : f64) = fmul (vget y i) r) ->
  fin tol = true -> p_close (tol : F) x x1 = Ok true -> bpow radix2 (-900) <= norm2 n (fcoords x) <= 3 / 2 ->
  norm2 n (fun i => mulmv n M (fcoords x) i - rayleigh n M (fcoords x) * fcoords x i) <= Phi * ((1 + 16 * (NN * uu)) * val tol + 16 * (NN * uu)) + bpow radix2 (-1020).
Proof.
  intros Hx Hx1 Ey VX Ft HC HD. pose proof uu_small as U. destruct (n_facts n Hn H20) as [N1 NU]. pose proof (mv_vec x1 y Hx1 Ey) as Hy.
  destruct (close_err x x1 tol Hx Hx1 Ft HC) as (T0 & Fx & Fx1 & s & Hs & HT).
  assert (FY : forall i, (i < n)%nat -> fin (vget y i : f64) = true /\ fin r = true /\ fcoords x i = rnd (fcoords y i * val r)).
  { intros i Hi. pose proof (Fx i Hi) as K. rewrite (VX i Hi) in K. destruct (fmul_inv _ _ K) as (K1 & K2 & K3). split; [exact K1|]. split; [exact K2|]. eapply eq_trans; [exact (f_equal (fun v : f64 => B2R v) (VX i Hi))|exact K3]. }
  assert (Fy : vf y) by (intros i Hi; apply FY; exact Hi). pose proof (mv_err x1 y Hx1 Ey Fy) as ME.
  assert (R0 : val r <> 0). { intros E0. pose proof (bpow_gt_0 radix2 (-900)). assert (Z : dot n (fcoords x) (fcoords x) = 0); [|unfold norm2 in HD; rewrite Z, sqrt_0 in HD; lra]. unfold dot. rewrite (Rsum_ext n _ (fun _ => 0)); [clear; induction n as [|m IH]; cbn [Rsum]; [reflexivity|rewrite IH; ring]|]. intros i Hi. destruct (FY i Hi) as (_ & _ & ->). rewrite E0, Rmult_0_r, rnd_0. ring. }
  set (mu := / val r). set (m := Rabs mu). assert (M0 : 0 <= m) by apply Rabs_pos.
  assert (YX : forall i, (i < n)%nat -> Rabs (fcoords y i - mu * fcoords x i) <= m * (uu * Rabs (fcoords x i) + ee)).
  { intros i Hi. destruct (FY i Hi) as (_ & _ & E). pose proof (rnd_err_r (fcoords y i * val r)) as K. rewrite <- E in K. replace (fcoords y i - mu * fcoords x i) with (mu * - (fcoords x i - fcoords y i * val r)) by (unfold mu; field; exact R0). rewrite Rabs_mult, Rabs_Ropp. fold m. apply Rmult_le_compat_l; assumption. }
  set (X := norm2 n (fcoords x)) in *. assert (X0 : 0 <= X) by apply sqrt_pos. pose proof (bpow_gt_0 radix2 (-900)) as P9.
  set (v := NN * uu) in *. assert (V0 : 0 <= v <= / 1000) by (split; [unfold v; apply Rmult_le_pos; lra|exact NU]). assert (U1 : uu <= v) by (unfold v; rewrite <- (Rmult_1_l uu) at 1; apply Rmult_le_compat_r; lra).
  set (t := bpow radix2 (-1030)) in *. assert (t_pos : 0 < t) by apply bpow_gt_0.
  assert (NE : NN * ee <= t). { pose proof n2_ee as K. fold t in K. pose proof (bpow_gt_0 radix2 (-1075)) as E0. assert (0 <= NN * ee) by (apply Rmult_le_pos; lra). nra. }
  assert (TX : t <= uu * X). { apply Rle_trans with (uu * bpow radix2 (-900)); [unfold t; rewrite <- bpow_plus; apply bpow_le; lia|apply Rmult_le_compat_l; lra]. }
  assert (TU : t <= uu / 1000). { unfold t. apply Rle_trans with (bpow radix2 (-63)); [apply bpow_le; lia|]. replace (bpow radix2 (-63)) with (uu * bpow radix2 (-10)) by (rewrite <- bpow_plus; reflexivity). change (bpow radix2 (-10)) with (/ 1024). lra. }
  assert (GX : norm2 n (fun i => fcoords y i - mu * fcoords x i) <= m * (2 * (uu * X))).
  { apply Rle_trans with (norm2 n (fun i => m * (uu * Rabs (fcoords x i) + ee))); [apply norm2_mono; exact YX|]. rewrite (norm2_any n m (fun i => uu * Rabs (fcoords x i) + ee)), (Rabs_pos_eq m) by exact M0. apply Rmult_le_compat_l; [exact M0|].
    eapply Rle_trans; [apply (norm2_tri n (fun i => uu * Rabs (fcoords x i)) (fun _ => ee))|]. rewrite (norm2_any n uu (fun i => Rabs (fcoords x i))), Rabs_pos_eq, norm2_abs by lra. fold X.
    assert (norm2 n (fun _ => ee) <= NN * ee). { apply (norm2_max n Hn H20). intros i _. rewrite Rabs_pos_eq; [lra|apply bpow_ge_0]. } nra. }
  set (Y := norm2 n (fcoords y)) in *. set (X1 := norm2 n (fcoords x1)) in *. assert (X10 : 0 <= X1) by apply sqrt_pos. assert (P0 : 0 <= Phi) by apply sqrt_pos. set (p := Phi) in *.
  assert (YB : Y <= p * X1 + (3 * v * (p * X1) + t)). { unfold Y. eapply Rle_trans; [apply (norm2_sub (fcoords y) (mulmv n M (fcoords x1)))|]. apply Rplus_le_compat; [apply frob_bound|exact ME]. }
  assert (MB : m * X <= 2 * Y). { assert (K : m * X <= Y + m * (2 * (uu * X))). { unfold X. unfold m at 1. rewrite <- norm2_any. eapply Rle_trans; [apply (norm2_sub (fun i => mu * fcoords x i) (fcoords y))|]. apply Rplus_le_compat_l. eapply Rle_trans; [|exact GX]. right. rewrite <- (norm2_abs n (fun i => mu * fcoords x i - fcoords y i)), <- (norm2_abs n (fun i => fcoords y i - mu * fcoords x i)). apply norm2_ext. intros i _. apply Rabs_minus_sym. } assert (0 <= m * X) by (apply Rmult_le_pos; auto). replace (m * (2 * (uu * X))) with (2 * uu * (m * X)) in K by ring. nra. }
  set (D := norm2 n (fun i => fcoords x i - s * fcoords x1 i)). assert (DB : D <= (1 + 5 * v) * val tol + t) by (eapply Rle_trans; [apply norm2_le_norm1|exact HT]). set (tt := val tol) in *.
  assert (X1B : X1 <= X + D). { unfold X1, X. apply Rle_trans with (norm2 n (fun i => s * fcoords x1 i)). - rewrite norm2_any. destruct Hs as [-> | ->]; [rewrite Rabs_R1|rewrite Rabs_left by lra]; lra. - eapply Rle_trans; [apply (norm2_sub _ (fcoords x))|]. apply Rplus_le_compat_l. right. unfold D. rewrite <- (norm2_abs n (fun i => s * fcoords x1 i - fcoords x i)), <- (norm2_abs n (fun i => fcoords x i - s * fcoords x1 i)). apply norm2_ext. intros i _. apply Rabs_minus_sym. }
  apply Rle_trans with (norm2 n (fun i => mulmv n M (fcoords x) i - s * mu * fcoords x i)); [apply rayleigh_best, norm2_pos; change (0 < X); lra|].
  assert (SP : norm2 n (fun i => mulmv n M (fcoords x) i - s * mu * fcoords x i) <= p * D + ((3 * v * (p * X1) + t) + m * (2 * (uu * X)))).
  { rewrite (norm2_ext n _ (fun i => mulmv n M (fun j => fcoords x j - s * fcoords x1 j) i + s * (- (fcoords y i - mulmv n M (fcoords x1) i) + (fcoords y i - mu * fcoords x i)))).
    - eapply Rle_trans; [apply norm2_tri|]. apply Rplus_le_compat; [apply frob_bound|]. rewrite (norm2_any n s (fun i => - (fcoords y i - mulmv n M (fcoords x1) i) + (fcoords y i - mu * fcoords x i))). replace (Rabs s) with 1 by (destruct Hs as [-> | ->]; [rewrite Rabs_R1|rewrite Rabs_left by lra]; lra). rewrite Rmult_1_l. eapply Rle_trans; [apply norm2_tri|]. apply Rplus_le_compat; [|exact GX].
      eapply Rle_trans; [|exact ME]. right. rewrite <- norm2_abs, <- (norm2_abs n (fun i => fcoords y i - _)). apply norm2_ext. intros i _. apply Rabs_Ropp.
    - intros i Hi. rewrite mulmv_minus, mulmv_scal. ring. }
  eapply Rle_trans; [exact SP|]. assert (TT : bpow radix2 (-1020) = 1024 * t) by (unfold t; change (-1020)%Z with (10 + -1030)%Z; rewrite bpow_plus; reflexivity). rewrite TT.
  assert (MU : m * (2 * (uu * X)) <= 4 * uu * (p * X1 + (3 * v * (p * X1) + t))) by (replace (m * (2 * (uu * X))) with (2 * uu * (m * X)) by ring; nra).
  assert (PX0 : 0 <= p * X1) by (apply Rmult_le_pos; auto). assert (VPX : v * (p * X1) <= p * X1 / 1000) by nra. assert (MU2 : m * (2 * (uu * X)) <= 5 * v * (p * X1) + t). { eapply Rle_trans; [exact MU|]. apply Rle_trans with (4 * uu * (1003 / 1000 * (p * X1)) + 4 * uu * t); [nra|]. assert (uu * (p * X1) <= v * (p * X1)) by (apply Rmult_le_compat_r; lra). nra. }
  assert (X1B2 : X1 <= 3 / 2 + (1 + 5 * v) * tt + t) by lra. assert (VT : 0 <= v * tt <= tt / 1000) by (split; nra).
  assert (FIN : p * D + 8 * v * (p * X1) <= p * ((1 + 16 * v) * tt + 16 * v)).
  { replace (p * D + 8 * v * (p * X1)) with (p * (D + 8 * v * X1)) by ring. apply Rmult_le_compat_l; [exact P0|]. assert (8 * v * X1 <= 8 * v * (3 / 2 + (1 + 5 * v) * tt + t)) by (apply Rmult_le_compat_l; lra). assert (v * (v * tt) <= v * tt / 1000) by nra. assert (v * t <= v / 1000) by nra. nra. }
  lra.
Qed.
Lemma rayleigh_residual (x x1 y : Arr F) (tol : f64) : is_vec n x1 -> a_dot_mv a x1 = Ok y -> p_unit y = Ok x -> fin tol = true -> p_close (tol : F) x x1 = Ok true ->
  1 / 2 <= dot n (fcoords x) (fcoords x) <= 2 ->
  norm2 n (fun i => mulmv n M (fcoords x) i - rayleigh n M (fcoords x) * fcoords x i) <= Phi * ((1 + 16 * (NN * uu)) * val tol + 16 * (NN * uu)) + bpow radix2 (-1020).
Proof.
  intros Hx1 Ey Ex Ft HC HD. pose proof (mv_vec x1 y Hx1 Ey) as Hy. destruct (unit_ok y Hy) as (d & x' & _ & Ex' & Hx & VX). rewrite Ex in Ex'. injection Ex' as <-. apply (gen_residual x x1 y _ tol Hx Hx1 Ey VX Ft HC).
  set (X := norm2 n (fcoords x)). assert (X0 : 0 <= X) by apply sqrt_pos. assert (XX : X * X = dot n (fcoords x) (fcoords x)) by apply norm2_sq. split; [|nra]. apply Rle_trans with (bpow radix2 (-1)); [apply bpow_le; lia|]. change (bpow radix2 (-1)) with (/ 2). nra.
Qed.
(** ... with the value the code returns *)
Lemma value_residual (x x1 y : Arr F) (tol q : f64) : is_vec n x1 -> a_dot_mv a x1 = Ok y -> p_unit y = Ok x -> fin tol = true -> p_close (tol : F) x x1 = Ok true ->
  p_quot a x = Ok q -> fin q = true -> 1 / 2 <= dot n (fcoords x) (fcoords x) <= 2 ->
  norm2 n (fun i => mulmv n M (fcoords x) i - val q * fcoords x i) <=
    Phi * ((1 + 16 * (NN * uu)) * val tol + 36 * (NN * uu) + 3 / 2 * Rabs (dot n (fcoords x) (fcoords x) - 1)) + bpow radix2 (-1000).
Proof.
  intros Hx1 Ey Ex Ft HC Eq Fq HD. pose proof uu_small as U. destruct (n_facts n Hn H20) as [N1 NU]. pose proof (rayleigh_residual x x1 y tol Hx1 Ey Ex Ft HC HD) as RR.
  assert (Hx : is_vec n x). { destruct (unit_ok y (mv_vec x1 y Hx1 Ey)) as (d & x' & _ & Ex' & Hx & _). rewrite Ex in Ex'. injection Ex' as <-. exact Hx. }
  destruct (quot_err x q Hx Eq Fq (proj2 HD)) as [Fx QE]. set (X := norm2 n (fcoords x)) in *. set (D := dot n (fcoords x) (fcoords x)) in *. assert (X0 : 0 <= X) by apply sqrt_pos. assert (XX : X * X = D) by apply norm2_sq. assert (XB : X <= 3 / 2) by nra.
  assert (P0 : 0 <= Phi) by apply sqrt_pos. assert (QB : Rabs (quad n M (fcoords x)) <= Phi * D). { unfold quad. eapply Rle_trans; [apply dot_norm2|]. fold X. apply Rle_trans with (X * (Phi * X)); [apply Rmult_le_compat_l; [exact X0|apply frob_bound]|]. right. rewrite <- XX. ring. }
  assert (RB : Rabs (val q - rayleigh n M (fcoords x)) <= 13 * (NN * uu) * Phi + bpow radix2 (-1020) + Phi * Rabs (D - 1)).
  { unfold rayleigh. fold D. set (Q := quad n M (fcoords x)) in *. replace (val q - Q / D) with ((val q - Q) + Q / D * (D - 1)) by (field; lra). eapply Rle_trans; [apply Rabs_triang|]. apply Rplus_le_compat; [exact QE|]. rewrite Rabs_mult. apply Rmult_le_compat_r; [apply Rabs_pos|].
    unfold Rdiv. rewrite Rabs_mult, Rabs_inv, (Rabs_pos_eq D) by lra. apply Rmult_le_reg_r with D; [lra|]. rewrite Rmult_assoc, Rinv_l by lra. lra. }
  rewrite (norm2_ext n _ (fun i => (mulmv n M (fcoords x) i - rayleigh n M (fcoords x) * fcoords x i) + - (val q - rayleigh n M (fcoords x)) * fcoords x i)) by (intros; ring).
  eapply Rle_trans; [apply norm2_tri|]. rewrite (norm2_any n _ (fcoords x)), Rabs_Ropp. fold X. set (E := Rabs (val q - rayleigh n M (fcoords x))) in *. set (dd := Rabs (D - 1)) in *. assert (0 <= dd) by apply Rabs_pos.
  set (p := Phi) in *. set (v := NN * uu) in *. assert (V0 : 0 <= v) by (unfold v; apply Rmult_le_pos; lra). set (t := bpow radix2 (-1020)) in *. assert (T0 : 0 < t) by apply bpow_gt_0. assert (TT : bpow radix2 (-1000) = 1048576 * t) by (unfold t; change (-1000)%Z with (20 + -1020)%Z; rewrite bpow_plus; reflexivity). rewrite TT.
  assert (VP : 0 <= v * p) by (apply Rmult_le_pos; lra). assert (PD : 0 <= p * dd) by (apply Rmult_le_pos; lra). assert (EX : E * X <= 3 / 2 * (13 * v * p + t + p * dd)). { assert (0 <= E) by apply Rabs_pos. nra. }
  replace (p * ((1 + 16 * v) * val tol + 36 * v + 3 / 2 * dd)) with (p * ((1 + 16 * v) * val tol + 16 * v) + 20 * (v * p) + 3 / 2 * (p * dd)) by ring. lra.
Qed.
(** ** Scaling to unit length *)
Lemma unit_acc (y x : Arr F) : is_vec n y -> vf y -> (forall i, (i < n)%nat -> Rabs (fcoords y i) <= bpow radix2 290) -> bpow radix2 (-900) <= dot n (fcoords y) (fcoords y) ->
  p_unit y = Ok x -> vf x /\ Rabs (dot n (fcoords x) (fcoords x) - 1) <= 24 * (NN * uu).
Proof.
  intros Hy Fy BY LY Ex. pose proof uu_small as U. destruct (n_facts n Hn H20) as [N1 NU]. destruct (unit_ok y Hy) as (d & x' & Ed & Ex' & Hx & VX). rewrite Ex in Ex'. injection Ex' as <-.
  assert (AF : all_finite y). { apply Forall_forall. intros w Hw. destruct (In_nth _ _ (n0 (N := F)) Hw) as (i & Hi & <-). apply Fy. destruct Hy as [L _]. eapply Nat.lt_le_trans; [exact Hi|]. apply Nat.eq_le_incl. exact L. }
  destruct (dot_finite lm n y y ltac:(lia) Hy Hy AF AF) as (d' & Ed' & Fd).
  { intros i Hi. rewrite Rabs_mult. apply Rle_trans with (bpow radix2 290 * bpow radix2 290); [apply Rmult_le_compat; auto using Rabs_pos|]. rewrite <- bpow_plus. apply bpow_le. lia. }
  rewrite Ed in Ed'. injection Ed' as <-. pose proof (dot_f64 lm n y y d ltac:(lia) Hy Hy Ed Fd) as DE.
  set (D := dot n (fcoords y) (fcoords y)) in *. assert (DD : Rsum n (fun i => Rabs (fcoords y i * fcoords y i)) = D). { apply Rsum_ext. intros i Hi. apply Rabs_pos_eq. apply Rle_0_sqr. } rewrite DD in DE.
  pose proof (bpow_gt_0 radix2 (-900)) as P9. assert (D0 : 0 < D) by lra. set (S := sqrt D). assert (S0 : 0 < S) by (apply sqrt_lt_R0; exact D0). assert (SS : S * S = D) by (apply sqrt_sqrt; lra).
  assert (U1 : uu <= NN * uu) by (rewrite <- (Rmult_1_l uu) at 1; apply Rmult_le_compat_r; lra). replace (3 * NN * uu) with (3 * (NN * uu)) in DE by ring.
  assert (NE : 4 * NN * ee <= bpow radix2 (-1030)). { eapply Rle_trans; [|exact n2_ee]. pose proof (bpow_gt_0 radix2 (-1075)) as E0. assert (0 <= NN * ee) by (apply Rmult_le_pos; lra). nra. }
  assert (NE1 : 4 * NN * ee <= uu * D). { eapply Rle_trans; [exact NE|]. apply Rle_trans with (uu * bpow radix2 (-900)); [rewrite <- bpow_plus; apply bpow_le; lia|apply Rmult_le_compat_l; lra]. }
  assert (NE2 : NN * ee <= uu / 1000). { apply Rle_trans with (bpow radix2 (-1030)). - pose proof (bpow_gt_0 radix2 (-1075)) as E0. assert (0 <= NN * ee) by (apply Rmult_le_pos; lra). lra. - apply Rle_trans with (bpow radix2 (-63)); [apply bpow_le; lia|]. replace (bpow radix2 (-63)) with (uu * bpow radix2 (-10)) by (rewrite <- bpow_plus; reflexivity). change (bpow radix2 (-10)) with (/ 1024). lra. }
  set (v := NN * uu) in *. assert (V0 : 0 <= v <= / 1000) by (split; [unfold v; apply Rmult_le_pos; lra|exact NU]).
  assert (Nd : near (4 * v) (val d) D) by (unfold near; nra). pose proof (near_in _ _ _ Nd) as Id. assert (d0 : 0 < val d) by nra.
  set (s0 := sqrt (val d)). assert (s00 : 0 <= s0) by apply sqrt_pos. assert (ss0 : s0 * s0 = val d) by (apply sqrt_sqrt; lra).
  assert (Ns : near (4 * v) s0 S).
  { apply near_of. split.
    - apply le_sq; [exact s00|]. rewrite ss0. apply Rle_trans with (D - 4 * v * D); [|lra]. replace ((S - 4 * v * S) * (S - 4 * v * S)) with (D * ((1 - 4 * v) * (1 - 4 * v))) by (rewrite <- SS; ring). replace (D - 4 * v * D) with (D * (1 - 4 * v)) by ring. apply Rmult_le_compat_l; [lra|nra].
    - apply le_sq; [nra|]. rewrite ss0. apply Rle_trans with (D + 4 * v * D); [lra|]. replace ((S + 4 * v * S) * (S + 4 * v * S)) with (D * ((1 + 4 * v) * (1 + 4 * v))) by (rewrite <- SS; ring). replace (D + 4 * v * D) with (D * (1 + 4 * v)) by ring. apply Rmult_le_compat_l; [lra|nra]. }
  assert (SL : bpow radix2 (-450) <= S). { apply le_sq; [lra|]. rewrite <- bpow_plus, SS. exact LY. }
  assert (SU : S <= bpow radix2 310). { apply Rle_trans with (NN * bpow radix2 290); [exact (norm2_max n Hn H20 (fcoords y) (bpow radix2 290) BY)|]. assert (A2 : NN <= bpow radix2 20). { rewrite INR_IZR_INZ. change (bpow radix2 20) with (IZR (2 ^ 20)). now apply IZR_le. } change 310%Z with (20 + 290)%Z. rewrite bpow_plus. apply Rmult_le_compat_r; [apply bpow_ge_0|exact A2]. }
  destruct (fsqrt_fin d Fd ltac:(lra)) as [Vs Fs]. fold s0 in Vs. set (s := fsqrt d) in *.
  assert (Nr : near (7 * v) (val s) S). { rewrite Vs. apply (near_weaken (4 * v + 3 * uu)); [lra|lra|]. apply near_rnd; [exact Ns|lra|]. eapply Rle_trans; [|exact SL]. apply bpow_le. lia. }
  pose proof (near_pos _ _ _ Nr ltac:(lra) S0) as s_pos. pose proof (near_inv' _ _ _ Nr ltac:(lra) S0) as Ni.
  assert (IL : bpow radix2 (-310) <= 1 / S <= bpow radix2 450). { unfold Rdiv. rewrite Rmult_1_l. split; [change (-310)%Z with (- (310))%Z; rewrite bpow_opp; apply Rinv_le; [exact S0|exact SU]|]. change 450%Z with (- (-450))%Z. rewrite bpow_opp. apply Rinv_le; [apply bpow_gt_0|exact SL]. }
  assert (Nq : near (103 / 10 * v) (rnd (1 / val s)) (1 / S)). { apply (near_weaken (102 / 100 * (7 * v) + 3 * uu)); [pose proof (bpow_gt_0 radix2 (-310)); lra|lra|]. apply near_rnd; [exact Ni|lra|]. eapply Rle_trans; [|exact (proj1 IL)]. apply bpow_le. lia. }
  destruct (fofZ_small 1 ltac:(lia)) as [V1 F1]. destruct (fdiv_fin (fofZ 1) s F1 ltac:(lra)) as [Vr Fr].
  { rewrite V1. apply near_in in Nq. assert (B1 : Rabs (rnd (1 / val s)) <= 2 * bpow radix2 450). { pose proof (bpow_gt_0 radix2 (-310)). apply Rabs_le. split; nra. } eapply Rle_lt_trans; [exact B1|]. apply Rle_lt_trans with (bpow radix2 451); [change 451%Z with (1 + 450)%Z; rewrite bpow_plus; change (bpow radix2 1) with 2; lra|apply bpow_lt; reflexivity]. }
  rewrite V1 in Vr. set (r := fdiv (fofZ 1) s) in *. assert (Nq2 : near (103 / 10 * v) (val r) (1 / S)) by (rewrite Vr; exact Nq). clear Nq Vr.
  set (w := fun i => fcoords y i / S). assert (W1 : norm2 n w = 1). { rewrite (norm2_ext n w (fun i => / S * fcoords y i)) by (intros; unfold w; field; lra). rewrite (norm2_any n (/ S) (fcoords y)), Rabs_pos_eq by (left; apply Rinv_0_lt_compat; exact S0). unfold norm2. fold D. fold S. field. lra. }
  assert (XI : forall i, (i < n)%nat -> fin (vget x i : f64) = true /\ Rabs (fcoords x i - w i) <= 114 / 10 * v * Rabs (w i) + ee).
  { intros i Hi. rewrite (VX i Hi). assert (WI : Rabs (w i) <= 1) by (rewrite <- W1; apply (coord_norm n w i Hi)).
    assert (K : Rabs (fcoords y i * val r - w i) <= 103 / 10 * v * Rabs (w i)). { replace (fcoords y i * val r - w i) with (w i * (S * (val r - 1 / S))) by (unfold w; field; lra). rewrite Rabs_mult, Rmult_comm. apply Rmult_le_compat_r; [apply Rabs_pos|]. rewrite Rabs_mult, (Rabs_pos_eq S) by lra. apply Rle_trans with (S * (103 / 10 * v * (1 / S))); [apply Rmult_le_compat_l; [lra|exact Nq2]|]. right. field. lra. }
    assert (K2 : Rabs (fcoords y i * val r) <= 11 / 10 * Rabs (w i)). { replace (fcoords y i * val r) with (w i + (fcoords y i * val r - w i)) by ring. eapply Rle_trans; [apply Rabs_triang|]. pose proof (Rabs_pos (w i)). nra. }
    destruct (fmul_fin (vget y i) r (Fy i Hi) Fr) as [Vx Fx]. { change (val (vget y i : f64)) with (fcoords y i). assert (B2 : Rabs (rnd (fcoords y i * val r)) <= bpow radix2 1). { apply abs_round_le_generic; [typeclasses eauto|typeclasses eauto|apply bpow_generic; lia|]. change (bpow radix2 1) with 2. lra. } eapply Rle_lt_trans; [exact B2|apply bpow_lt; reflexivity]. }
    split; [exact Fx|]. assert (Vx2 : fcoords x i = rnd (fcoords y i * val r)). { eapply eq_trans; [exact (f_equal (fun v : f64 => B2R v) (VX i Hi))|exact Vx]. }
    rewrite Vx2. pose proof (rnd_err (fcoords y i * val r)) as RE. replace (rnd (fcoords y i * val r) - w i) with ((rnd (fcoords y i * val r) - fcoords y i * val r) + (fcoords y i * val r - w i)) by ring. eapply Rle_trans; [apply Rabs_triang|]. pose proof (Rabs_pos (w i)). assert (uu * Rabs (fcoords y i * val r) <= 11 / 10 * v * Rabs (w i)) by nra. nra. }
  split; [intros i Hi; apply XI; exact Hi|].
  set (X := norm2 n (fcoords x)). assert (X0 : 0 <= X) by apply sqrt_pos. assert (XX : X * X = dot n (fcoords x) (fcoords x)) by apply norm2_sq.
  assert (DW : norm2 n (fun i => fcoords x i - w i) <= 115 / 10 * v).
  { apply Rle_trans with (norm2 n (fun i => 114 / 10 * v * Rabs (w i) + ee)); [apply norm2_mono; intros i Hi; apply XI; exact Hi|]. eapply Rle_trans; [apply (norm2_tri n (fun i => 114 / 10 * v * Rabs (w i)) (fun _ => ee))|]. rewrite (norm2_any n (114 / 10 * v) (fun i => Rabs (w i))), norm2_abs, W1, Rabs_pos_eq by lra.
    assert (norm2 n (fun _ => ee) <= NN * ee). { apply (norm2_max n Hn H20). intros i _. rewrite Rabs_pos_eq; [lra|apply bpow_ge_0]. } lra. }
  assert (B1 : X <= 1 + 115 / 10 * v). { unfold X. eapply Rle_trans; [apply (norm2_sub (fcoords x) w)|]. rewrite W1. lra. }
  assert (B2 : 1 <= X + 115 / 10 * v). { rewrite <- W1 at 1. eapply Rle_trans; [apply (norm2_sub w (fcoords x))|]. apply Rplus_le_compat_l. eapply Rle_trans; [|exact DW]. right. rewrite <- (norm2_abs n (fun i => w i - fcoords x i)), <- (norm2_abs n (fun i => fcoords x i - w i)). apply norm2_ext. intros i _. apply Rabs_minus_sym. }
  rewrite <- XX. apply Rabs_le. split; nra.
Qed.
(** ** Scaling to 1-norm 1 (variant 4) *)
Lemma divs_get (y : Arr F) (c : F) : is_vec n y -> is_vec n (a_divs y c) /\ forall i, (i < n)%nat -> (vget (a_divs y c) i : f64) = fmul (vget y i) (fdiv (fofZ 1) c).
Proof.
  intros [L C]. split; [split; [cbn; rewrite map_length; exact L|exact C]|]. intros i Hi. unfold vget, a_divs, a_mapd. cbn [adata]. rewrite (nth_indep _ _ (nmul (n := F) (n0 (N := F)) (ndiv (n := F) (n1 (N := F)) c))) by (rewrite map_length, L; exact Hi).
  exact (map_nth (fun v => nmul (n := F) v (ndiv (n := F) (n1 (N := F)) c)) (adata y) (n0 (N := F)) i).
Qed.
Lemma norm1_tri (f g : vec) : norm1 n (fun i => f i + g i) <= norm1 n f + norm1 n g.
Proof. unfold norm1. rewrite <- Rsum_plus. apply Rsum_le. intros i _. apply Rabs_triang. Qed.
Lemma scale1_acc (y : Arr F) : is_vec n y -> vf y -> (forall i, (i < n)%nat -> Rabs (fcoords y i) <= bpow radix2 290) -> bpow radix2 (-900) <= norm1 n (fcoords y) ->
  vf (a_divs y (norm_l1 y)) /\ Rabs (norm1 n (fcoords (a_divs y (norm_l1 y))) - 1) <= 8 * (NN * uu).
Proof.
  intros Hy Fy BY LY. pose proof uu_small as U. destruct (n_facts n Hn H20) as [N1 NU]. destruct (divs_get y (norm_l1 y) Hy) as [Hx VX]. set (x := a_divs y (norm_l1 y)) in *. rewrite (l1_ok y Hy) in VX. set (fd := fun i => Babs (vget y i : f64)).
  set (L := accum (N := F) (nsum0 (n := F)) (fun i => nabs (n := F) (vget y i)) n : f64) in *.
  assert (FL : fin L = true). { apply (sum_small lm (nsum0 (n := F)) fd eq_refl eq_refl n H20). intros k Hk. unfold fd. rewrite fabs_fin, fabs_val, Rabs_Rabsolu. split; [exact (Fy k Hk)|exact (BY k Hk)]. }
  pose proof (sum_err lm (nsum0 (n := F)) fd eq_refl n FL (nu8 n ltac:(lia))) as E.
  assert (E1 : Rsum n (fun k => val (fd k)) = norm1 n (fcoords y)) by (apply Rsum_ext; intros i _; apply fabs_val).
  assert (E2 : Rsum n (fun k => Rabs (val (fd k))) = norm1 n (fcoords y)) by (apply Rsum_ext; intros i _; unfold fd; rewrite fabs_val, Rabs_Rabsolu; reflexivity).
  rewrite E1, E2 in E. change (accum (N := F) (nsum0 (n := F)) (fd : nat -> num F) n : f64) with L in E. clear E1 E2. set (S := norm1 n (fcoords y)) in *. pose proof (bpow_gt_0 radix2 (-900)) as P9. assert (S0 : 0 < S) by lra.
  assert (U1 : uu <= NN * uu) by (rewrite <- (Rmult_1_l uu) at 1; apply Rmult_le_compat_r; lra). replace (2 * NN * uu) with (2 * (NN * uu)) in E by ring.
  assert (NE : 4 * NN * ee <= bpow radix2 (-1030)). { eapply Rle_trans; [|exact n2_ee]. pose proof (bpow_gt_0 radix2 (-1075)) as E0. assert (0 <= NN * ee) by (apply Rmult_le_pos; lra). nra. }
  assert (NE1 : 4 * NN * ee <= uu * S). { eapply Rle_trans; [exact NE|]. apply Rle_trans with (uu * bpow radix2 (-900)); [rewrite <- bpow_plus; apply bpow_le; lia|apply Rmult_le_compat_l; lra]. }
  assert (NE2 : NN * ee <= uu / 1000). { apply Rle_trans with (bpow radix2 (-1030)). - pose proof (bpow_gt_0 radix2 (-1075)) as E0. assert (0 <= NN * ee) by (apply Rmult_le_pos; lra). lra. - apply Rle_trans with (bpow radix2 (-63)); [apply bpow_le; lia|]. replace (bpow radix2 (-63)) with (uu * bpow radix2 (-10)) by (rewrite <- bpow_plus; reflexivity). change (bpow radix2 (-10)) with (/ 1024). lra. }
  set (v := NN * uu) in *. assert (V0 : 0 <= v <= / 1000) by (split; [unfold v; apply Rmult_le_pos; lra|exact NU]).
  assert (E0 : 0 <= 2 * NN * ee) by (apply Rmult_le_pos; [lra|apply bpow_ge_0]). assert (US : uu * S <= v * S) by (apply Rmult_le_compat_r; lra).
  assert (Nr : near (3 * v) (val L) S) by (unfold near; lra).
  pose proof (near_pos _ _ _ Nr ltac:(lra) S0) as s_pos. pose proof (near_inv' _ _ _ Nr ltac:(lra) S0) as Ni.
  assert (SU : S <= bpow radix2 310). { apply Rle_trans with (NN * bpow radix2 290); [exact (sum_le n (fcoords y) (bpow radix2 290) BY)|]. assert (A2 : NN <= bpow radix2 20). { rewrite INR_IZR_INZ. change (bpow radix2 20) with (IZR (2 ^ 20)). now apply IZR_le. } change 310%Z with (20 + 290)%Z. rewrite bpow_plus. apply Rmult_le_compat_r; [apply bpow_ge_0|exact A2]. }
  assert (IL : bpow radix2 (-310) <= 1 / S <= bpow radix2 900). { unfold Rdiv. rewrite Rmult_1_l. split; [change (-310)%Z with (- (310))%Z; rewrite bpow_opp; apply Rinv_le; [exact S0|exact SU]|]. change 900%Z with (- (-900))%Z. rewrite bpow_opp. apply Rinv_le; [apply bpow_gt_0|exact LY]. }
  assert (Nq : near (62 / 10 * v) (rnd (1 / val L)) (1 / S)). { apply (near_weaken (102 / 100 * (3 * v) + 3 * uu)); [pose proof (bpow_gt_0 radix2 (-310)); lra|lra|]. apply near_rnd; [exact Ni|lra|]. eapply Rle_trans; [|exact (proj1 IL)]. apply bpow_le. lia. }
  destruct (fofZ_small 1 ltac:(lia)) as [V1 F1]. destruct (fdiv_fin (fofZ 1) L F1 ltac:(lra)) as [Vr Fr].
  { rewrite V1. apply near_in in Nq. assert (B1 : Rabs (rnd (1 / val L)) <= 2 * bpow radix2 900). { pose proof (bpow_gt_0 radix2 (-310)). apply Rabs_le. split; nra. } eapply Rle_lt_trans; [exact B1|]. apply Rle_lt_trans with (bpow radix2 901); [change 901%Z with (1 + 900)%Z; rewrite bpow_plus; change (bpow radix2 1) with 2; lra|apply bpow_lt; reflexivity]. }
  rewrite V1 in Vr. set (r := fdiv (fofZ 1) L) in *. assert (Nq2 : near (62 / 10 * v) (val r) (1 / S)) by (rewrite Vr; exact Nq). clear Nq Vr.
  set (w := fun i => fcoords y i / S). assert (W1 : norm1 n w = 1). { unfold norm1. rewrite (Rsum_ext n _ (fun i => / S * Rabs (fcoords y i))). - rewrite Rsum_scal. change (/ S * S = 1). field. lra. - intros i _. unfold w, Rdiv. rewrite Rabs_mult, (Rabs_pos_eq (/ S)) by (left; apply Rinv_0_lt_compat; exact S0). ring. }
  assert (XI : forall i, (i < n)%nat -> fin (vget x i : f64) = true /\ Rabs (fcoords x i - w i) <= 73 / 10 * v * Rabs (w i) + ee).
  { intros i Hi. rewrite (VX i Hi). assert (WI : Rabs (w i) <= 1) by (rewrite <- W1; exact (Rsum_pos_one n i (fun i => Rabs (w i)) Hi (fun j _ => Rabs_pos (w j)))).
    assert (K : Rabs (fcoords y i * val r - w i) <= 62 / 10 * v * Rabs (w i)). { replace (fcoords y i * val r - w i) with (w i * (S * (val r - 1 / S))) by (unfold w; field; lra). rewrite Rabs_mult, Rmult_comm. apply Rmult_le_compat_r; [apply Rabs_pos|]. rewrite Rabs_mult, (Rabs_pos_eq S) by lra. apply Rle_trans with (S * (62 / 10 * v * (1 / S))); [apply Rmult_le_compat_l; [lra|exact Nq2]|]. right. field. lra. }
    assert (K2 : Rabs (fcoords y i * val r) <= 11 / 10 * Rabs (w i)). { replace (fcoords y i * val r) with (w i + (fcoords y i * val r - w i)) by ring. eapply Rle_trans; [apply Rabs_triang|]. pose proof (Rabs_pos (w i)). nra. }
    destruct (fmul_fin (vget y i) r (Fy i Hi) Fr) as [Vx Fx]. { change (val (vget y i : f64)) with (fcoords y i). assert (B2 : Rabs (rnd (fcoords y i * val r)) <= bpow radix2 1). { apply abs_round_le_generic; [typeclasses eauto|typeclasses eauto|apply bpow_generic; lia|]. change (bpow radix2 1) with 2. lra. } eapply Rle_lt_trans; [exact B2|apply bpow_lt; reflexivity]. }
    split; [exact Fx|]. assert (Vx2 : fcoords x i = rnd (fcoords y i * val r)). { eapply eq_trans; [exact (f_equal (fun v : f64 => B2R v) (VX i Hi))|exact Vx]. }
    rewrite Vx2. pose proof (rnd_err (fcoords y i * val r)) as RE. replace (rnd (fcoords y i * val r) - w i) with ((rnd (fcoords y i * val r) - fcoords y i * val r) + (fcoords y i * val r - w i)) by ring. eapply Rle_trans; [apply Rabs_triang|]. pose proof (Rabs_pos (w i)). assert (uu * Rabs (fcoords y i * val r) <= 11 / 10 * v * Rabs (w i)) by nra. nra. }
  split; [intros i Hi; apply XI; exact Hi|].
  assert (DW : norm1 n (fun i => fcoords x i - w i) <= 74 / 10 * v).
  { unfold norm1. apply Rle_trans with (Rsum n (fun i => 73 / 10 * v * Rabs (w i) + ee)); [apply Rsum_le; intros i Hi; apply XI; exact Hi|]. rewrite Rsum_plus, Rsum_scal. change (Rsum n (fun i => Rabs (w i))) with (norm1 n w). rewrite W1.
    assert (Rsum n (fun _ => ee) = NN * ee). { clear. induction n as [|m IH]; [cbn; lra|]. rewrite S_INR. cbn [Rsum]. lra. } lra. }
  assert (B1 : norm1 n (fcoords x) <= 1 + 74 / 10 * v). { rewrite <- W1. eapply Rle_trans; [|apply Rplus_le_compat_l; exact DW]. eapply Rle_trans; [|apply norm1_tri]. right. apply norm1_ext. intros; ring. }
  assert (B2 : 1 <= norm1 n (fcoords x) + 74 / 10 * v). { rewrite <- W1 at 1. eapply Rle_trans; [|apply Rplus_le_compat_l; exact DW]. apply Rle_trans with (norm1 n (fun i => fcoords x i + - (fcoords x i - w i))); [right; apply norm1_ext; intros; ring|]. eapply Rle_trans; [apply (norm1_tri (fcoords x) (fun i => - (fcoords x i - w i)))|]. apply Rplus_le_compat_l. right. apply Rsum_ext. intros i _. apply Rabs_Ropp. }
  apply Rabs_le. lra.
Qed.
(** ** Whole runs *)
Notation popt m tol := (mkPOptions (N := F) m tol).
Lemma quot_ok (x : Arr F) : is_vec n x -> exists q, p_quot a x = Ok q.
Proof.
  intros Hx. unfold p_quot. destruct (a_dot_mv a x) as [y|] eqn:E; [|rewrite (a_dot_mv_ok n n a x Hn Ha Hx) in E; discriminate]. cbn [bind]. rewrite (a_dot_ok n x y Hx (mv_vec x y Hx E)). eauto.
Qed.
Lemma close_ok (tol : F) (x y : Arr F) : is_vec n x -> is_vec n y -> exists b, p_close tol x y = Ok b.
Proof.
  intros [L1 C1] [L2 C2]. unfold p_close, a_sub, a_add, a_zip, a_len. rewrite L1, L2, Nat.eqb_refl. cbn [Res.assert bind]. destruct (nleb (n := F) _ tol); eauto.
Qed.
Definition reached (P : Arr F -> Prop) (tol : F) (m : nat) (x : Arr F) (q : F) (k : nat) : Prop :=
  is_vec n x /\ P x /\ p_quot a x = Ok q /\ (k <= m)%nat /\
  ((k < m)%nat -> exists x1 y, is_vec n x1 /\ P x1 /\ a_dot_mv a x1 = Ok y /\ p_unit y = Ok x /\ p_close tol x x1 = Ok true).
Lemma run1 (P : Arr F -> Prop) (x0 : Arr F) (m : nat) (tol : F) : is_vec n x0 -> (forall u, p_unit x0 = Ok u -> P u) ->
  (forall x1 y x, is_vec n x1 -> P x1 -> a_dot_mv a x1 = Ok y -> p_unit y = Ok x -> P x) ->
  exists x q k, power_iteration a x0 (popt m tol) = Ok (x, (q, k)) /\ reached P tol m x q k.
Proof.
  intros H0 HI HS. unfold power_iteration. cbn [p_max_iters p_tolerance]. destruct (unit_ok x0 H0) as (d & u & _ & Eu & Hu & _). rewrite Eu. cbn [bind]. specialize (HI u Eu).
  match goal with |- context [loop_range 0 m ?body ?s0] =>
    destruct (loop_range_inv (fun _ x => is_vec n x /\ P x) (fun r : Arr F * (F * nat) => let '(x, (q, k)) := r in reached P tol m x q k) 0 m body s0) as [(s & E & Hs & Ps)|([x [q k]] & E & HR)]; [lia|auto| | |] end.
  - intros i x1 Hi [Hx1 P1]. destruct (a_dot_mv a x1) as [y|] eqn:Ey; [|rewrite (a_dot_mv_ok n n a x1 Hn Ha Hx1) in Ey; discriminate]. cbn [bind]. destruct (unit_ok y (mv_vec x1 y Hx1 Ey)) as (d2 & x & _ & Ex & Hx & _). rewrite Ex. cbn [bind].
    pose proof (HS x1 y x Hx1 P1 Ey Ex) as Px. destruct (close_ok tol x x1 Hx Hx1) as [b Eb]. rewrite Eb. cbn [bind]. destruct b.
    + right. destruct (quot_ok x Hx) as [q Eq]. rewrite Eq. cbn [bind]. eexists. split; [reflexivity|]. split; [exact Hx|]. split; [exact Px|]. split; [exact Eq|]. split; [lia|]. intros _. exists x1, y. auto.
    + left. exists x. auto.
  - rewrite E. cbn [bind]. destruct (quot_ok s Hs) as [q Eq]. rewrite Eq. cbn [bind]. exists s, q, m. split; [reflexivity|]. split; [exact Hs|]. split; [exact Ps|]. split; [exact Eq|]. split; [lia|]. intros K. exfalso. lia.
  - rewrite E. cbn [bind]. exists x, q, k. auto.
Qed.
Lemma run2 (P : Arr F -> Prop) (x0 : Arr F) (m : nat) (tol : F) : is_vec n x0 -> (forall u, p_unit x0 = Ok u -> P u) ->
  (forall x1 y x, is_vec n x1 -> P x1 -> a_dot_mv a x1 = Ok y -> p_unit y = Ok x -> P x) ->
  exists x q k, power_iteration2 a x0 (popt m tol) = Ok (x, (q, k)) /\ is_vec n x /\ P x /\ p_quot a x = Ok q /\ (k <= m)%nat.
Proof.
  intros H0 HI HS. unfold power_iteration2. cbn [p_max_iters p_tolerance]. destruct (unit_ok x0 H0) as (d & u & _ & Eu & Hu & _). rewrite Eu. cbn [bind]. specialize (HI u Eu).
  destruct (a_dot_mv a u) as [nv|] eqn:Ev; [|rewrite (a_dot_mv_ok n n a u Hn Ha Hu) in Ev; discriminate]. cbn [bind]. destruct (a_dot u nv) as [e|] eqn:Ee; [|rewrite (a_dot_ok n u nv Hu (mv_vec u nv Hu Ev)) in Ee; discriminate]. cbn [bind].
  match goal with |- context [loop_range 0 m ?body ?s0] =>
    destruct (loop_range_inv (fun _ (st : Arr F * Arr F * F) => let '(x, y, q) := st in is_vec n x /\ P x /\ a_dot_mv a x = Ok y /\ a_dot x y = Ok q) (fun r : Arr F * (F * nat) => let '(x, (q, k)) := r in is_vec n x /\ P x /\ p_quot a x = Ok q /\ (k <= m)%nat) 0 m body s0) as [([[x y] q] & E & Hs & Ps & Ey & Eq)|([x [q k]] & E & HR)]; [lia|auto| | |] end.
  - intros i [[x1 y1] q1] Hi (Hx1 & P1 & Ey1 & _). destruct (unit_ok y1 (mv_vec x1 y1 Hx1 Ey1)) as (d2 & x & _ & Ex & Hx & _). rewrite Ex. cbn [bind]. pose proof (HS x1 y1 x Hx1 P1 Ey1 Ex) as Px.
    destruct (a_dot_mv a x) as [y|] eqn:Ey; [|rewrite (a_dot_mv_ok n n a x Hn Ha Hx) in Ey; discriminate]. cbn [bind]. destruct (a_dot x y) as [q|] eqn:Eq; [|rewrite (a_dot_ok n x y Hx (mv_vec x y Hx Ey)) in Eq; discriminate]. cbn [bind].
    assert (EQ : p_quot a x = Ok q) by (unfold p_quot; rewrite Ey; exact Eq).
    destruct (nleb (n := F) _ tol); [right|left]; eexists; (split; [reflexivity|]); (split; [exact Hx|]); (split; [exact Px|]).
    + split; [exact EQ|lia].
    + split; [exact Ey|exact Eq].
  - rewrite E. cbn [bind]. exists x, q, m. split; [reflexivity|]. split; [exact Hs|]. split; [exact Ps|]. split; [|lia]. unfold p_quot. rewrite Ey. exact Eq.
  - rewrite E. cbn [bind]. exists x, q, k. auto.
Qed.
(** ** Matrices far from singular *)
Definition unitish (x : Arr F) : Prop := vf x /\ Rabs (dot n (fcoords x) (fcoords x) - 1) <= 24 * (NN * uu).
Lemma row_fin (x : Arr F) (y : Arr F) : is_vec n x -> all_finite a -> vf x -> a_dot_mv a x = Ok y ->
  (forall i j, (i < n)%nat -> (j < n)%nat -> Rabs (M i j * fcoords x j) <= bpow radix2 600) -> vf y.
Proof.
  intros Hx Fa Fx E HB i Hi. rewrite (a_dot_mv_ok n n a x Hn Ha Hx) in E. injection E as <-. unfold vget at 1. cbn [adata]. rewrite nth_map_seq by exact Hi.
  apply (accum_small lm (n0 (N := F)) (fun j => mget n (adata a) i j) (fun j => vget x j) (n0_val lm) (n0_fin lm) n ltac:(lia)). intros j Hj. split; [|split; [exact (Fx j Hj)|exact (HB i j Hi Hj)]].
  unfold all_finite in Fa. rewrite Forall_forall in Fa. apply Fa. unfold mget. apply nth_In. destruct Ha as [L _]. eapply Nat.lt_le_trans; [apply (flat_lt n n i j Hi Hj)|]. apply Nat.eq_le_incl. symmetry. exact L.
Qed.
Lemma entry_frob i j : (i < n)%nat -> (j < n)%nat -> Rabs (M i j) <= Phi.
Proof.
  intros Hi Hj. unfold frob. rewrite <- (sqrt_square (Rabs (M i j))) by apply Rabs_pos. apply sqrt_le_1_alt. rewrite <- Rabs_mult, Rabs_pos_eq by apply Rle_0_sqr.
  apply Rle_trans with (Rsum n (fun j => M i j * M i j)).
  - exact (Rsum_pos_one n j (fun j => M i j * M i j) Hj (fun k _ => Rle_0_sqr (M i k))).
  - apply (Rsum_pos_one n i (fun i => Rsum n (fun j => M i j * M i j)) Hi). intros k _. apply (dot_self_nonneg n (fun j => M k j)).
Qed.
Lemma step_unit (sigma : R) (x1 y x : Arr F) : all_finite a -> Phi <= bpow radix2 200 -> bpow radix2 (-400) <= sigma -> 6 * (NN * uu) * Phi <= sigma ->
  (forall u, sigma * norm2 n u <= norm2 n (mulmv n M u)) -> is_vec n x1 -> unitish x1 -> a_dot_mv a x1 = Ok y -> p_unit y = Ok x -> unitish x.
Proof.
  intros Fa HP HS HC HN Hx1 [Fx1 X1] Ey Ex. pose proof uu_small as U. destruct (n_facts n Hn H20) as [N1 NU].
  set (v := NN * uu) in *. assert (V0 : 0 <= v <= / 1000) by (split; [unfold v; apply Rmult_le_pos; lra|exact NU]). apply Rabs_le_inv in X1.
  set (X := norm2 n (fcoords x1)) in *. assert (X0 : 0 <= X) by apply sqrt_pos. assert (XX : X * X = dot n (fcoords x1) (fcoords x1)) by apply norm2_sq. assert (XB : 95 / 100 <= X <= 105 / 100) by nra. assert (P0 : 0 <= Phi) by apply sqrt_pos.
  assert (P2 : 2 * bpow radix2 200 = bpow radix2 201) by (change 201%Z with (1 + 200)%Z; rewrite bpow_plus; reflexivity).
  assert (Fy : vf y). { apply (row_fin x1 y Hx1 Fa Fx1 Ey). intros i j Hi Hj. rewrite Rabs_mult. apply Rle_trans with (bpow radix2 201); [|apply bpow_le; lia]. rewrite <- P2. pose proof (entry_frob i j Hi Hj) as K1. pose proof (coord_norm n (fcoords x1) j Hj) as K2. fold X in K2. rewrite (Rmult_comm 2). apply Rmult_le_compat; try apply Rabs_pos; lra. }
  pose proof (mv_err x1 y Hx1 Ey Fy) as ME. fold X in ME. fold v in ME. set (t := bpow radix2 (-1030)) in *. set (p := Phi) in *. assert (T0 : 0 < t) by apply bpow_gt_0.
  assert (PX : 0 <= p * X <= 105 / 100 * p) by (split; [apply Rmult_le_pos; auto|nra]). assert (VPX : v * (p * X) <= 105 / 100 * (v * p)) by nra. assert (VP : 0 <= v * p) by (apply Rmult_le_pos; lra).
  set (g := norm2 n (fun i => fcoords y i - mulmv n M (fcoords x1) i)) in *. assert (GB : g <= 315 / 100 * (v * p) + t) by lra.
  assert (T4 : t <= bpow radix2 (-400) / 1000). { unfold t. apply Rle_trans with (bpow radix2 (-410)); [apply bpow_le; lia|]. replace (bpow radix2 (-410)) with (bpow radix2 (-400) * bpow radix2 (-10)) by (rewrite <- bpow_plus; reflexivity). change (bpow radix2 (-10)) with (/ 1024). pose proof (bpow_gt_0 radix2 (-400)). lra. }
  apply (unit_acc y x (mv_vec x1 y Hx1 Ey) Fy); [| |exact Ex].
  - intros i Hi. eapply Rle_trans; [apply (coord_norm n (fcoords y) i Hi)|]. eapply Rle_trans; [apply (norm2_sub (fcoords y) (mulmv n M (fcoords x1)))|]. fold g. pose proof (frob_bound n M (fcoords x1)) as K. fold X in K. fold p in K.
    assert (T1 : t <= bpow radix2 200) by (unfold t; apply bpow_le; lia). assert (VP2 : v * p <= p / 1000) by nra. apply Rle_trans with (4 * bpow radix2 200); [lra|]. change 4 with (bpow radix2 2). rewrite <- bpow_plus. apply bpow_le. lia.
  - rewrite <- norm2_sq. set (Y := norm2 n (fcoords y)). assert (LB : bpow radix2 (-402) <= Y).
    { assert (K : sigma * X <= Y + g). { eapply Rle_trans; [apply HN|]. eapply Rle_trans; [apply (norm2_sub _ (fcoords y))|]. apply Rplus_le_compat_l. right. unfold g. rewrite <- (norm2_abs n (fun i => mulmv n M (fcoords x1) i - fcoords y i)), <- (norm2_abs n (fun i => fcoords y i - mulmv n M (fcoords x1) i)). apply norm2_ext. intros i _. apply Rabs_minus_sym. }
      assert (B4 : bpow radix2 (-402) = bpow radix2 (-400) / 4) by (change (-402)%Z with (-400 + -2)%Z; rewrite bpow_plus; reflexivity). rewrite B4. pose proof (bpow_gt_0 radix2 (-400)). assert (95 / 100 * sigma <= sigma * X) by nra. lra. }
    apply Rle_trans with (bpow radix2 (-402) * bpow radix2 (-402)); [rewrite <- bpow_plus; apply bpow_le; lia|]. apply Rmult_le_compat; try apply bpow_ge_0; exact LB.
Qed.
Lemma unit_quot_fin (x : Arr F) (q : f64) : all_finite a -> Phi <= bpow radix2 200 -> is_vec n x -> unitish x -> p_quot a x = Ok q -> fin q = true.
Proof.
  intros Fa HP Hx [Fx X1] Eq. pose proof uu_small as U. destruct (n_facts n Hn H20) as [N1 NU]. unfold p_quot in Eq. destruct (a_dot_mv a x) as [y|] eqn:Ey; cbn [bind] in Eq; [|discriminate]. pose proof (mv_vec x y Hx Ey) as Hy.
  set (v := NN * uu) in *. assert (V0 : 0 <= v <= / 1000) by (split; [unfold v; apply Rmult_le_pos; lra|exact NU]). apply Rabs_le_inv in X1.
  set (X := norm2 n (fcoords x)) in *. assert (X0 : 0 <= X) by apply sqrt_pos. assert (XX : X * X = dot n (fcoords x) (fcoords x)) by apply norm2_sq. assert (XB : 95 / 100 <= X <= 105 / 100) by nra. assert (P0 : 0 <= Phi) by apply sqrt_pos.
  assert (P2 : 2 * bpow radix2 200 = bpow radix2 201) by (change 201%Z with (1 + 200)%Z; rewrite bpow_plus; reflexivity).
  assert (Fy : vf y). { apply (row_fin x y Hx Fa Fx Ey). intros i j Hi Hj. rewrite Rabs_mult. apply Rle_trans with (bpow radix2 201); [|apply bpow_le; lia]. rewrite <- P2. pose proof (entry_frob i j Hi Hj) as K1. pose proof (coord_norm n (fcoords x) j Hj) as K2. fold X in K2. rewrite (Rmult_comm 2). apply Rmult_le_compat; try apply Rabs_pos; lra. }
  pose proof (mv_err x y Hx Ey Fy) as ME. fold X in ME. fold v in ME. set (t := bpow radix2 (-1030)) in *. set (p := Phi) in *. assert (T0 : 0 < t) by apply bpow_gt_0.
  assert (PX : 0 <= p * X <= 105 / 100 * p) by (split; [apply Rmult_le_pos; auto|nra]). assert (VPX : v * (p * X) <= p * X / 1000) by nra.
  rewrite (a_dot_ok n x y Hx Hy) in Eq. injection Eq as <-. apply (accum_small lm (nsum0 (n := F)) (fun i => vget x i) (fun i => vget y i) eq_refl eq_refl n ltac:(lia)). intros i Hi. split; [exact (Fx i Hi)|]. split; [exact (Fy i Hi)|].
  change (Rabs (fcoords x i * fcoords y i) <= bpow radix2 600). rewrite Rabs_mult. pose proof (coord_norm n (fcoords x) i Hi) as K1. fold X in K1. pose proof (coord_norm n (fcoords y) i Hi) as K2. pose proof (norm2_sub (fcoords y) (mulmv n M (fcoords x))) as K3. pose proof (frob_bound n M (fcoords x)) as K4. fold X in K4. fold p in K4.
  assert (T1 : t <= bpow radix2 200) by (unfold t; apply bpow_le; lia). apply Rle_trans with (2 * (4 * bpow radix2 200)); [apply Rmult_le_compat; try apply Rabs_pos; lra|]. change 4 with (bpow radix2 2). change 2 with (bpow radix2 1) at 1. rewrite <- !bpow_plus. apply bpow_le. lia.
Qed.
(** ** Variant 4 *)
Lemma with_value (x : Arr F) (q : f64) : is_vec n x -> p_quot a x = Ok q -> fin q = true -> 1 / 2 <= dot n (fcoords x) (fcoords x) <= 2 ->
  norm2 n (fun i => mulmv n M (fcoords x) i - val q * fcoords x i) <= norm2 n (fun i => mulmv n M (fcoords x) i - rayleigh n M (fcoords x) * fcoords x i) +
    3 / 2 * (13 * (NN * uu) * Phi + bpow radix2 (-1020) + Phi * Rabs (dot n (fcoords x) (fcoords x) - 1)).
Proof.
  intros Hx Eq Fq HD. pose proof uu_small as U. destruct (n_facts n Hn H20) as [N1 NU].
  destruct (quot_err x q Hx Eq Fq (proj2 HD)) as [Fx QE]. set (X := norm2 n (fcoords x)) in *. set (D := dot n (fcoords x) (fcoords x)) in *. assert (X0 : 0 <= X) by apply sqrt_pos. assert (XX : X * X = D) by apply norm2_sq. assert (XB : X <= 3 / 2) by nra.
  assert (P0 : 0 <= Phi) by apply sqrt_pos. assert (QB : Rabs (quad n M (fcoords x)) <= Phi * D). { unfold quad. eapply Rle_trans; [apply dot_norm2|]. fold X. apply Rle_trans with (X * (Phi * X)); [apply Rmult_le_compat_l; [exact X0|apply frob_bound]|]. right. rewrite <- XX. ring. }
  assert (RB : Rabs (val q - rayleigh n M (fcoords x)) <= 13 * (NN * uu) * Phi + bpow radix2 (-1020) + Phi * Rabs (D - 1)).
  { unfold rayleigh. fold D. set (Q := quad n M (fcoords x)) in *. replace (val q - Q / D) with ((val q - Q) + Q / D * (D - 1)) by (field; lra). eapply Rle_trans; [apply Rabs_triang|]. apply Rplus_le_compat; [exact QE|]. rewrite Rabs_mult. apply Rmult_le_compat_r; [apply Rabs_pos|].
    unfold Rdiv. rewrite Rabs_mult, Rabs_inv, (Rabs_pos_eq D) by lra. apply Rmult_le_reg_r with D; [lra|]. rewrite Rmult_assoc, Rinv_l by lra. lra. }
  rewrite (norm2_ext n _ (fun i => (mulmv n M (fcoords x) i - rayleigh n M (fcoords x) * fcoords x i) + - (val q - rayleigh n M (fcoords x)) * fcoords x i)) by (intros; ring).
  eapply Rle_trans; [apply norm2_tri|]. apply Rplus_le_compat_l. rewrite (norm2_any n _ (fcoords x)), Rabs_Ropp. fold X. rewrite (Rmult_comm (3 / 2)). apply Rmult_le_compat; auto using Rabs_pos.
Qed.
Lemma run4 (P : Arr F -> Prop) (x0 : Arr F) (m : nat) (tol : F) : is_vec n x0 -> P (a_divs x0 (norm_l1 x0)) ->
  (forall x1 y, is_vec n x1 -> P x1 -> a_dot_mv a x1 = Ok y -> P (a_divs y (norm_l1 y))) ->
  exists x q k w, power_iteration4 a x0 (popt m tol) = Ok (x, (q, k)) /\ is_vec n w /\ P w /\ p_unit w = Ok x /\ p_quot a x = Ok q /\ (k <= m)%nat /\
    ((k < m)%nat -> exists w1 y, is_vec n w1 /\ P w1 /\ a_dot_mv a w1 = Ok y /\ w = a_divs y (norm_l1 y) /\ p_close tol w w1 = Ok true).
Proof.
  intros H0 HI HS. unfold power_iteration4. cbn [p_max_iters p_tolerance]. destruct (divs_get x0 (norm_l1 x0) H0) as [Hu _]. set (u := a_divs x0 (norm_l1 x0)) in *.
  match goal with |- context [loop_range 0 m ?body ?s0] =>
    destruct (loop_range_inv (fun _ x => is_vec n x /\ P x) (fun r : Arr F * (F * nat) => let '(x, (q, k)) := r in exists w, is_vec n w /\ P w /\ p_unit w = Ok x /\ p_quot a x = Ok q /\ (k <= m)%nat /\
    ((k < m)%nat -> exists w1 y, is_vec n w1 /\ P w1 /\ a_dot_mv a w1 = Ok y /\ w = a_divs y (norm_l1 y) /\ p_close tol w w1 = Ok true)) 0 m body s0) as [(s & E & Hs & Ps)|([x [q k]] & E & HR)]; [lia|auto| | |] end.
  - intros i x1 Hi [Hx1 P1]. destruct (a_dot_mv a x1) as [y|] eqn:Ey; [|rewrite (a_dot_mv_ok n n a x1 Hn Ha Hx1) in Ey; discriminate]. cbn [bind]. cbv zeta. destruct (divs_get y (norm_l1 y) (mv_vec x1 y Hx1 Ey)) as [Hw _]. pose proof (HS x1 y Hx1 P1 Ey) as Pw. set (w := a_divs y (norm_l1 y)) in *.
    destruct (close_ok tol w x1 Hw Hx1) as [b Eb]. rewrite Eb. cbn [bind]. destruct b.
    + right. destruct (unit_ok w Hw) as (d2 & x & _ & Ex & Hx & _). rewrite Ex. cbn [bind]. destruct (quot_ok x Hx) as [q Eq]. rewrite Eq. cbn [bind]. eexists. split; [reflexivity|]. exists w. split; [exact Hw|]. split; [exact Pw|]. split; [exact Ex|]. split; [exact Eq|]. split; [lia|]. intros _. exists x1, y. auto.
    + left. exists w. auto.
  - rewrite E. cbn [bind]. destruct (unit_ok s Hs) as (d2 & x & _ & Ex & Hx & _). rewrite Ex. cbn [bind]. destruct (quot_ok x Hx) as [q Eq]. rewrite Eq. cbn [bind]. exists x, q, m, s. split; [reflexivity|]. split; [exact Hs|]. split; [exact Ps|]. split; [exact Ex|]. split; [exact Eq|]. split; [lia|]. intros K. exfalso. lia.
  - rewrite E. cbn [bind]. destruct HR as [w HR]. exists x, q, k, w. split; [reflexivity|exact HR].
Qed.
Definition unit1 (x : Arr F) : Prop := vf x /\ Rabs (norm1 n (fcoords x) - 1) <= 8 * (NN * uu).
Lemma unit1_norm (w : Arr F) : unit1 w -> (1 - 8 * (NN * uu)) <= sqrt NN * norm2 n (fcoords w) /\ bpow radix2 (-11) <= norm2 n (fcoords w) <= 101 / 100 /\ 1 <= sqrt NN <= 1024.
Proof.
  intros [_ H]. destruct (n_facts n Hn H20) as [N1 NU]. apply Rabs_le_inv in H. pose proof (norm1_le_norm2 n (fcoords w)) as A. pose proof (norm2_le_norm1 n (fcoords w)) as B. split; [lra|].
  assert (SN : 1 <= sqrt NN <= 1024). { split; [rewrite <- sqrt_1; apply sqrt_le_1_alt; exact N1|]. rewrite <- (sqrt_square 1024) by lra. apply sqrt_le_1_alt. replace (1024 * 1024) with (IZR (2 ^ 20)) by (cbn; lra). rewrite INR_IZR_INZ. now apply IZR_le. }
  split; [|exact SN]. split; [|lra]. change (bpow radix2 (-11)) with (/ 2048). assert (0 <= norm2 n (fcoords w)) by apply sqrt_pos. nra.
Qed.
Lemma step_unit1 (sigma : R) (x1 y : Arr F) : all_finite a -> Phi <= bpow radix2 200 -> bpow radix2 (-400) <= sigma -> 6 * (NN * uu) * Phi <= sigma ->
  (forall u, sigma * norm2 n u <= norm2 n (mulmv n M u)) -> is_vec n x1 -> unit1 x1 -> a_dot_mv a x1 = Ok y -> unit1 (a_divs y (norm_l1 y)).
Proof.
  intros Fa HP HS HC HN Hx1 U1 Ey. pose proof uu_small as U. destruct (n_facts n Hn H20) as [N1 NU]. destruct (unit1_norm x1 U1) as (_ & XB & _). destruct U1 as [Fx1 _].
  set (v := NN * uu) in *. assert (V0 : 0 <= v <= / 1000) by (split; [unfold v; apply Rmult_le_pos; lra|exact NU]).
  set (X := norm2 n (fcoords x1)) in *. assert (X0 : 0 <= X) by apply sqrt_pos. assert (P0 : 0 <= Phi) by apply sqrt_pos. assert (XB1 : X <= 101 / 100) by lra.
  assert (P2 : 2 * bpow radix2 200 = bpow radix2 201) by (change 201%Z with (1 + 200)%Z; rewrite bpow_plus; reflexivity).
  assert (Fy : vf y). { apply (row_fin x1 y Hx1 Fa Fx1 Ey). intros i j Hi Hj. rewrite Rabs_mult. apply Rle_trans with (bpow radix2 201); [|apply bpow_le; lia]. rewrite <- P2. pose proof (entry_frob i j Hi Hj) as K1. pose proof (coord_norm n (fcoords x1) j Hj) as K2. fold X in K2. rewrite (Rmult_comm 2). apply Rmult_le_compat; try apply Rabs_pos; lra. }
  pose proof (mv_err x1 y Hx1 Ey Fy) as ME. fold X in ME. fold v in ME. set (t := bpow radix2 (-1030)) in *. set (p := Phi) in *. assert (T0 : 0 < t) by apply bpow_gt_0.
  assert (PX : 0 <= p * X <= 101 / 100 * p) by (split; [apply Rmult_le_pos; auto|nra]). assert (VP : 0 <= v * p) by (apply Rmult_le_pos; lra). assert (VPX : 3 * v * (p * X) <= sigma / 2 * X) by nra.
  set (g := norm2 n (fun i => fcoords y i - mulmv n M (fcoords x1) i)) in *.
  apply (scale1_acc y (mv_vec x1 y Hx1 Ey) Fy).
  - intros i Hi. eapply Rle_trans; [apply (coord_norm n (fcoords y) i Hi)|]. eapply Rle_trans; [apply (norm2_sub (fcoords y) (mulmv n M (fcoords x1)))|]. fold g. pose proof (frob_bound n M (fcoords x1)) as K. fold X in K. fold p in K.
    assert (T1 : t <= bpow radix2 200) by (unfold t; apply bpow_le; lia). assert (VP2 : v * (p * X) <= p * X / 1000) by nra. apply Rle_trans with (4 * bpow radix2 200); [lra|]. change 4 with (bpow radix2 2). rewrite <- bpow_plus. apply bpow_le. lia.
  - eapply Rle_trans; [|apply norm2_le_norm1]. set (Y := norm2 n (fcoords y)).
    assert (K : sigma * X <= Y + g). { eapply Rle_trans; [apply HN|]. eapply Rle_trans; [apply (norm2_sub _ (fcoords y))|]. apply Rplus_le_compat_l. right. unfold g. rewrite <- (norm2_abs n (fun i => mulmv n M (fcoords x1) i - fcoords y i)), <- (norm2_abs n (fun i => fcoords y i - mulmv n M (fcoords x1) i)). apply norm2_ext. intros i _. apply Rabs_minus_sym. }
    assert (SX : bpow radix2 (-411) <= sigma * X). { change (-411)%Z with (-400 + -11)%Z. rewrite bpow_plus. apply Rmult_le_compat; try apply bpow_ge_0; [exact HS|exact (proj1 XB)]. }
    assert (T4 : t <= bpow radix2 (-411) / 4). { unfold t. apply Rle_trans with (bpow radix2 (-413)); [apply bpow_le; lia|]. right. change (-413)%Z with (-411 + -2)%Z. rewrite bpow_plus. reflexivity. }
    apply Rle_trans with (bpow radix2 (-413)); [apply bpow_le; lia|]. assert (B4 : bpow radix2 (-413) = bpow radix2 (-411) / 4) by (change (-413)%Z with (-411 + -2)%Z; rewrite bpow_plus; reflexivity). rewrite B4. lra.
Qed.
Lemma unit1_unit (w x : Arr F) : is_vec n w -> unit1 w -> p_unit w = Ok x -> unitish x.
Proof.
  intros Hw U1 Ex. destruct (unit1_norm w U1) as (_ & XB & _). apply (unit_acc w x Hw (proj1 U1)); [| |exact Ex].
  - intros i Hi. eapply Rle_trans; [apply (coord_norm n (fcoords w) i Hi)|]. apply Rle_trans with (bpow radix2 1); [change (bpow radix2 1) with 2; lra|apply bpow_le; lia].
  - rewrite <- norm2_sq. apply Rle_trans with (bpow radix2 (-11) * bpow radix2 (-11)); [rewrite <- bpow_plus; apply bpow_le; lia|]. apply Rmult_le_compat; try apply bpow_ge_0; apply XB.
Qed.
Lemma residual4 (x w w1 y : Arr F) (tol q : f64) : is_vec n w1 -> unit1 w1 -> unit1 (a_divs y (norm_l1 y)) -> a_dot_mv a w1 = Ok y -> w = a_divs y (norm_l1 y) -> fin tol = true -> p_close (tol : F) w w1 = Ok true ->
  p_unit w = Ok x -> p_quot a x = Ok q -> fin q = true ->
  norm2 n (fun i => mulmv n M (fcoords x) i - val q * fcoords x i) <= sqrt NN * Phi * ((1 + 42 * (NN * uu)) * val tol + 84 * (NN * uu)) + bpow radix2 (-1000).
Proof.
  intros Hw1 _ U1 Ey Ew Ft HC Ex Eq Fq. rewrite <- Ew in U1. pose proof uu_small as U. destruct (n_facts n Hn H20) as [N1 NU]. destruct (divs_get y (norm_l1 y) (mv_vec w1 y Hw1 Ey)) as [Hw VW]. rewrite <- Ew in Hw, VW.
  destruct (unit1_norm w U1) as (SB & XB & SN). destruct (unit1_unit w x Hw U1 Ex) as [Fx HD]. destruct (close_err w w1 tol Hw Hw1 Ft HC) as (TP & _).
  pose proof (gen_residual w w1 y _ tol Hw Hw1 Ey VW Ft HC) as RW. specialize (RW ltac:(split; [eapply Rle_trans; [|exact (proj1 XB)]; apply bpow_le; lia|lra])).
  destruct (unit_ok w Hw) as (d & x' & _ & Ex' & Hx & VX). rewrite Ex in Ex'. injection Ex' as <-. set (r := fdiv (fofZ 1) (fsqrt d)) in *. clearbody r.
  assert (FW : forall i, (i < n)%nat -> fcoords x i = rnd (fcoords w i * val r)).
  { intros i Hi. pose proof (Fx i Hi) as K. rewrite (VX i Hi) in K. destruct (fmul_inv _ _ K) as (K1 & K2 & K3). eapply eq_trans; [exact (f_equal (fun v : f64 => B2R v) (VX i Hi))|exact K3]. }
  set (v := NN * uu) in *. assert (V0 : 0 <= v <= / 1000) by (split; [unfold v; apply Rmult_le_pos; lra|exact NU]). assert (UV : uu <= v) by (unfold v; rewrite <- (Rmult_1_l uu) at 1; apply Rmult_le_compat_r; lra).
  assert (HD2 : 1 / 2 <= dot n (fcoords x) (fcoords x) <= 2) by (apply Rabs_le_inv in HD; lra).
  pose proof (with_value x q Hx Eq Fq HD2) as WV. set (dd := Rabs (dot n (fcoords x) (fcoords x) - 1)) in *. assert (D0 : 0 <= dd) by apply Rabs_pos. fold v in WV.
  set (X := norm2 n (fcoords x)) in *. assert (X0 : 0 <= X) by apply sqrt_pos. assert (XX : X * X = dot n (fcoords x) (fcoords x)) by apply norm2_sq. assert (XB1 : X <= 1 + 12 * v). { unfold dd in HD. apply Rabs_le_inv in HD. nra. }
  set (t := bpow radix2 (-1020)) in *. assert (T0 : 0 < t) by apply bpow_gt_0. set (kp := val r) in *.
  assert (NE2 : NN * ee <= uu / 1000). { apply Rle_trans with (bpow radix2 (-1030)). - pose proof n2_ee. pose proof (bpow_gt_0 radix2 (-1075)) as E0. assert (0 <= NN * ee) by (apply Rmult_le_pos; lra). nra. - apply Rle_trans with (bpow radix2 (-63)); [apply bpow_le; lia|]. replace (bpow radix2 (-63)) with (uu * bpow radix2 (-10)) by (rewrite <- bpow_plus; reflexivity). change (bpow radix2 (-10)) with (/ 1024). lra. }
  set (e := fun i => fcoords x i - kp * fcoords w i). assert (EB : norm2 n e <= 11 / 10 * uu).
  { apply Rle_trans with (norm2 n (fun i => uu * Rabs (fcoords x i) + ee)). - apply norm2_mono. intros i Hi. unfold e. pose proof (rnd_err_r (fcoords w i * kp)) as K. rewrite <- (FW i Hi) in K. rewrite (Rmult_comm kp). exact K.
    - eapply Rle_trans; [apply (norm2_tri n (fun i => uu * Rabs (fcoords x i)) (fun _ => ee))|]. rewrite (norm2_any n uu (fun i => Rabs (fcoords x i))), Rabs_pos_eq, norm2_abs by lra. fold X. assert (norm2 n (fun _ => ee) <= NN * ee). { apply (norm2_max n Hn H20). intros i _. rewrite Rabs_pos_eq; [lra|apply bpow_ge_0]. } nra. }
  set (Wn := norm2 n (fcoords w)) in *. assert (W0 : 0 < Wn). { pose proof (bpow_gt_0 radix2 (-11)). lra. }
  assert (KW : Rabs kp * Wn <= 1 + 14 * v). { unfold Wn. rewrite <- norm2_any. apply Rle_trans with (X + norm2 n e); [|nra]. unfold X. eapply Rle_trans; [apply (norm2_sub (fun i => kp * fcoords w i) (fcoords x))|]. apply Rplus_le_compat_l. right. rewrite <- (norm2_abs n (fun i => kp * fcoords w i - fcoords x i)), <- (norm2_abs n e). apply norm2_ext. intros i _. apply Rabs_minus_sym. }
  set (sn := sqrt NN) in *. assert (KB : Rabs kp <= (1 + 23 * v) * sn). { pose proof (Rabs_pos kp). apply Rmult_le_reg_r with (1 - 8 * v); [lra|]. apply Rle_trans with (Rabs kp * (sn * Wn)); [apply Rmult_le_compat_l; lra|]. replace (Rabs kp * (sn * Wn)) with (sn * (Rabs kp * Wn)) by ring. apply Rle_trans with (sn * (1 + 14 * v)); [apply Rmult_le_compat_l; lra|]. replace ((1 + 23 * v) * sn * (1 - 8 * v)) with (sn * ((1 + 23 * v) * (1 - 8 * v))) by ring. apply Rmult_le_compat_l; [lra|]. clear - V0. nra. }
  set (p := Phi) in *. assert (P0 : 0 <= p) by apply sqrt_pos. set (rw := rayleigh n M (fcoords w)) in *. assert (RWB : Rabs rw <= p).
  { unfold rw, rayleigh. set (Dw := dot n (fcoords w) (fcoords w)). assert (DW : Wn * Wn = Dw) by apply norm2_sq. assert (Dp : 0 < Dw) by nra. unfold Rdiv. rewrite Rabs_mult, Rabs_inv, (Rabs_pos_eq Dw) by lra. apply Rmult_le_reg_r with Dw; [exact Dp|]. rewrite Rmult_assoc, Rinv_l, Rmult_1_r by lra. unfold quad. eapply Rle_trans; [apply dot_norm2|]. fold Wn. rewrite <- DW. apply Rle_trans with (Wn * (p * Wn)); [apply Rmult_le_compat_l; [lra|apply frob_bound]|]. right. ring. }
  assert (RX : norm2 n (fun i => mulmv n M (fcoords x) i - rayleigh n M (fcoords x) * fcoords x i) <= Rabs kp * (p * ((1 + 16 * v) * val tol + 16 * v) + t) + 22 / 10 * uu * p).
  { eapply Rle_trans; [apply (rayleigh_best n M (fcoords x) rw)|]. { apply norm2_pos. change (0 < X). nra. }
    rewrite (norm2_ext n _ (fun i => kp * (mulmv n M (fcoords w) i - rw * fcoords w i) + (mulmv n M e i + - rw * e i))).
    - eapply Rle_trans; [apply norm2_tri|]. apply Rplus_le_compat. + rewrite (norm2_any n kp (fun i => mulmv n M (fcoords w) i - rw * fcoords w i)). apply Rmult_le_compat_l; [apply Rabs_pos|exact RW].
      + eapply Rle_trans; [apply norm2_tri|]. rewrite (norm2_any n (- rw) e), Rabs_Ropp. pose proof (frob_bound n M e) as FB. fold p in FB. pose proof (norm2_nonneg n e). assert (Rabs rw * norm2 n e <= p * (11 / 10 * uu)) by (apply Rmult_le_compat; auto using Rabs_pos). assert (p * norm2 n e <= p * (11 / 10 * uu)) by (apply Rmult_le_compat_l; auto). lra.
    - intros i Hi. unfold e. rewrite mulmv_minus, mulmv_scal. ring. }
  eapply Rle_trans; [exact WV|]. assert (TT : bpow radix2 (-1000) = 1048576 * t) by (unfold t; change (-1000)%Z with (20 + -1020)%Z; rewrite bpow_plus; reflexivity). rewrite TT.
  set (B := (1 + 16 * v) * val tol + 16 * v) in *. assert (VT : 0 <= v * val tol <= val tol / 1000) by (split; nra). assert (VVT : v * (v * val tol) <= v * val tol / 1000) by nra. assert (B0 : 0 <= B) by (unfold B; nra). assert (PB : 0 <= p * B) by (apply Rmult_le_pos; auto).
  assert (K1 : Rabs kp * (p * B + t) <= (1 + 23 * v) * sn * (p * B + t)) by (apply Rmult_le_compat_r; lra).
  assert (K2 : (1 + 23 * v) * B <= (1 + 42 * v) * val tol + 17 * v) by (unfold B; nra).
  assert (K3 : (1 + 23 * v) * sn * (p * B + t) <= sn * p * ((1 + 42 * v) * val tol + 17 * v) + 2000 * t).
  { replace ((1 + 23 * v) * sn * (p * B + t)) with (sn * p * ((1 + 23 * v) * B) + (1 + 23 * v) * sn * t) by ring. apply Rplus_le_compat; [apply Rmult_le_compat_l; [apply Rmult_le_pos; lra|exact K2]|]. apply Rmult_le_compat_r; [lra|]. nra. }
  assert (VP : 0 <= v * p) by (apply Rmult_le_pos; lra). assert (UP : uu * p <= v * p) by (apply Rmult_le_compat_r; lra). assert (PD : p * dd <= 24 * (v * p)) by nra. assert (SVP : v * p <= sn * p * v) by nra.
  replace (sn * p * ((1 + 42 * v) * val tol + 84 * v)) with (sn * p * ((1 + 42 * v) * val tol + 17 * v) + 67 * (sn * p * v)) by ring. lra.
Qed.
End P.
