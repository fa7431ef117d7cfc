(** The value of power_iteration3 in binary64 (C116). *)
From Coq Require Import ZArith Reals Lra Lia Psatz Bool Arith List.
From Flocq Require Import Core IEEE754.BinarySingleNaN.
From Verif Require Import Num Res Arr ArrLemmas ArrProps Spec RealLin PowerIter PowerSpec PowerOps PowerProofs PowerMore FloatLemmas FloatErr FloatRel KernAcc FcosAcc StepAccSpec CgAcc ProfAcc PowAccSpec PowAcc PowAccRun Pow3Spec.
Import ListNotations.
Local Open Scope R_scope.
#[local] Opaque fadd fsub fmul fdiv fsqrt fofZ.

Lemma fdiv_num (x y : f64) : fin (fdiv x y) = true -> fin x = true.
Proof. Transparent fdiv. destruct x as [sx|sx| |sx mx ex Bx]; try reflexivity; destruct y as [sy|sy| |sy my ey By]; cbn; discriminate. Qed.
#[local] Opaque fdiv.
Section P.
Variable lm : Libm.
Notation F := (FNum lm).
Variables (n : nat) (a : Arr F).
Hypotheses (Hn : (0 < n)%nat) (H20 : (Z.of_nat n <= 2 ^ 20)%Z) (Ha : is_mat n n a).
Notation M := (fentry n a).
Notation Phi := (frob n M).
Notation NN := (INR n).
Definition quotient (w : Arr F) (q : F) : Prop := exists d e, a_dot w w = Ok d /\ p_quot a w = Ok e /\ q = ndiv e d.
Lemma run3 x0 m (tol : F) : is_vec n x0 -> exists x q k w b, power_iteration3 a x0 (mkPOptions (N := F) m tol) = Ok (x, (q, k)) /\ (k <= m)%nat /\ is_vec n w /\
  visited3 a x0 (Nat.min (S k) m) = Ok (w, b) /\ (if b then x = w /\ p_quot a w = Ok q else x = (if (k <? m)%nat then x else w) /\ ((k < m)%nat -> p_unit w = Ok x) /\ quotient w q).
Proof.
  intros H0. unfold power_iteration3. cbn [p_max_iters p_tolerance].
  destruct (a_dot_mv a x0) as [y0|] eqn:E0; [|rewrite (a_dot_mv_ok n n a x0 Hn Ha H0) in E0; discriminate]. pose proof (mv_vec lm n a Hn Ha x0 y0 H0 E0) as Hy0. cbn [bind].
  rewrite (a_dot_ok n x0 x0 H0 H0). cbn [bind]. rewrite (a_dot_ok n x0 y0 H0 Hy0). cbn [bind].
  match goal with |- context [loop_range 0 m ?b00 ?s00] => destruct (loop_range_inv (fun i (s : Arr F * Arr F * F) => let '(w, y, q) := s in is_vec n w /\ a_dot_mv a w = Ok y /\ exists b, visited3 a x0 i = Ok (w, b) /\ (if b then p_quot a w = Ok q else quotient w q))
    (fun r : Arr F * (F * nat) => let '(x, (q, k)) := r in (k < m)%nat /\ exists w b, is_vec n w /\ visited3 a x0 (S k) = Ok (w, b) /\ (if b then x = w /\ p_quot a w = Ok q else p_unit w = Ok x /\ quotient w q)) 0 m b00 s00) as [(t & E & P)|(r & E & P)] end; [lia| | | |].
  - split; [exact H0|]. split; [exact E0|]. exists false. split; [reflexivity|]. unfold quotient, p_quot. rewrite E0. cbn [bind]. do 2 eexists. split; [apply (a_dot_ok n x0 x0 H0 H0)|]. split; [apply (a_dot_ok n x0 y0 H0 Hy0)|reflexivity].
  - intros i [[x1 y1] q1] Hi (Hx1 & Ey1 & b1 & V1 & _). pose proof (mv_vec lm n a Hn Ha x1 y1 Hx1 Ey1) as Hy1. destruct (a_dot y1 y1) as [d|] eqn:Ed; [|rewrite (a_dot_ok n y1 y1 Hy1 Hy1) in Ed; discriminate]. cbn [bind].
    destruct (unit_ok lm n y1 Hy1) as (d2 & x & _ & Ex & Hx & _). destruct (_ <=?! d) eqn:Ebig.
    + assert (V : visited3 a x0 (S i) = Ok (x, true)) by (cbn [visited3]; rewrite V1; cbn [bind fst]; rewrite Ey1; cbn [bind]; rewrite Ed; cbn [bind]; rewrite Ebig, Ex; reflexivity).
      rewrite Ex. cbn [bind]. destruct (a_dot_mv a x) as [y|] eqn:Ey; [|rewrite (a_dot_mv_ok n n a x Hn Ha Hx) in Ey; discriminate]. pose proof (mv_vec lm n a Hn Ha x y Hx Ey) as Hy. cbn [bind]. destruct (a_dot x y) as [e|] eqn:Ee; [|rewrite (a_dot_ok n x y Hx Hy) in Ee; discriminate]. cbn [bind].
      assert (Q : p_quot a x = Ok e) by (unfold p_quot; rewrite Ey; exact Ee). destruct (_ <=?! tol).
      * right. eexists. split; [reflexivity|]. split; [lia|]. exists x, true. auto.
      * left. eexists. split; [reflexivity|]. split; [exact Hx|]. split; [exact Ey|]. exists true. auto.
    + assert (V : visited3 a x0 (S i) = Ok (y1, false)) by (cbn [visited3]; rewrite V1; cbn [bind fst]; rewrite Ey1; cbn [bind]; rewrite Ed; cbn [bind]; rewrite Ebig; reflexivity).
      destruct (a_dot_mv a y1) as [y|] eqn:Ey; [|rewrite (a_dot_mv_ok n n a y1 Hn Ha Hy1) in Ey; discriminate]. pose proof (mv_vec lm n a Hn Ha y1 y Hy1 Ey) as Hy. cbn [bind]. destruct (a_dot y1 y) as [e|] eqn:Ee; [|rewrite (a_dot_ok n y1 y Hy1 Hy) in Ee; discriminate]. cbn [bind].
      assert (Q : quotient y1 (ndiv e d)) by (exists d, e; unfold p_quot; rewrite Ey; auto). destruct (_ <=?! tol).
      * right. rewrite Ex. cbn [bind]. eexists. split; [reflexivity|]. split; [lia|]. exists y1, false. auto.
      * left. eexists. split; [reflexivity|]. split; [exact Hy1|]. split; [exact Ey|]. exists false. auto.
  - rewrite E. cbn [bind]. destruct t as [[w y] q]. destruct P as (Hw & _ & b & V & Q). exists w, q, m, w, b. split; [reflexivity|]. split; [lia|]. split; [exact Hw|]. rewrite Nat.min_r by lia. split; [exact V|]. destruct b; [auto|]. rewrite Nat.ltb_irrefl. split; [reflexivity|]. split; [lia|exact Q].
  - rewrite E. cbn [bind]. destruct r as [x [q k]]. destruct P as (Hk & w & b & Hw & V & Q). exists x, q, k, w, b. split; [reflexivity|]. split; [lia|]. split; [exact Hw|]. rewrite Nat.min_l by lia. split; [exact V|]. destruct b; [exact Q|]. destruct Q as [Q1 Q2]. rewrite (proj2 (Nat.ltb_lt k m) Hk). auto.
Qed.
Lemma ray_err (w : Arr F) (q : f64) : is_vec n w -> quotient w q -> fin q = true -> bpow radix2 (-900) <= dot n (fcoords w) (fcoords w) <= bpow radix2 600 ->
  Rabs (val q - quad n M (fcoords w) / dot n (fcoords w) (fcoords w)) <= 12 * (NN * uu) * Phi + bpow radix2 (-120).
Proof.
  intros Hx (d & e & Ed & E & ->) Fq HD. pose proof uu_small as U. destruct (n_facts n Hn H20) as [N1 NU]. pose proof (fdiv_num e d Fq) as Fe. unfold p_quot in E. destruct (a_dot_mv a w) as [y|] eqn:Ey; cbn [bind] in E; [|discriminate]. pose proof (mv_vec lm n a Hn Ha w y Hx Ey) as Hy.
  assert (FF : forall i, (i < n)%nat -> fin (vget w i : f64) = true /\ fin (vget y i : f64) = true).
  { pose proof E as E'. rewrite (a_dot_ok n w y Hx Hy) in E'. injection E' as E'. subst e. intros i Hi. destruct (accum_fin_z lm (nsum0 (n := F)) (fun i => vget w i) (fun i => vget y i) n Fe i Hi) as (A & B & _). auto. }
  assert (Fy : vfin lm n y) by (intros i Hi; apply FF; exact Hi).
  assert (AF : all_finite w) by (apply (PowAccRun.fin_all lm n w Hx); intros i Hi; apply FF; exact Hi).
  assert (Fd : fin (d : f64) = true).
  { destruct (dot_finite lm n w w ltac:(lia) Hx Hx AF AF) as (d' & Ed' & Fd'); [|rewrite Ed in Ed'; injection Ed' as <-; exact Fd']. intros i Hi. rewrite Rabs_pos_eq by apply Rle_0_sqr. eapply Rle_trans; [|apply HD]. exact (Rsum_pos_one n i (fun j => fcoords w j * fcoords w j) Hi (fun k _ => Rle_0_sqr (fcoords w k))). }
  pose proof (mv_err lm n a Hn H20 Ha w y Hx Ey Fy) as ME. pose proof (dot_f64 lm n w y e ltac:(lia) Hx Hy E Fe) as DE. pose proof (dot_f64 lm n w w d ltac:(lia) Hx Hx Ed Fd) as DD.
  assert (SD : Rsum n (fun i => Rabs (fcoords w i * fcoords w i)) = dot n (fcoords w) (fcoords w)). { apply Rsum_ext. intros i _. apply Rabs_pos_eq, Rle_0_sqr. } rewrite SD in DD.
  pose proof (dot_abs_norm2 n (fcoords w) (fcoords y)) as DA. set (X := norm2 n (fcoords w)) in *. set (Y := norm2 n (fcoords y)) in *. set (G := norm2 n (fun i => fcoords y i - mulmv n M (fcoords w) i)) in *.
  assert (X0 : 0 <= X) by apply sqrt_pos. assert (XX : X * X = dot n (fcoords w) (fcoords w)) by (unfold X; apply norm2_sq). set (D := dot n (fcoords w) (fcoords w)) in *. assert (P0 : 0 <= Phi) by apply sqrt_pos.
  assert (YB : Y <= Phi * X + G). { unfold Y. eapply Rle_trans; [apply (norm2_sub n (fcoords y) (mulmv n M (fcoords w)))|]. apply Rplus_le_compat_r. apply frob_bound. }
  assert (QE : Rabs (dot n (fcoords w) (fcoords y) - quad n M (fcoords w)) <= X * G).
  { unfold quad. replace (dot n (fcoords w) (fcoords y) - dot n (fcoords w) (mulmv n M (fcoords w))) with (dot n (fcoords w) (fun i => fcoords y i - mulmv n M (fcoords w) i)); [apply dot_norm2|]. rewrite dot_minus_r. reflexivity. }
  assert (QB : Rabs (quad n M (fcoords w)) <= Phi * D). { unfold quad. eapply Rle_trans; [apply dot_norm2|]. fold X. apply Rle_trans with (X * (Phi * X)); [apply Rmult_le_compat_l; [exact X0|apply frob_bound]|right; rewrite <- XX; ring]. }
  set (Q := quad n M (fcoords w)) in *. set (v := NN * uu) in *. assert (V0 : uu <= v <= / 1000) by (split; [unfold v; replace uu with (1 * uu) at 1 by ring; apply Rmult_le_compat_r; lra|exact NU]). replace (3 * NN * uu) with (3 * v) in DE, DD by (unfold v; ring).
  set (t := bpow radix2 (-1030)) in *. assert (T0 : 0 < t) by apply bpow_gt_0. assert (NE : 4 * NN * ee <= t). { eapply Rle_trans; [|exact (n2_ee n Hn H20)]. replace (4 * (NN * NN) * ee) with (4 * NN * ee * NN) by ring. assert (0 <= 4 * NN * ee) by (apply Rmult_le_pos; [lra|apply bpow_ge_0]). nra. }
  set (p := Phi) in *. set (s := Rsum n (fun i => Rabs (fcoords w i * fcoords y i))) in *. destruct HD as [D1 D2].
  assert (XL : bpow radix2 (-450) <= X). { apply Rnot_lt_le. intros K. assert (X * X < bpow radix2 (-450) * bpow radix2 (-450)) by (pose proof (bpow_gt_0 radix2 (-450)); nra). rewrite <- bpow_plus in H. change (-450 + -450)%Z with (-900)%Z in H. lra. }
  assert (TX : t <= bpow radix2 (-580) * X). { apply Rle_trans with (bpow radix2 (-580) * bpow radix2 (-450)); [rewrite <- bpow_plus; apply bpow_le; lia|apply Rmult_le_compat_l; [apply bpow_ge_0|exact XL]]. }
  assert (TD : t <= bpow radix2 (-130) * D). { apply Rle_trans with (bpow radix2 (-130) * bpow radix2 (-900)); [rewrite <- bpow_plus; apply bpow_le; lia|apply Rmult_le_compat_l; [apply bpow_ge_0|exact D1]]. }
  set (h := bpow radix2 (-130)) in *. assert (H0 : 0 < h) by apply bpow_gt_0. assert (H1 : bpow radix2 (-580) <= h) by (apply bpow_le; lia). assert (H2 : bpow radix2 (-120) = 1024 * h) by (unfold h; change (-120)%Z with (10 + -130)%Z; rewrite bpow_plus; reflexivity). assert (H3 : 1000 * h <= uu). { apply Rle_trans with (bpow radix2 10 * h); [change (bpow radix2 10) with 1024; lra|unfold h; rewrite <- bpow_plus; apply bpow_le; lia]. }
  assert (DP : 0 < D) by (eapply Rlt_le_trans; [apply bpow_gt_0|exact D1]). assert (XT : X * t <= h * D). { apply Rle_trans with (X * (bpow radix2 (-580) * X)); [apply Rmult_le_compat_l; [exact X0|exact TX]|]. replace (X * (bpow radix2 (-580) * X)) with (bpow radix2 (-580) * D) by (rewrite <- XX; ring). apply Rmult_le_compat_r; lra. }
  assert (VP : 0 <= v * p) by (apply Rmult_le_pos; lra). assert (VPD : 0 <= v * p * D) by (apply Rmult_le_pos; lra). assert (HDn : 0 <= h * D) by (apply Rmult_le_pos; lra). assert (VD : 0 <= v * D) by (apply Rmult_le_pos; lra).
  assert (XG : X * G <= 3 * (v * p * D) + h * D). { apply Rle_trans with (X * (3 * v * (p * X) + t)); [apply Rmult_le_compat_l; auto|]. replace (X * (3 * v * (p * X) + t)) with (3 * (v * p) * (X * X) + X * t) by ring. rewrite XX. lra. }
  assert (XY : X * Y <= p * D + (3 * (v * p * D) + h * D)). { apply Rle_trans with (X * (p * X + G)); [apply Rmult_le_compat_l; auto|]. replace (X * (p * X + G)) with (p * (X * X) + X * G) by ring. rewrite XX. lra. }
  assert (VS : v * s <= v * (p * D + (3 * (v * p * D) + h * D))) by (apply Rmult_le_compat_l; lra). assert (V1 : v * (v * p * D) <= / 1000 * (v * p * D)) by (apply Rmult_le_compat_r; lra). assert (V2 : v * (h * D) <= / 1000 * (h * D)) by (apply Rmult_le_compat_r; lra).
  assert (EE : Rabs (val e - Q) <= (61 / 10 * (v * p) + 3 * h) * D). { replace (val e - Q) with ((val e - dot n (fcoords w) (fcoords y)) + (dot n (fcoords w) (fcoords y) - Q)) by ring. eapply Rle_trans; [apply Rabs_triang|]. lra. }
  assert (HV : h * D <= / 1000 * (v * D)). { apply Rle_trans with (/ 1000 * (uu * D)); [|apply Rmult_le_compat_l; [lra|apply Rmult_le_compat_r; lra]]. replace (/ 1000 * (uu * D)) with (/ 1000 * uu * D) by ring. apply Rmult_le_compat_r; lra. }
  assert (DB : Rabs (val d - D) <= 3001 / 1000 * v * D) by lra. assert (VD2 : v * D <= / 1000 * D) by (apply Rmult_le_compat_r; lra). pose proof DB as DB'. apply Rabs_le_inv in DB'. assert (dL : 99 / 100 * D <= val d) by lra. assert (dP : 0 < val d) by lra.
  assert (ID : D * / val d <= 102 / 100). { apply Rmult_le_reg_r with (val d); [exact dP|]. rewrite Rmult_assoc, Rinv_l by lra. lra. } pose proof (Rinv_0_lt_compat _ dP) as Id.
  assert (R1 : Rabs ((val e - Q) / val d) <= (61 / 10 * (v * p) + 3 * h) * (102 / 100)). { unfold Rdiv. rewrite Rabs_mult, (Rabs_pos_eq (/ val d)) by lra. apply Rle_trans with ((61 / 10 * (v * p) + 3 * h) * D * / val d); [apply Rmult_le_compat_r; lra|]. rewrite Rmult_assoc. apply Rmult_le_compat_l; lra. }
  assert (QD : Rabs (Q / D) <= p). { unfold Rdiv. rewrite Rabs_mult, (Rabs_pos_eq (/ D)) by (left; now apply Rinv_0_lt_compat). apply Rmult_le_reg_r with D; [exact DP|]. rewrite Rmult_assoc, Rinv_l, Rmult_1_r by lra. exact QB. }
  assert (R2 : Rabs (Q / D * ((D - val d) / val d)) <= p * (3001 / 1000 * v * (102 / 100))). { rewrite Rabs_mult. apply Rmult_le_compat; try apply Rabs_pos; [exact QD|]. unfold Rdiv. rewrite Rabs_mult, (Rabs_pos_eq (/ val d)), Rabs_minus_sym by lra. apply Rle_trans with (3001 / 1000 * v * D * / val d); [apply Rmult_le_compat_r; lra|]. rewrite Rmult_assoc. apply Rmult_le_compat_l; lra. }
  assert (R3 : Rabs (val e / val d - Q / D) <= 95 / 10 * (v * p) + 4 * h). { replace (val e / val d - Q / D) with ((val e - Q) / val d + Q / D * ((D - val d) / val d)) by (field; lra). eapply Rle_trans; [apply Rabs_triang|]. lra. }
  assert (R4 : Rabs (val e / val d) <= p + (95 / 10 * (v * p) + 4 * h)). { replace (val e / val d) with ((val e / val d - Q / D) + Q / D) by ring. eapply Rle_trans; [apply Rabs_triang|]. lra. }
  destruct (fdiv_inv e d ltac:(lra) Fq) as [_ V]. change (Rabs (val (fdiv e d) - Q / D) <= 12 * v * p + bpow radix2 (-120)). rewrite V, H2. pose proof (rnd_err (val e / val d)) as RE. assert (UR : uu * Rabs (val e / val d) <= v * (p + (95 / 10 * (v * p) + 4 * h))). { apply Rle_trans with (v * Rabs (val e / val d)); [apply Rmult_le_compat_r; [apply Rabs_pos|lra]|apply Rmult_le_compat_l; lra]. }
  assert (v * (v * p) <= / 1000 * (v * p)) by (apply Rmult_le_compat_r; lra). assert (v * h <= / 1000 * h) by (apply Rmult_le_compat_r; lra). assert (EH : ee <= h) by (apply bpow_le; lia).
  replace (rnd (val e / val d) - Q / D) with ((rnd (val e / val d) - val e / val d) + (val e / val d - Q / D)) by ring. eapply Rle_trans; [apply Rabs_triang|]. lra.
Qed.
Lemma pow3_value x0 m (tol : F) : is_vec n x0 -> exists x q k w b, power_iteration3 a x0 (mkPOptions (N := F) m tol) = Ok (x, (q, k)) /\ (k <= m)%nat /\
  visited3 a x0 (Nat.min (S k) m) = Ok (w, b) /\ (b = true \/ k = m -> x = w) /\ (k < m -> b = false -> p_unit w = Ok x)%nat /\
  (fin (q : f64) = true -> if b then dot n (fcoords w) (fcoords w) <= 2 -> Rabs (val (q : f64) - quad n M (fcoords w)) <= 13 * (NN * uu) * Phi + bpow radix2 (-1020)
   else bpow radix2 (-900) <= dot n (fcoords w) (fcoords w) <= bpow radix2 600 -> Rabs (val (q : f64) - quad n M (fcoords w) / dot n (fcoords w) (fcoords w)) <= 12 * (NN * uu) * Phi + bpow radix2 (-120)).
Proof.
  intros H0. destruct (run3 x0 m tol H0) as (x & q & k & w & b & E & Hk & Hw & V & Q). exists x, q, k, w, b. split; [exact E|]. split; [exact Hk|]. split; [exact V|]. destruct b.
  - destruct Q as [-> Q]. split; [auto|]. split; [discriminate|]. intros Fq H2. apply (quot_err lm n a Hn H20 Ha w q Hw Q Fq H2).
  - destruct Q as (X & U & Q). split; [intros [K|K]; [discriminate|]; subst k; rewrite Nat.ltb_irrefl in X; exact X|]. split; [auto|]. intros Fq HD. exact (ray_err w q Hw Q Fq HD).
Qed.
End P.
