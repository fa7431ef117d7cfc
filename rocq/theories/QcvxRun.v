(** Whole runs of the optimiser on the quasi-convex example oracle. *)
From Coq Require Import ZArith Reals List Bool Arith Lia Lra Psatz.
From Flocq Require Import Core.
From Verif Require Import Num Res Arr CuttingPlane EllCalc Ell EllRun ArrLemmas EllLemmas DriverSpec DriverProofs DriverBest Spec RealLin EllSpec EllReal EllCuts EllMore
  LmiSpec Det DetLemmas VolScalar VolProofs RunSpec RunProofs Examples ExSpec ExProofs ExRun Profit ProfitSpec ProfitProofs ProfitWitness ExConv ProfitTest.
Import ListNotations.
Open Scope R_scope.

(** ** What is reported, any number type and search space *)
Section Any.
Context {N : Num} {S : Type}.
Variables (sp : SearchSpace N (Arr N) (SingleCut N) S) (opt : Options N).
Open Scope nat_scope.
Lemma qcvx_best idx s gamma o' s' gamma' x k : (-1 <= idx < 2)%Z ->
  cutting_plane_optim qcvx_assess sp opt idx s gamma = Ok (o', s', gamma', (Some x, k)) ->
  let a := nth 0 (adata x) n0 in let b := nth 1 (adata x) n0 in
  2 <= length (adata x) /\ gamma' = a /! nexp b /\ none_positive [a *! a -! b].
Proof.
  intros Hi E. cbv zeta.
  refine (_ (optim_best qcvx_assess sp opt (fun i => (-1 <= i < 2)%Z) (fun _ => True)
    (fun x => let a := nth 0 (adata x) n0 in let b := nth 1 (adata x) n0 in
       2 <= length (adata x) /\ none_positive [a *! a -! b])
    (fun x => nth 0 (adata x) n0 /! nexp (nth 1 (adata x) n0)) _ idx s gamma o' s' gamma' _ k Hi I E)).
  - intros (_ & _ & H & H1 & H2). auto.
  - intros i y g i' g' [gr c] sh Hi' _ K.
    pose proof (bind_idx _ _ _ K) as L. destruct (idx2 y L) as (u & v & Hu & Hv & Eu & Ev).
    destruct (qcvx_decides i y g u v Hi' Hu Hv) as (i2 & g2 & gr2 & b2 & sh2 & K2 & R2 & D1 & D2 & D3).
    rewrite K in K2. inversion K2; subst i2 g2 gr2 c sh2. rewrite <- Eu, <- Ev. split; auto. split; auto.
    destruct sh.
    + split; [apply D2; auto|]. cbv zeta. split; auto. pose proof (proj1 D1 eq_refl) as Q.
      apply none_positive_cons in Q as [Q1 Q].
      apply none_positive_cons; split; auto. apply none_positive_nil.
    + apply D3. auto.
Qed.
End Any.

(** ** The problem: maximise s e^-l over s^2 <= l *)
Definition peak : R := sqrt (1 / 2) / exp (1 / 2).
Lemma half_root : sqrt (1 / 2) * sqrt (1 / 2) = 1 / 2.
Proof. apply sqrt_def. lra. Qed.
Lemma half_root_b : 7071 / 10000 < sqrt (1 / 2) < 7072 / 10000.
Proof. pose proof half_root. pose proof (sqrt_lt_R0 (1 / 2) ltac:(lra)). split; nra. Qed.
Lemma half_exp_b : 164 / 100 < exp (1 / 2) < 166 / 100.
Proof.
  assert (A : exp (1 / 2) = exp (1 / 128) ^ 64) by (rewrite exp_pow; f_equal; rewrite INR_IZR_INZ; simpl; lra).
  assert (B : exp (- (1 / 2)) = exp (- (1 / 128)) ^ 64) by (rewrite exp_pow; f_equal; rewrite INR_IZR_INZ; simpl; lra).
  pose proof (exp_ineq1_le (1 / 128)) as H1. pose proof (exp_ineq1_le (- (1 / 128))) as H2.
  assert (C : forall (p q : Z) n, (0 < q)%Z -> (IZR p / IZR q) ^ n = IZR (p ^ Z.of_nat n) / IZR (q ^ Z.of_nat n)).
  { intros p q n Hq. unfold Rdiv. rewrite Rpow_mult_distr, pow_inv, !pow_IZR. reflexivity. }
  split.
  - rewrite A. apply Rlt_le_trans with ((129 / 128) ^ 64); [|apply pow_incr; lra]. rewrite C by lia.
    apply Rmult_lt_reg_r with (IZR (128 ^ Z.of_nat 64)); [apply IZR_lt; vm_compute; reflexivity|].
    unfold Rdiv at 2. rewrite Rmult_assoc, Rinv_l, Rmult_1_r by (apply Rgt_not_eq, IZR_lt; vm_compute; reflexivity).
    apply Rmult_lt_reg_r with 100; [lra|]. replace (164 / 100 * IZR (128 ^ Z.of_nat 64) * 100) with (164 * IZR (128 ^ Z.of_nat 64)) by field.
    rewrite <- !mult_IZR. apply IZR_lt. vm_compute. reflexivity.
  - assert (D : 100 / 166 < exp (- (1 / 2))).
    { rewrite B. apply Rlt_le_trans with ((127 / 128) ^ 64); [|apply pow_incr; lra]. rewrite C by lia.
      apply Rmult_lt_reg_r with (IZR (128 ^ Z.of_nat 64)); [apply IZR_lt; vm_compute; reflexivity|].
      unfold Rdiv at 2. rewrite Rmult_assoc, Rinv_l, Rmult_1_r by (apply Rgt_not_eq, IZR_lt; vm_compute; reflexivity).
      apply Rmult_lt_reg_r with 166; [lra|]. replace (100 / 166 * IZR (128 ^ Z.of_nat 64) * 166) with (100 * IZR (128 ^ Z.of_nat 64)) by field.
      rewrite <- !mult_IZR. apply IZR_lt. vm_compute. reflexivity. }
    rewrite exp_Ropp in D. pose proof (exp_pos (1 / 2)) as P. apply (Rmult_lt_compat_r (exp (1 / 2))) in D; auto. rewrite Rinv_l in D by lra. lra.
Qed.
Lemma peak_mult : peak * exp (1 / 2) = sqrt (1 / 2).
Proof. unfold peak. field. apply Rgt_not_eq, exp_pos. Qed.
Lemma peak_b : 425 / 1000 < peak < 432 / 1000.
Proof. pose proof peak_mult. pose proof half_root_b. pose proof half_exp_b. split; nra. Qed.
(** with h = sqrt (1/2): e^(s^2) >= e^(1/2) (s / h + (s - h)^2) *)
Lemma near_peak s l : s * s <= l -> exp (1 / 2) * (2 * sqrt (1 / 2) * s + (s - sqrt (1 / 2)) * (s - sqrt (1 / 2))) <= exp l.
Proof.
  intros H. pose proof (exp_above (1 / 2) l) as E. pose proof half_root. pose proof (exp_pos (1 / 2)).
  apply Rle_trans with (exp (1 / 2) * (1 + (l - 1 / 2))); [|exact E]. apply Rmult_le_compat_l; [lra|]. nra.
Qed.
Lemma objq_peak s l : probq s l -> objq s l <= peak.
Proof.
  unfold probq. intros H. pose proof (near_peak s l H) as E. pose proof half_root_b as Hh. pose proof peak_b. pose proof (exp_pos l) as Hp. pose proof half_root as HR. pose proof peak_mult as PM.
  set (h := sqrt (1 / 2)) in *. apply Rnot_lt_le. intros K. pose proof (objq_le (objq s l) s l) as [K1 _]. specialize (K1 (Rle_refl _)).
  assert (A : peak * exp l < s) by (apply Rlt_le_trans with (objq s l * exp l); [apply Rmult_lt_compat_r; auto|exact K1]).
  assert (B : peak * (exp (1 / 2) * (2 * h * s + (s - h) * (s - h))) <= peak * exp l) by (apply Rmult_le_compat_l; lra).
  rewrite <- Rmult_assoc, PM in B. assert (D : 0 <= h * ((s - h) * (s - h))) by (apply Rmult_le_pos; [lra|apply Rle_0_sqr]).
  replace (h * (2 * h * s + (s - h) * (s - h))) with (2 * (h * h) * s + h * ((s - h) * (s - h))) in B by ring. rewrite HR in B. lra.
Qed.
(** a point whose value is nearly the peak is near the peak *)
Lemma near_best_near s l r : 0 <= r <= 1 / 10000 -> probq s l -> peak - 4 * r <= objq s l -> (s - sqrt (1 / 2)) * (s - sqrt (1 / 2)) <= 32 * r.
Proof.
  unfold probq. intros Hr H K. pose proof (near_peak s l H) as E. pose proof half_root_b as Hh. pose proof peak_b. pose proof half_root as HR. pose proof peak_mult as PM.
  apply objq_le in K. set (h := sqrt (1 / 2)) in *. set (gl := peak - 4 * r) in *. assert (Hg : 4246 / 10000 < gl) by (unfold gl; lra).
  pose proof (exp_ineq1_le l) as E1. set (d := (s - h) * (s - h)) in *.
  assert (Hd : 0 <= d) by (unfold d; apply Rle_0_sqr).
  assert (S1 : gl * (1 + s * s) <= s) by (apply Rle_trans with (gl * exp l); [apply Rmult_le_compat_l; lra|exact K]).
  assert (S2 : 0 < s) by nra. assert (S3 : s <= 236 / 100) by nra.
  pose proof half_exp_b as He. set (x := exp (1 / 2)) in *.
  assert (B : gl * (x * (2 * h * s + d)) <= s) by (apply Rle_trans with (gl * exp l); [apply Rmult_le_compat_l; lra|exact K]).
  (* s = 2 h h s = 2 peak x h s *)
  assert (C : s = peak * x * (2 * h * s)) by (rewrite PM; replace (h * (2 * h * s)) with (2 * (h * h) * s) by ring; rewrite HR; field).
  assert (D : gl * x * d <= 4 * r * (x * (2 * h * s))) by (unfold gl in *; nra).
  assert (D2 : gl * d <= 4 * r * (2 * h * s)) by (apply Rmult_le_reg_l with x; [lra|nra]).
  assert (D3 : 2 * h * s <= 3339 / 1000) by nra. nra.
Qed.

(** ** A run *)
Definition invq (i : Z) (gamma : R) : Prop := (-1 <= i < 2)%Z /\ 0 <= gamma.
Lemma qcvx_good1 idx (xc : Arr RNum) (gamma : R) : invq idx gamma -> (2 <= length (adata xc))%nat ->
  exists idx' gamma' g beta b, qcvx_assess (N := RNum) idx xc gamma = Ok (idx', gamma', ((g, mkSingle (N := RNum) beta), b)) /\ invq idx' gamma' /\
    good_answer probq objq (xvec xc) gamma gamma' g beta b /\ 1 <= dot 2 (coords g) (coords g).
Proof.
  intros [Hi Hg] H. destruct (qcvx_good idx xc gamma Hi H Hg) as (i' & ga & g & beta & b & E & Hi' & Hga & G). exists i', ga, g, beta, b.
  split; auto. split; [split; auto; lra|]. split; auto.
  destruct (idx2 (N := RNum) xc H) as (x & y & Hx & Hy & _). revert E. unfold qcvx_assess. rewrite Hx, Hy. cbn [bind].
  match goal with |- context [bind ?u _] => destruct u as [[[i2 []]|[[i2 []] fj]]|] end; cbn [bind]; try discriminate.
  - intros E. inversion E; subst. unfold dot, coords; cbn; unfold n1, n2, nm1, n0; cbn. nra.
  - unfold qcvx_grad. destruct i2 as [|[p|p|]|p]; cbn [bind]; try discriminate; intros E; inversion E; subst; unfold dot, coords; cbn; unfold n1, n2, nm1, n0; cbn; nra.
Qed.
Lemma qcvx_cuts : optim_cuts single_sat single_deep 2 invq (at_least probq objq) (qcvx_assess (N := RNum)).
Proof.
  intros o x gamma o' gamma' g c sh HI [Hl _] E.
  destruct (qcvx_good1 o x gamma HI ltac:(lia)) as (o2 & ga2 & g2 & beta & b & E2 & HI2 & G & _).
  rewrite E in E2. inversion E2; subst o2 ga2 g2 c b. destruct G as [[G1 G1'] G2 G3 G4 G5].
  split; auto. split; [split; auto|]. split; [|split; [|split]].
  - unfold single_deep. cbn. destruct sh; [destruct (G3 eq_refl) as [_ ->]; lra|destruct (G4 eq_refl); lra].
  - intros ->. apply G4. auto.
  - intros y [H1 H2]. split; auto. destruct sh; [|destruct (G4 eq_refl); lra].
    destruct (G3 eq_refl) as [E' _]. destruct (proj1 G2 eq_refl) as [_ H3]. lra.
  - intros y Hy. specialize (G5 y Hy). unfold single_sat. cbn [sc_beta]. unfold along.
    change (coords g) with (xvec g). change (coords x) with (xvec x). destruct sh; cbn [offset]; auto.
    destruct (G3 eq_refl) as [_ E']. lra.
Qed.
Lemma qcvx_total : optim_total 2 invq 1 (qcvx_assess (N := RNum)).
Proof.
  intros o x gamma HI [Hl _]. destruct (qcvx_good1 o x gamma HI ltac:(lia)) as (o2 & ga2 & g2 & beta & b & E2 & HI2 & G & Hgg).
  exists o2, ga2, g2, (mkSingle (N := RNum) beta), b. split; auto. lra.
Qed.
Lemma qcvx_answer idx sp0 (opt : Options RNum) (e : Ell RNum) (gamma : R) i' e' (gamma' : R) x k : (-1 <= idx < 2)%Z ->
  cutting_plane_optim (qcvx_assess (N := RNum)) sp0 opt idx e gamma = Ok (i', e', gamma', (Some x, k)) ->
  probq (coords x 0%nat) (coords x 1%nat) /\ gamma' = objq (coords x 0%nat) (coords x 1%nat).
Proof.
  intros Hi E. destruct (qcvx_best (N := RNum) sp0 opt idx e gamma i' e' gamma' x k Hi E) as (Hl & Hga & Hn).
  pose proof (none_pos_le _ _ Hn (or_introl eq_refl)) as H1. unfold n0 in *. cbn in H1. unfold probq, objq, coords. cbn. split; [lra|exact Hga].
Qed.

(** a ball above a feasible point, hardly worse *)
Lemma room (u : vec) r y : probq (u 0%nat) (u 1%nat) -> 0 < r <= 1 -> 0 < u 0%nat -> 4 * r <= objq (u 0%nat) (u 1%nat) ->
  ball 2 (point2 (u 0%nat) (u 1%nat + (2 * u 0%nat + 2) * r)) r y ->
  at_least probq objq y (objq (u 0%nat) (u 1%nat) - 4 * r) /\ ball 2 u ((2 * u 0%nat + 3) * r) y.
Proof.
  set (p := u 0%nat). set (q := u 1%nat). unfold probq. intros Hf Hr Hp H4 Hb.
  apply ball2 in Hb as (a & b & H & Ey0 & Ey1). destruct (in_unit a b r ltac:(lra) H) as [Ha Hb].
  unfold at_least, probq. rewrite Ey0, Ey1. split; [split|].
  - assert (A1 : 2 * p * a <= 2 * p * r) by nra. assert (A2 : a * a <= r) by nra. nra.
  - apply objq_le. set (w := (2 * p + 2) * r + b). assert (Hw : w <= (2 * p + 3) * r) by (unfold w; nra).
    replace (q + (2 * p + 2) * r + b) with (q + w) by (unfold w; ring). rewrite exp_plus.
    pose proof (exp_pos q) as Hq. pose proof (exp_pos w) as Hw0. pose proof (exp_ineq1_le q) as E1.
    assert (Hq0 : 0 <= q) by (pose proof (Rle_0_sqr p); unfold Rsqr in *; lra).
    assert (E2 : 2 * q <= exp q).
    { pose proof (exp_ineq1_le (q / 2)) as E. rewrite (double_var q) at 2. rewrite exp_plus. set (z := exp (q / 2)) in *. clearbody z q. clear - E Hq0.
      assert (0 <= (1 - q / 2) * (1 - q / 2)) by apply Rle_0_sqr. assert ((1 + q / 2) * (1 + q / 2) <= z * z) by (apply Rmult_le_compat; lra). lra. }
    set (v := objq p q). assert (Ev : v * exp q = p) by (unfold v, objq; field; lra).
    assert (Hv : 0 < v) by (unfold v, objq; apply Rdiv_lt_0_compat; lra).
    assert (Hvp : v <= p) by (rewrite <- Ev; rewrite <- (Rmult_1_r v) at 1; apply Rmult_le_compat_l; lra).
    assert (V1 : v <= 1 / 2) by (pose proof (objq_peak p q Hf); pose proof peak_b; unfold v; lra).
    assert (K : 4 * r <= v) by exact H4. clearbody v.
    assert (V2 : v * p <= 1 / 2). { apply Rmult_le_reg_r with (exp q); [lra|]. replace (v * p * exp q) with (p * (v * exp q)) by ring. rewrite Ev. lra. }
    (* (v - 4 r) e^w <= (v - 4 r) / (1 - w) and e^-w >= 1 - w *)
    pose proof (exp_ineq1_le (- w)) as E3. rewrite exp_Ropp in E3.
    assert (E4 : exp w * (1 - w) <= 1).
    { apply Rmult_le_reg_l with (/ exp w); [now apply Rinv_0_lt_compat|]. rewrite <- Rmult_assoc, Rinv_l, Rmult_1_l, Rmult_1_r by lra. lra. }
    assert (V3 : v * ((2 * p + 3) * r) <= 5 / 2 * r).
    { replace (v * ((2 * p + 3) * r)) with ((2 * (v * p) + 3 * v) * r) by ring. apply Rmult_le_compat_r; lra. }
    assert (Hden : v - 5 / 2 * r <= v * (1 - w)).
    { assert (v * w <= v * ((2 * p + 3) * r)) by (apply Rmult_le_compat_l; lra). lra. }
    assert (R1 : r <= exp q * r) by (rewrite <- (Rmult_1_l r) at 1; apply Rmult_le_compat_r; lra).
    assert (P1 : exp q * (v - 5 / 2 * r) <= p * (1 - w)).
    { rewrite <- Ev. replace (v * exp q * (1 - w)) with (exp q * (v * (1 - w))) by ring. apply Rmult_le_compat_l; lra. }
    assert (W1 : - r <= w) by (unfold w; assert (0 <= (2 * p + 2) * r) by (apply Rmult_le_pos; lra); lra).
    assert (G : (v - 4 * r) * exp q <= (p - r) * (1 - w)).
    { assert (r * (1 - w) <= r * (1 + r)) by (apply Rmult_le_compat_l; lra). assert (r * r <= r * (1 / 8)) by (apply Rmult_le_compat_l; lra). lra. }
    apply Rle_trans with ((p - r) * (1 - w) * exp w).
    + rewrite <- Rmult_assoc. apply Rmult_le_compat_r; lra.
    + replace ((p - r) * (1 - w) * exp w) with ((p - r) * (exp w * (1 - w))) by ring.
      apply Rle_trans with ((p - r) * 1); [apply Rmult_le_compat_l; lra|lra].
  - unfold ball, dot. cbn. fold p q. rewrite Ey0, Ey1. set (c := (2 * p + 2) * r).
    assert (Hc : 0 <= c) by (unfold c; nra). replace ((2 * p + 3) * r) with (c + r) by (unfold c; ring). nra.
Qed.
Lemma qcvx_near_best (opt : Options RNum) idx (e : Ell RNum) (gamma : R) u r : (-1 <= idx < 2)%Z -> 0 <= gamma -> proper 2 e -> vecn 2 (e_xc e) ->
  0 < r <= 1 -> probq (u 0%nat) (u 1%nat) -> gamma + 4 * r <= objq (u 0%nat) (u 1%nat) ->
  (forall y, ball 2 u ((2 * u 0%nat + 3) * r) y -> pts 2 e y) ->
  tolerance opt <= r * r -> (INR 2 + 1) * ln (vol2 2 e / (r * r) ^ 2) < INR (max_iters opt) ->
  exists i' e' gamma' x k, cutting_plane_optim (qcvx_assess (N := RNum)) (ell_space (N := RNum) single) opt idx e gamma = Ok (i', e', gamma', (Some x, k)) /\
    probq (coords x 0%nat) (coords x 1%nat) /\ gamma' = objq (coords x 0%nat) (coords x 1%nat) /\ objq (u 0%nat) (u 1%nat) - 4 * r < gamma'.
Proof.
  intros Hi Hg HP Hxc Hr Hf Hv Hin Ht Hm.
  assert (Hp : 0 < u 0%nat).
  { assert (0 < objq (u 0%nat) (u 1%nat)) as K by lra. unfold objq in K. pose proof (exp_pos (u 1%nat)). 
    apply (Rmult_lt_compat_r (exp (u 1%nat))) in K; auto. unfold Rdiv in K. rewrite Rmult_0_l, Rmult_assoc, Rinv_l, Rmult_1_r in K by lra. exact K. }
  destruct (optim_bound single single_sat single_deep 2 invq ltac:(lia) (point2 (u 0%nat) (u 1%nat + (2 * u 0%nat + 2) * r)) r ltac:(lra) single_shrink 1 (at_least probq objq) (qcvx_assess (N := RNum)) opt idx e gamma)
    as (o' & e' & ga & x & k & E & Hna & Hl); auto.
  - exact qcvx_cuts.
  - exact qcvx_total.
  - lra.
  - split; auto.
  - intros y Hy. destruct (room u r y Hf Hr Hp ltac:(lra) Hy) as [[H1 H2] H3]. split; [split; [auto|lra]|auto].
  - eapply Rle_trans; [exact Ht|]. right. ring.
  - exists o', e', ga, x, k. split; auto. destruct (qcvx_answer idx _ opt e gamma o' e' ga x k Hi E) as [A1 A2]. split; auto. split; auto.
    apply Rnot_le_lt. intros Hle. apply Hna. intros y Hy. destruct (room u r y Hf Hr Hp ltac:(lra) Hy) as [[H1 H2] H3]. split; [auto|lra].
Qed.
Lemma qcvx_certificate (opt : Options RNum) idx (e : Ell RNum) (gamma : R) i' e' (gamma' : R) ans k : (-1 <= idx < 2)%Z -> 0 <= gamma ->
  valid 2 e -> vecn 2 (e_xc e) -> 0 < tolerance opt ->
  cutting_plane_optim (qcvx_assess (N := RNum)) (ell_space (N := RNum) single) opt idx e gamma = Ok (i', e', gamma', (ans, k)) ->
  (k < max_iters opt)%nat -> tolerance opt <= e_tsq e' ->
  forall u, pts 2 e u -> probq (u 0%nat) (u 1%nat) -> objq (u 0%nat) (u 1%nat) < gamma'.
Proof.
  intros Hi Hg HV Hx Ht E Hk Hts u Hu Hf.
  pose proof (proj2 (optim_keeps single single_sat single_deep single_step 2 invq ltac:(lia) (at_least probq objq) (qcvx_assess (N := RNum)) opt idx e gamma i' e' gamma' ans k qcvx_cuts (conj Hi Hg) HV Hx Ht E) Hk Hts u Hu) as K.
  apply Rnot_le_lt. intros Hle. apply K. split; auto.
Qed.
Lemma qcvx_too_high {S : Type} (sp : SearchSpace RNum (Arr RNum) (SingleCut RNum) S) (opt : Options RNum) idx s (gamma : R) o' s' gamma' ans k :
  (-1 <= idx < 2)%Z -> peak < gamma ->
  cutting_plane_optim (qcvx_assess (N := RNum)) sp opt idx s gamma = Ok (o', s', gamma', (ans, k)) -> ans = None /\ gamma' = gamma.
Proof.
  intros Hi Hg E.
  refine (_ (optim_best2 (qcvx_assess (N := RNum)) sp opt (fun i => (-1 <= i < 2)%Z) (fun g : R => peak < g) (fun _ _ => False) _ idx s gamma o' s' gamma' ans k Hi Hg E)).
  - intros (_ & _ & H). destruct ans; [destruct H|]. auto.
  - intros i y g i' g' [gr c] sh Hi' Hg' K. pose proof (bind_idx (N := RNum) _ _ _ K) as L. pose proof peak_b as PB.
    destruct (qcvx_good i y g Hi' L ltac:(lra)) as (i2 & g2 & gr2 & b2 & sh2 & K2 & R2 & Hge & G).
    rewrite K in K2. inversion K2; subst i2 g2 gr2 c sh2. destruct G as [_ G2 _ G4 _]. destruct sh.
    + exfalso. destruct (proj1 G2 eq_refl) as [F1 F2]. pose proof (objq_peak _ _ F1). lra.
    + destruct (G4 eq_refl) as [-> _]. auto.
Qed.

(** ** The problem of the crate's tests *)
Definition best : vec := point2 (sqrt (1 / 2)) (1 / 2).
Lemma best_feasible : probq (best 0%nat) (best 1%nat) /\ objq (best 0%nat) (best 1%nat) = peak.
Proof. unfold best, probq, objq, peak, point2. rewrite half_root. split; [lra|reflexivity]. Qed.
Lemma best_inside r (val : R) y : 1 <= val -> 0 < r <= 1 / 10000 -> ball 2 best ((2 * best 0%nat + 3) * r) y -> y 0%nat * y 0%nat + y 1%nat * y 1%nat <= val.
Proof.
  intros Hv Hr H. pose proof half_root_b as Hh. pose proof half_root as HR.
  change (best 0%nat) with (sqrt (1 / 2)) in H. set (h := sqrt (1 / 2)) in *.
  assert (Hs : 0 < (2 * h + 3) * r <= 1 / 1000).
  { split; [apply Rmult_lt_0_compat; lra|]. apply Rle_trans with (5 * (1 / 10000)); [apply Rmult_le_compat; lra|lra]. }
  set (t := (2 * h + 3) * r) in *. clearbody t.
  change (ball 2 (point2 h (1 / 2)) t y) in H. apply ball2 in H as (a & b & H & -> & ->).
  destruct (in_unit a b t ltac:(lra) H) as [Ha Hb].
  assert (A1 : (h + a) * (h + a) <= 71 / 100 * (71 / 100)) by (apply Rmult_le_compat; lra).
  assert (A2 : (1 / 2 + b) * (1 / 2 + b) <= 51 / 100 * (51 / 100)) by (apply Rmult_le_compat; lra). lra.
Qed.
Lemma qcvx_solves (opt : Options RNum) (val gamma r : R) : 1 <= val <= 10 ^ 20 -> 0 <= gamma <= 42 / 100 -> / 10 ^ 10 <= r <= 1 / 10000 ->
  tolerance opt <= r * r -> (2000 <= max_iters opt)%nat ->
  exists e, ell_new (N := RNum) (rv val val) (rv 0 0) = Ok e /\
  exists i' e' gamma' x k, cutting_plane_optim (qcvx_assess (N := RNum)) (ell_space (N := RNum) single) opt (-1)%Z e gamma = Ok (i', e', gamma', (Some x, k)) /\
    probq (coords x 0%nat) (coords x 1%nat) /\ gamma' = objq (coords x 0%nat) (coords x 1%nat) /\ peak - 4 * r < gamma' <= peak /\
    (coords x 0%nat - sqrt (1 / 2)) * (coords x 0%nat - sqrt (1 / 2)) <= 32 * r.
Proof.
  intros Hv Hg Hr Ht Hm.
  assert (Hr0 : 0 < / 10 ^ 10) by (apply Rinv_0_lt_compat, pow_lt; lra).
  destruct (disc_diag val ltac:(lra)) as (e & E & HP & Hxc & Hvol & Hin).
  exists e. split; auto. destruct best_feasible as [B1 B2].
  destruct (qcvx_near_best opt (-1)%Z e gamma best r) as (i' & e' & ga & x & k & R & A1 & A2 & A3); auto; try lra; try lia.
  - rewrite B2. pose proof peak_b. lra.
  - intros y Hy. apply Hin. exact (best_inside r val y ltac:(lra) ltac:(lra) Hy).
  - rewrite Hvol. apply Rlt_le_trans with (INR 2000); [|apply le_INR; exact Hm]. apply iters_enough; [lra| |].
    { replace (10 ^ 40) with (10 ^ 20 * 10 ^ 20) by (rewrite <- pow_add; reflexivity). apply Rmult_le_compat; lra. }
    assert (S1 : / 10 ^ 10 * / 10 ^ 10 <= r * r) by (apply Rmult_le_compat; lra).
    pose proof r10_four as F. unfold r10 in F. rewrite <- F. apply Rle_ge, Rmult_le_compat_l; [apply pow_le; lra|]. assert (0 <= / 10 ^ 10 * / 10 ^ 10) by (apply Rmult_le_pos; lra). apply Rmult_le_compat; lra.
  - exists i', e', ga, x, k. split; auto. split; auto. split; auto. rewrite B2 in A3. pose proof (objq_peak _ _ A1). rewrite <- A2 in *. split; [lra|].
    apply near_best_near with (coords x 1%nat); auto; lra.
Qed.

Lemma qcvx_default (val gamma : R) : 1 <= val <= 10 ^ 20 -> 0 <= gamma <= 42 / 100 ->
  exists e, ell_new (N := RNum) (rv val val) (rv 0 0) = Ok e /\
  exists i' e' gamma' x k, cutting_plane_optim (qcvx_assess (N := RNum)) (ell_space (N := RNum) single) options_default (-1)%Z e gamma = Ok (i', e', gamma', (Some x, k)) /\
    probq (coords x 0%nat) (coords x 1%nat) /\ gamma' = objq (coords x 0%nat) (coords x 1%nat) /\ peak - 4 / 10 ^ 10 < gamma' <= peak /\
    49 / 100 <= coords x 0%nat * coords x 0%nat <= 51 / 100 /\ 16 / 10 <= exp (coords x 1%nat) <= 17 / 10.
Proof.
  intros Hv Hg. pose proof r10_small as S1. pose proof r10_pos as S0.
  destruct (qcvx_solves options_default val gamma r10 Hv Hg) as (e & E & i' & e' & ga & x & k & R & A1 & A2 & A3 & A4).
  - unfold r10. split; [lra|]. replace (1 / 10000) with (/ 10000) by lra. apply Rinv_le_contravar; [lra|]. replace 10000 with (10 ^ 4) by lra. apply Rle_pow; [lra|lia].
  - exact default_tol.
  - exact (Nat.le_refl _).
  - exists e. split; auto. exists i', e', ga, x, k. split; auto. split; auto. split; auto. unfold r10 in A3. split; [lra|].
    assert (S2 : 32 * r10 <= 1 / 1000000).
    { unfold r10. assert (H : / 10 ^ 10 <= / 10 ^ 8) by (apply Rinv_le_contravar; [apply pow_lt; lra|apply Rle_pow; [lra|lia]]).
      replace (10 ^ 8) with 100000000 in H by lra. lra. }
    set (s := coords x 0%nat) in *. set (l := coords x 1%nat) in *. pose proof half_root_b as Hh. set (h := sqrt (1 / 2)) in *.
    assert (S3 : - (1 / 1000) <= s - h <= 1 / 1000) by (split; nra).
    assert (S4 : 49 / 100 <= s * s <= 51 / 100) by (split; nra). split; auto.
    unfold probq in A1. pose proof half_exp_b as He. pose proof (exp_above (1 / 2) l) as Ea. pose proof peak_b as PB.
    assert (S5 : 0 < 4 / 10 ^ 10 <= 1 / 1000) by (fold r10 in *; change (0 < 4 * r10 <= 1 / 1000); lra).
    split.
    + clear - A1 S4 Ea He. apply Rle_trans with (164 / 100 * (1 + (49 / 100 - 1 / 2))); [lra|]. apply Rle_trans with (exp (1 / 2) * (1 + (l - 1 / 2))); [apply Rmult_le_compat; lra|exact Ea].
    + pose proof (proj1 (objq_le ga s l)) as K. rewrite A2 in K at 1. specialize (K (Rle_refl _)).
      assert (Hga : 424 / 1000 < ga) by (unfold Rdiv in *; lra). pose proof (exp_pos l) as Hp. clear - K Hga Hp S3 Hh.
      assert (424 / 1000 * exp l <= ga * exp l) by (apply Rmult_le_compat_r; lra). lra.
Qed.
