(** Whole runs of the drivers on the example oracles, over the reals. *)
From Coq Require Import ZArith Reals List Bool Arith Lia Lra Psatz.
From Flocq Require Import Core.
From Verif Require Import Num Res Arr CuttingPlane EllCalc Ell EllRun ArrLemmas EllLemmas DriverSpec DriverProofs Spec RealLin EllSpec EllReal EllCuts EllMore
  LmiSpec Det DetLemmas VolScalar VolProofs RunSpec RunProofs Examples ExSpec ExProofs ExRun.
Import ListNotations.
Open Scope R_scope.

Lemma fold_prod_const (c : R) l : fold_right Rmult 1 (map (fun _ : nat => c) l) = c ^ length l.
Proof. induction l as [|a l IH]; [reflexivity|]. cbn [map fold_right length pow]. now rewrite IH. Qed.
Lemma new_scalar_xc (val : R) (xc : Arr RNum) e : ell_new_with_scalar (N := RNum) val xc = Ok e -> e_xc e = xc.
Proof. unfold ell_new_with_scalar. intros E. apply bind_inv in E as (mq & _ & E). inversion E. reflexivity. Qed.
Lemma new_scalar_vol n (val : R) (xc : Arr RNum) e : (0 < n)%nat -> length (adata xc) = n ->
  ell_new_with_scalar (N := RNum) val xc = Ok e -> vol2 n e = val ^ n.
Proof.
  intros Hn Hl E. destruct (ell_new_with_scalar_ok (N := RNum) n val xc Hn Hl) as (e2 & E2 & Hw & Hk & Hx & Hh & _ & Hd).
  rewrite E in E2. inversion E2; subst e2. unfold vol2, kap. rewrite Hk.
  rewrite (det_ext n _ (fun i j => if Nat.eqb i j then (fun _ => 1) i else 0)) by (intros i j Hi Hj; apply Hd; auto).
  rewrite det_diag, fold_prod_const, pow1. ring.
Qed.
Lemma new_diag_vol n (val xc : Arr RNum) e : (0 < n)%nat -> vecn n val -> length (adata xc) = n ->
  ell_new (N := RNum) val xc = Ok e -> vol2 n e = fold_right Rmult 1 (map (coords val) (seq 0 n)).
Proof.
  intros Hn Hv Hl E. destruct (ell_new_ok (N := RNum) n val xc Hn Hv Hl) as (e2 & E2 & Hw & Hk & Hx & Hh & _ & Hd).
  rewrite E in E2. inversion E2; subst e2. unfold vol2, kap. rewrite Hk.
  rewrite (det_ext n _ (fun i j => if Nat.eqb i j then (coords val) i else 0)) by (intros i j Hi Hj; apply Hd; auto).
  rewrite det_diag. change (@n1 RNum) with 1. rewrite pow1. ring.
Qed.

(** 3 ln (K^2 / r^4) < 2000 for all practical K and r *)
Lemma iters_enough K r : 0 < K -> K * K <= 10 ^ 40 -> 10 ^ 40 * (r * r * (r * r)) >= 1 -> (INR 2 + 1) * ln (K ^ 2 / (r * r) ^ 2) < INR 2000.
Proof.
  intros HK H1 H2. replace (INR 2000) with 2000 by (rewrite INR_IZR_INZ; reflexivity). change (INR 2) with 2.
  replace ((r * r) ^ 2) with (r * r * (r * r)) by ring. replace (K ^ 2) with (K * K) by ring.
  set (q := r * r * (r * r)) in *. assert (Hq : 0 < q) by (assert (0 < 10 ^ 40) by (apply pow_lt; lra); nra).
  assert (Hle : K * K / q <= exp 600).
  { apply Rle_trans with (10 ^ 80).
    - apply Rmult_le_reg_r with q; auto. unfold Rdiv. rewrite Rmult_assoc, Rinv_l by lra.
      replace (10 ^ 80) with (10 ^ 40 * 10 ^ 40) by (rewrite <- pow_add; reflexivity).
      assert (0 < 10 ^ 40) by (apply pow_lt; lra). nra.
    - apply Rle_trans with (2 ^ 600).
      + change 10 with (IZR 10). change 2 with (IZR 2). rewrite !pow_IZR. apply IZR_le. vm_compute. discriminate.
      + replace 600 with (INR 600 * 1) by (rewrite INR_IZR_INZ; simpl; lra). rewrite <- exp_pow.
        apply pow_incr. pose proof (exp_ineq1_le 1). lra. }
  assert (Hp : 0 < K * K / q) by (apply Rdiv_lt_0_compat; auto; nra).
  assert (ln (K * K / q) <= 600); [|lra].
  rewrite <- (ln_exp 600). destruct (Rle_lt_or_eq_dec _ _ Hle) as [H|H]; [left; apply ln_increasing; auto|right; now rewrite H].
Qed.

(** ** Two variables, maximisation *)
Section Max2.
Context {O : Type} (assess : OracleOptim RNum (Arr RNum) (SingleCut RNum) O) (Inv : O -> Prop).
Variables (feas : R -> R -> Prop) (obj : R -> R -> R).
Hypothesis Hgood : forall o (xc : Arr RNum) (gamma : R), Inv o -> (2 <= length (adata xc))%nat ->
  exists o' gamma' g beta b, assess o xc gamma = Ok (o', gamma', ((g, mkSingle (N := RNum) beta), b)) /\ Inv o' /\
    good_answer feas obj (xvec xc) gamma gamma' g beta b /\ 1 <= dot 2 (coords g) (coords g).
Definition at_least (u : vec) (gamma : R) : Prop := feas (u 0%nat) (u 1%nat) /\ gamma <= obj (u 0%nat) (u 1%nat).
Lemma max2_cuts : optim_cuts single_sat single_deep 2 (fun o _ => Inv o) at_least assess.
Proof.
  intros o x gamma o' gamma' g c sh HI [Hl _] E.
  destruct (Hgood o x gamma HI ltac:(lia)) as (o2 & ga2 & g2 & beta & b & E2 & HI2 & G & _).
  rewrite E in E2. inversion E2; subst o2 ga2 g2 c b. destruct G as [[G1 G1'] G2 G3 G4 G5].
  split; auto. split; [split; auto|]. split; [|split; [|split]].
  - unfold single_deep. cbn. destruct sh; [destruct (G3 eq_refl) as [_ ->]; lra|destruct (G4 eq_refl); lra].
  - intros ->. apply G4. auto.
  - intros y [H1 H2]. split; auto. destruct sh; [|destruct (G4 eq_refl); lra].
    destruct (G3 eq_refl) as [E' _]. destruct (proj1 G2 eq_refl) as [_ H3]. lra.
  - intros y Hy. specialize (G5 y Hy). unfold single_sat. cbn [sc_beta]. unfold along.
    change (coords g) with (xvec g). change (coords x) with (xvec x). destruct sh; cbn [offset]; auto.
    destruct (G3 eq_refl) as [_ E']. lra.
Qed.
Lemma max2_total : optim_total 2 (fun o _ => Inv o) 1 assess.
Proof.
  intros o x gamma HI [Hl _]. destruct (Hgood o x gamma HI ltac:(lia)) as (o2 & ga2 & g2 & beta & b & E2 & HI2 & G & Hgg).
  exists o2, ga2, g2, (mkSingle (N := RNum) beta), b. split; auto. lra.
Qed.
(** a ball of points at least as good as [t] makes the answer better than [t] *)
Lemma max2_reaches (opt : Options RNum) o (e : Ell RNum) (gamma t : R) z r : Inv o -> proper 2 e -> vecn 2 (e_xc e) -> 0 < r -> gamma <= t ->
  (forall y, ball 2 z r y -> at_least y t /\ pts 2 e y) -> tolerance opt <= r * r ->
  (INR 2 + 1) * ln (vol2 2 e / (r * r) ^ 2) < INR (max_iters opt) ->
  exists o' e' gamma' x k, cutting_plane_optim assess (ell_space (N := RNum) single) opt o e gamma = Ok (o', e', gamma', (Some x, k)) /\
    t < gamma' /\ exists o1 g1 o2 cut, assess o1 x g1 = Ok (o2, gamma', (cut, true)).
Proof.
  intros HI HP Hxc Hr Hgt HB Ht Hm.
  destruct (optim_bound single single_sat single_deep 2 (fun o _ => Inv o) ltac:(lia) z r Hr single_shrink 1 at_least assess opt o e gamma)
    as (o' & e' & ga & x & k & E & Hna & Hl); auto.
  - exact max2_cuts.
  - exact max2_total.
  - lra.
  - intros y Hy. destruct (HB y Hy) as [[H1 H2] H3]. split; auto. split; auto. lra.
  - eapply Rle_trans; [exact Ht|]. right. ring.
  - exists o', e', ga, x, k. split; auto. split; auto. apply Rnot_le_lt. intros Hle. apply Hna. intros y Hy.
    destruct (HB y Hy) as [[H1 H2] _]. split; auto. lra.
Qed.
End Max2.

Ltac norm1 := unfold dot, coords; cbn; unfold n1, n2, nm1, n0; cbn; lra.
Lemma ex1_good1 o (xc : Arr RNum) (gamma : R) : True -> (2 <= length (adata xc))%nat ->
  exists o' gamma' g beta b, ex1_assess (N := RNum) o xc gamma = Ok (o', gamma', ((g, mkSingle (N := RNum) beta), b)) /\ True /\
    good_answer prob1 obj1 (xvec xc) gamma gamma' g beta b /\ 1 <= dot 2 (coords g) (coords g).
Proof.
  intros _ H. destruct o. destruct (ex1_good xc gamma H) as (ga & g & beta & b & E & G). exists tt, ga, g, beta, b. split; auto. split; auto. split; auto.
  destruct (idx2 (N := RNum) xc H) as (x & y & Hx & Hy & _). revert E. unfold ex1_assess. rewrite Hx, Hy. cbn [bind].
  repeat match goal with |- context [if ?c then _ else _] => destruct c end; intros E; inversion E; subst; norm1.
Qed.
Lemma ex1rr_good1 idx (xc : Arr RNum) (gamma : R) : (-1 <= idx < 3)%Z -> (2 <= length (adata xc))%nat ->
  exists o' gamma' g beta b, ex1rr_assess (N := RNum) idx xc gamma = Ok (o', gamma', ((g, mkSingle (N := RNum) beta), b)) /\ (-1 <= o' < 3)%Z /\
    good_answer prob1 obj1 (xvec xc) gamma gamma' g beta b /\ 1 <= dot 2 (coords g) (coords g).
Proof.
  intros Hi H. destruct (ex1rr_good idx xc gamma Hi H) as (i' & ga & g & beta & b & E & Hi' & G). exists i', ga, g, beta, b. split; auto. split; auto. split; auto.
  destruct (idx2 (N := RNum) xc H) as (x & y & Hx & Hy & _). revert E. unfold ex1rr_assess. rewrite Hx, Hy. cbn [bind].
  match goal with |- context [bind ?u _] => destruct u as [[[i2 []]|[[i2 []] fj]]|] end; cbn [bind]; try discriminate.
  - intros E. inversion E; subst. norm1.
  - unfold ex1rr_grad. destruct i2 as [|[p|[p|p|]|]|p]; cbn [bind]; try discriminate; intros E; inversion E; subst; norm1.
Qed.
Lemma ex4_good1 idx (xc : Arr RNum) (gamma : R) : (-1 <= idx < 4)%Z -> (2 <= length (adata xc))%nat ->
  exists o' gamma' g beta b, ex4_assess (N := RNum) idx xc gamma = Ok (o', gamma', ((g, mkSingle (N := RNum) beta), b)) /\ (-1 <= o' < 4)%Z /\
    good_answer prob4 obj4 (xvec xc) gamma gamma' g beta b /\ 1 <= dot 2 (coords g) (coords g).
Proof.
  intros Hi H. destruct (ex4_good idx xc gamma Hi H) as (i' & ga & g & beta & b & E & Hi' & G). exists i', ga, g, beta, b. split; auto. split; auto. split; auto.
  destruct (idx2 (N := RNum) xc H) as (x & y & Hx & Hy & _). revert E. unfold ex4_assess. rewrite Hx, Hy. cbn [bind].
  match goal with |- context [bind ?u _] => destruct u as [[[i2 []]|[[i2 []] fj]]|] end; cbn [bind]; try discriminate.
  - intros E. inversion E; subst. norm1.
  - unfold ex4_grad. destruct i2 as [|[[p|p|]|[p|p|]|]|p]; cbn [bind]; try discriminate; intros E; inversion E; subst; norm1.
Qed.

Definition r10 : R := / 10 ^ 10.
Lemma r10_pos : 0 < r10. Proof. apply Rinv_0_lt_compat, pow_lt. lra. Qed.
Lemma r10_small : r10 <= 1 / 1000.
Proof. unfold r10. replace (1 / 1000) with (/ 1000) by lra. apply Rinv_le_contravar; [lra|]. replace 1000 with (10 ^ 3) by lra. apply Rle_pow; [lra|lia]. Qed.
Lemma r10_four : 10 ^ 40 * (r10 * r10 * (r10 * r10)) = 1.
Proof. unfold r10. replace (10 ^ 40) with (10 ^ 10 * 10 ^ 10 * (10 ^ 10 * 10 ^ 10)) by (rewrite <- !pow_add; reflexivity).
  assert (H : 10 ^ 10 <> 0) by (apply pow_nonzero; lra). set (q := 10 ^ 10) in *. clearbody q. field. auto. Qed.
Lemma default_tol : tolerance (options_default (N := RNum)) <= r10 * r10.
Proof.
  cbn. unfold r10. right. rewrite Rmult_1_l, <- Rinv_mult.
  f_equal. rewrite <- pow_add. change (10 ^ (10 + 10)) with (10 ^ 20). reflexivity.
Qed.
Lemma default_iters : INR (max_iters (options_default (N := RNum))) = INR 2000. Proof. reflexivity. Qed.

(** the ball around (p, q) of radius r10 lies in the disc of squared radius val *)
Definition point2 (p q : R) : vec := fun i => match i with O => p | _ => q end.
Lemma ball2 p q (y : vec) r : ball 2 (point2 (p) (q)) r y ->
  exists a b, a * a + b * b <= r * r /\ y 0%nat = p + a /\ y 1%nat = q + b.
Proof. unfold ball, dot. cbn. intros H. exists (y 0%nat - p), (y 1%nat - q). split; [|split]; lra. Qed.
Definition origin2 : Arr RNum := mkArr (N := RNum) [0; 0] 2 0.
Lemma disc_real (val : R) : 0 < val -> exists e, ell_new_with_scalar (N := RNum) val origin2 = Ok e /\ proper 2 e /\ vol2 2 e = val ^ 2 /\
  forall x, x 0%nat * x 0%nat + x 1%nat * x 1%nat <= val -> pts 2 e x.
Proof.
  intros Hv. destruct (new_scalar_real 2 val origin2 ltac:(lia) Hv eq_refl) as (e & E & HP & Hpt). exists e. split; auto. split; auto.
  split. { exact (new_scalar_vol 2 val origin2 e ltac:(lia) eq_refl E). }
  intros x Hx. apply Hpt. unfold coords. cbn. lra.
Qed.
Lemma disc_xc (val : R) e : ell_new_with_scalar (N := RNum) val origin2 = Ok e -> vecn 2 (e_xc e).
Proof. intros E. rewrite (new_scalar_xc _ _ _ E). split; reflexivity. Qed.
Lemma sq_bound x c : - c <= x <= c -> x * x <= c * c.
Proof. intros. nra. Qed.
Lemma in_unit a b r : 0 < r -> a * a + b * b <= r * r -> - r <= a <= r /\ - r <= b <= r.
Proof. intros. split; split; nra. Qed.

Section Runs.
Variables (val gamma : R).
Hypotheses (Hv : 20 <= val <= 10 ^ 20).
Lemma val_ok : val * val <= 10 ^ 40.
Proof. replace (10 ^ 40) with (10 ^ 20 * 10 ^ 20) by (rewrite <- pow_add; reflexivity). apply Rmult_le_compat; lra. Qed.
Lemma enough : (INR 2 + 1) * ln (val ^ 2 / (r10 * r10) ^ 2) < INR (max_iters (options_default (N := RNum))).
Proof. rewrite default_iters. apply iters_enough; [lra|exact val_ok|right; exact r10_four]. Qed.

Lemma ex1_ball y : ball 2 (point2 (2) (1 - 2 * r10)) r10 y -> at_least prob1 obj1 y (3 - 4 * r10) /\ y 0%nat * y 0%nat + y 1%nat * y 1%nat <= val.
Proof.
  intros H. unfold at_least, prob1, obj1. apply ball2 in H as (a & b & H & -> & ->). pose proof r10_pos as H0. pose proof r10_small as H1.
  destruct (in_unit a b r10 H0 H) as [Ha Hb]. split; [split; [split|]|]; try lra. pose proof (sq_bound (2 + a) 3.1 ltac:(lra)) as S1. pose proof (sq_bound (1 - 2 * r10 + b) 3.1 ltac:(lra)) as S2. lra.
Qed.
Lemma ex4_ball y : ball 2 (point2 (3 - 3 * r10) (-2 + r10)) r10 y -> at_least prob4 obj4 y (12 - 14 * r10) /\ y 0%nat * y 0%nat + y 1%nat * y 1%nat <= val.
Proof.
  intros H. unfold at_least, prob4, obj4. apply ball2 in H as (a & b & H & -> & ->). pose proof r10_pos as H0. pose proof r10_small as H1.
  destruct (in_unit a b r10 H0 H) as [Ha Hb]. split; [split; [split; [|split]|]|]; try lra. pose proof (sq_bound (3 - 3 * r10 + a) 3.1 ltac:(lra)) as S1. pose proof (sq_bound (-2 + r10 + b) 3.1 ltac:(lra)) as S2. lra.
Qed.
Lemma none_pos_le (l : list R) v : none_positive (N := RNum) l -> In v l -> v <= 0.
Proof. intros H Hi. specialize (H v Hi). apply Rlt_bool_no in H. exact H. Qed.

Lemma ex1_converges : gamma <= 2 -> exists e, ell_new_with_scalar (N := RNum) val origin2 = Ok e /\
  exists e' gamma' x k, cutting_plane_optim (ex1_assess (N := RNum)) (ell_space (N := RNum) single) options_default tt e gamma = Ok (tt, e', gamma', (Some x, k)) /\
    prob1 (coords x 0%nat) (coords x 1%nat) /\ gamma' = obj1 (coords x 0%nat) (coords x 1%nat) /\ 3 - 4 / 10 ^ 10 < gamma' <= 3.
Proof.
  intros Hg. destruct (disc_real val ltac:(lra)) as (e & E & HP & Hvol & Hin). exists e. split; auto.
  destruct (max2_reaches (ex1_assess (N := RNum)) (fun _ => True) prob1 obj1 ex1_good1 options_default tt e gamma (3 - 4 * r10) (point2 2 (1 - 2 * r10)) r10 I HP (disc_xc _ _ E) r10_pos)
    as ([] & e' & ga & x & k & R & Ht & _).
  - pose proof r10_small. lra.
  - intros y Hy. destruct (ex1_ball y Hy) as [H1 H2]. split; [exact H1|]. apply Hin. exact H2.
  - exact default_tol.
  - rewrite Hvol. exact enough.
  - exists e', ga, x, k. split; auto. destruct (ex1_best (N := RNum) _ _ _ _ _ _ _ _ _ R) as (Hl & Hga & Hn). 
    pose proof (none_pos_le _ _ Hn (or_introl eq_refl)) as H1. pose proof (none_pos_le _ _ Hn (or_intror (or_introl eq_refl))) as H2.
    unfold n0, n1 in *. cbn in Hga, H1, H2. unfold prob1, obj1, coords. cbn. unfold r10 in Ht. 
    split; [split; lra|]. split; [exact Hga|]. rewrite Hga in *. lra.
Qed.
Lemma ex1rr_converges : gamma <= 2 -> exists e, ell_new_with_scalar (N := RNum) val origin2 = Ok e /\
  exists i' e' gamma' x k, cutting_plane_optim (ex1rr_assess (N := RNum)) (ell_space (N := RNum) single) options_default (-1)%Z e gamma = Ok (i', e', gamma', (Some x, k)) /\
    prob1 (coords x 0%nat) (coords x 1%nat) /\ gamma' = obj1 (coords x 0%nat) (coords x 1%nat) /\ 3 - 4 / 10 ^ 10 < gamma' <= 3.
Proof.
  intros Hg. destruct (disc_real val ltac:(lra)) as (e & E & HP & Hvol & Hin). exists e. split; auto.
  destruct (max2_reaches (ex1rr_assess (N := RNum)) (fun i => (-1 <= i < 3)%Z) prob1 obj1 ex1rr_good1 options_default (-1)%Z e gamma (3 - 4 * r10) (point2 2 (1 - 2 * r10)) r10 (conj (Z.le_refl _) eq_refl) HP (disc_xc _ _ E) r10_pos)
    as (i' & e' & ga & x & k & R & Ht & _).
  - pose proof r10_small. lra.
  - intros y Hy. destruct (ex1_ball y Hy) as [H1 H2]. split; [exact H1|]. apply Hin. exact H2.
  - exact default_tol.
  - rewrite Hvol. exact enough.
  - exists i', e', ga, x, k. split; auto. destruct (ex1rr_best (N := RNum) _ _ _ _ _ _ _ _ _ _ (conj (Z.le_refl _) eq_refl) R) as (Hl & Hga & Hn). 
    pose proof (none_pos_le _ _ Hn (or_introl eq_refl)) as H1. pose proof (none_pos_le _ _ Hn (or_intror (or_introl eq_refl))) as H2.
    unfold n0, n1 in *. cbn in Hga, H1, H2. unfold prob1, obj1, coords. cbn. unfold r10 in Ht. 
    split; [split; lra|]. split; [exact Hga|]. rewrite Hga in *. lra.
Qed.
Lemma ex4_converges : gamma <= 11 -> exists e, ell_new_with_scalar (N := RNum) val origin2 = Ok e /\
  exists i' e' gamma' x k, cutting_plane_optim (ex4_assess (N := RNum)) (ell_space (N := RNum) single) options_default (-1)%Z e gamma = Ok (i', e', gamma', (Some x, k)) /\
    prob4 (coords x 0%nat) (coords x 1%nat) /\ gamma' = obj4 (coords x 0%nat) (coords x 1%nat) /\ 12 - 14 / 10 ^ 10 < gamma' <= 12.
Proof.
  intros Hg. destruct (disc_real val ltac:(lra)) as (e & E & HP & Hvol & Hin). exists e. split; auto.
  destruct (max2_reaches (ex4_assess (N := RNum)) (fun i => (-1 <= i < 4)%Z) prob4 obj4 ex4_good1 options_default (-1)%Z e gamma (12 - 14 * r10) (point2 (3 - 3 * r10) (-2 + r10)) r10 (conj (Z.le_refl _) eq_refl) HP (disc_xc _ _ E) r10_pos)
    as (i' & e' & ga & x & k & R & Ht & _).
  - pose proof r10_small. lra.
  - intros y Hy. destruct (ex4_ball y Hy) as [H1 H2]. split; [exact H1|]. apply Hin. exact H2.
  - exact default_tol.
  - rewrite Hvol. exact enough.
  - exists i', e', ga, x, k. split; auto. destruct (ex4_best (N := RNum) _ _ _ _ _ _ _ _ _ _ (conj (Z.le_refl _) eq_refl) R) as (Hl & Hga & Hn). 
    pose proof (none_pos_le _ _ Hn (or_introl eq_refl)) as H1. pose proof (none_pos_le _ _ Hn (or_intror (or_introl eq_refl))) as H2.
    pose proof (none_pos_le _ _ Hn (or_intror (or_intror (or_introl eq_refl)))) as H3.
    unfold n0, n1, n2 in *. cbn in Hga, H1, H2, H3. unfold prob4, obj4, coords. cbn. unfold r10 in Ht. 
    split; [split; [|split]; lra|]. split; [exact Hga|]. rewrite Hga in *. lra.
Qed.
End Runs.

(** ** Feasibility: example 3 *)
Definition set3 (target : R) (u : vec) : Prop := prob4 (u 0%nat) (u 1%nat) /\ obj4 (u 0%nat) (u 1%nat) <= target.
Definition inv3 (target : R) (o : Ex3 RNum) : Prop := (-1 <= ex3_idx o < 4)%Z /\ ex3_target o = target.
Lemma ex3_cuts target : feas_cuts single_sat single_deep 2 (inv3 target) (set3 target) (ex3_oracle (N := RNum)).
Proof.
  intros o x o' ans [HI HT] [Hl _] E. destruct (ex3_good o x HI ltac:(lia)) as (o2 & r & E2 & HI2 & HT2 & _ & Hc).
  change (ex3_assess (N := RNum) o x = Ok (o', ans)) in E. rewrite E in E2. inversion E2; subst o2 r. rewrite HT in *.
  split; [split; auto|]. destruct ans as [[g [beta]]|]; auto. destruct (Hc g beta eq_refl) as (H1 & H2 & H3 & H4).
  split; [split; auto|]. split; [unfold single_deep; cbn; lra|]. intros y Hy. exact (H4 y Hy).
Qed.
Lemma ex3_total target : feas_total 2 (inv3 target) 1 (ex3_oracle (N := RNum)).
Proof.
  intros o xc [HI HT] [Hl _]. destruct (ex3_good o xc HI ltac:(lia)) as (o2 & r & E2 & _). exists o2, r. split; [exact E2|].
  destruct (idx2 (N := RNum) xc ltac:(lia)) as (x & y & Hx & Hy & _). revert E2. unfold ex3_assess. rewrite Hx, Hy. cbn [bind].
  match goal with |- context [bind ?u _] => destruct u as [[[i2 []]|[[i2 []] fj]]|] end; cbn [bind]; try discriminate.
  - intros E. inversion E; subst. auto.
  - unfold ex3_grad. destruct i2 as [|[[p|p|]|[p|p|]|]|p]; cbn [bind]; try discriminate; intros E; inversion E; subst; norm1.
Qed.
Lemma ex3_ball (val target : R) y : 20 <= val -> -8 + 16 * r10 <= target -> ball 2 (point2 (-1 + r10) (2 - 3 * r10)) r10 y ->
  set3 target y /\ y 0%nat * y 0%nat + y 1%nat * y 1%nat <= val.
Proof.
  intros Hv Ht H. unfold set3, prob4, obj4. apply ball2 in H as (a & b & H & -> & ->). pose proof r10_pos as H0. pose proof r10_small as H1.
  destruct (in_unit a b r10 H0 H) as [Ha Hb]. split; [split; [split; [|split]|]|]; try lra.
  pose proof (sq_bound (-1 + r10 + a) 3.1 ltac:(lra)) as S1. pose proof (sq_bound (2 - 3 * r10 + b) 3.1 ltac:(lra)) as S2. lra.
Qed.
(** example 3 in 2000 steps: any target but the last 16e-10 above the least value -8 *)
Lemma ex3_converges (val target : R) : 20 <= val <= 10 ^ 20 -> -8 + 16 / 10 ^ 10 <= target ->
  exists e, ell_new_with_scalar (N := RNum) val origin2 = Ok e /\
  exists o' e' x k, cutting_plane_feas (ex3_oracle (N := RNum)) (ell_space (N := RNum) single) options_default (mkEx3 (N := RNum) (-1) target) e = Ok (o', e', (Some x, k)) /\
    prob4 (coords x 0%nat) (coords x 1%nat) /\ obj4 (coords x 0%nat) (coords x 1%nat) <= target.
Proof.
  intros Hv Ht. destruct (disc_real val ltac:(lra)) as (e & E & HP & Hvol & Hin). exists e. split; auto.
  destruct (feas_bound single single_sat single_deep 2 (inv3 target) ltac:(lia) (point2 (-1 + r10) (2 - 3 * r10)) r10 r10_pos single_shrink 1 (set3 target) (ex3_oracle (N := RNum)) options_default (mkEx3 (N := RNum) (-1) target) e)
    as (o' & e' & x & k & R & Hk & o1 & [HI HT] & Ho); auto.
  - exact (ex3_cuts target).
  - exact (ex3_total target).
  - lra.
  - split; [cbn; lia|reflexivity].
  - exact (disc_xc _ _ E).
  - intros y Hy. destruct (ex3_ball val target y ltac:(lra) Ht Hy) as [H1 H2]. split; [exact H1|]. apply Hin. exact H2.
  - eapply Rle_trans; [exact default_tol|]. right. ring.
  - rewrite Hvol. exact (enough val Hv).
  - exists o', e', x, k. split; auto. change (ex3_assess (N := RNum) o1 x = Ok (o', None)) in Ho.
    assert (Hl : (2 <= length (adata x))%nat).
    { revert Ho. unfold ex3_assess, a_idx, rd. destruct (adata x) as [|p [|q l]]; cbn; try discriminate; lia. }
    destruct (ex3_good o1 x HI Hl) as (o2 & r & E2 & _ & _ & Hr & _). rewrite Ho in E2. inversion E2; subst r o2.
    rewrite HT in Hr. exact (proj1 Hr eq_refl).
Qed.
