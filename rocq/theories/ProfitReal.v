(** The profit oracle over the reals: log-sum-exp cuts. *)
From Coq Require Import ZArith Reals List Bool Arith Lia Lra Psatz.
From Flocq Require Import Core.
From Verif Require Import Num Res Arr CuttingPlane Spec EllReal LmiSpec Examples ExSpec ExProofs Profit ProfitSpec ProfitProofs.
Import ListNotations.
Open Scope R_scope.

(** Jensen's inequality for exp with weights c, q0, q1 (T their sum) *)
Lemma tangent (c q0 q1 d0 d1 : R) : 0 <= c -> 0 <= q0 -> 0 <= q1 -> 0 < c + (q0 + q1) ->
  ln (c + (q0 + q1)) + (q0 * (1 / (c + (q0 + q1))) * d0 + q1 * (1 / (c + (q0 + q1))) * d1) <= ln (c + (q0 * exp d0 + q1 * exp d1)).
Proof.
  intros Hc H0 H1 HT. set (T := c + (q0 + q1)) in *. set (m := q0 * (1 / T) * d0 + q1 * (1 / T) * d1).
  assert (A : T * exp m <= c + (q0 * exp d0 + q1 * exp d1)).
  { pose proof (exp_above m d0) as E0. pose proof (exp_above m d1) as E1. pose proof (exp_above m 0) as E2. rewrite exp_0 in E2.
    apply Rle_trans with (c * (exp m * (1 + (0 - m))) + (q0 * (exp m * (1 + (d0 - m))) + q1 * (exp m * (1 + (d1 - m))))).
    - apply Req_le. assert (q0 * d0 + q1 * d1 = T * m) as K by (unfold m; field; lra).
      replace (c * (exp m * (1 + (0 - m))) + (q0 * (exp m * (1 + (d0 - m))) + q1 * (exp m * (1 + (d1 - m)))))
        with (exp m * (T + (q0 * d0 + q1 * d1) - T * m)) by (unfold T; ring). rewrite K. ring.
    - apply Rplus_le_compat; [|apply Rplus_le_compat]; [|apply Rmult_le_compat_l; assumption|apply Rmult_le_compat_l; assumption].
      replace c with (c * 1) at 2 by ring. apply Rmult_le_compat_l; assumption. }
  pose proof (exp_pos m).
  replace (ln T + m) with (ln (T * exp m)) by (rewrite ln_mult, ln_exp by assumption; reflexivity).
  assert (0 < T * exp m) by (apply Rmult_lt_0_compat; assumption).
  destruct A as [A|A]; [left; apply ln_increasing; assumption|rewrite A; lra].
Qed.
Lemma ln_le_exp (a b : R) : 0 < a -> (ln a <= b <-> a <= exp b).
Proof.
  intros Ha. split; intros H.
  - rewrite <- (exp_ln a Ha). destruct H as [H|H]; [left; now apply exp_increasing|rewrite H; lra].
  - rewrite <- (ln_exp b). destruct H as [H|H]; [left; now apply ln_increasing|rewrite <- H; lra].
Qed.

Ltac toR := repeat match goal with |- context [@at_ RNum ?a ?i] => change (@at_ RNum a i) with (xvec a i) end.
Section At.
Variables (p : Profit RNum) (m : market).
Hypotheses (Sane : sane m) (Ab : about p m).

Lemma mprofit_exp y0 y1 : mprofit m y0 y1 = exp (ln (m_P m) + (m_a m 0%nat * y0 + m_a m 1%nat * y1)) - (m_p m 0%nat * exp y0 + m_p m 1%nat * exp y1).
Proof.
  unfold mprofit, profit_at, Rpower. rewrite !ln_exp, !exp_plus, exp_ln by apply Sane. ring.
Qed.
Lemma mfeas_ln y0 y1 : mfeas m y0 y1 <-> y0 <= ln (m_k m).
Proof.
  unfold mfeas. destruct Sane as (_ & K & _). split; intros H.
  - rewrite <- (ln_exp y0). pose proof (exp_pos y0). destruct H as [H|H]; [left; now apply ln_increasing|rewrite H; lra].
  - rewrite <- (exp_ln _ K). destruct H as [H|H]; [left; now apply exp_increasing|rewrite H; lra].
Qed.
Lemma r_log_cobb y : @eq R (v_log_cobb p y) (ln (m_P m) + (m_a m 0%nat * xvec y 0%nat + m_a m 1%nat * xvec y 1%nat)).
Proof.
  destruct Ab as (A & _ & B). unfold v_log_cobb. toR. rewrite (proj2 (B 0%nat ltac:(lia))), (proj2 (B 1%nat ltac:(lia))), A.
  cbn [nadd nmul nsum0 RNum]. ring.
Qed.
Lemma r_vx y : @eq R (v_vx p y) (m_p m 0%nat * exp (xvec y 0%nat) + m_p m 1%nat * exp (xvec y 1%nat)).
Proof. destruct Ab as (_ & _ & B). unfold v_vx. toR. rewrite (proj1 (B 0%nat ltac:(lia))), (proj1 (B 1%nat ltac:(lia))). reflexivity. Qed.
Lemma r_profit y : @eq R (v_profit p y) (mprofit m (xvec y 0%nat) (xvec y 1%nat)).
Proof. unfold v_profit. rewrite r_log_cobb, r_vx, mprofit_exp. reflexivity. Qed.
Lemma vx_pos y : 0 < v_vx p y.
Proof.
  rewrite r_vx. destruct Sane as (_ & _ & P0 & P1 & PS). pose proof (exp_pos (xvec y 0%nat)). pose proof (exp_pos (xvec y 1%nat)).
  destruct P0 as [P0|P0]; [|rewrite <- P0 in *; nra].
  assert (0 < m_p m 0%nat * exp (xvec y 0%nat)) by (apply Rmult_lt_0_compat; assumption).
  assert (0 <= m_p m 1%nat * exp (xvec y 1%nat)) by (apply Rmult_le_pos; lra). lra.
Qed.
Lemma r_tests y (gamma : R) : 0 < gamma + v_vx p y ->
  (none_positive (v_tests p y gamma) <-> mfeas m (xvec y 0%nat) (xvec y 1%nat) /\ gamma <= mprofit m (xvec y 0%nat) (xvec y 1%nat)).
Proof.
  intros G. unfold v_tests. rewrite none_positive_cons, none_positive_cons, mfeas_ln.
  rewrite mprofit_exp, <- r_vx, <- (r_log_cobb y).
  change (nltb (n := RNum)) with Rlt_bool. rewrite !Rlt_bool_no. unfold n0. cbn [nsub nadd nln nZ RNum]. toR.
  change (num RNum) with R in *. rewrite (proj1 (proj2 Ab)).
  pose proof (ln_le_exp (gamma + v_vx p y) (v_log_cobb p y) G) as L.
  split.
  - intros (H1 & H2 & _). split; [lra|]. assert (ln (gamma + v_vx p y) <= v_log_cobb p y) as K by lra. apply L in K. lra.
  - intros (H1 & H2). assert (gamma + v_vx p y <= exp (v_log_cobb p y)) as K by lra. apply L in K. split; [lra|]. split; [lra|]. apply none_positive_nil.
Qed.
(** the logarithm of (gamma + costs) / revenue at [u]: not positive iff the profit is at least gamma *)
Definition shortfall (gamma : R) (u : vec) : R :=
  ln (gamma + (m_p m 0%nat * exp (u 0%nat) + m_p m 1%nat * exp (u 1%nat))) - (ln (m_P m) + (m_a m 0%nat * u 0%nat + m_a m 1%nat * u 1%nat)).
(** the cut for the profit constraint, and the optimality cut *)
Lemma profit_cut_under y (gamma t : R) (g : Arr RNum) : 0 <= gamma ->
  adata g = [m_p m 0%nat * exp (xvec y 0%nat) * (1 / t) - m_a m 0%nat; m_p m 1%nat * exp (xvec y 1%nat) * (1 / t) - m_a m 1%nat] ->
  t = gamma + v_vx p y ->
  forall u, dot 2 (xvec g) (fun i => u i - xvec y i) + (ln t - v_log_cobb p y) <= shortfall gamma u.
Proof.
  intros G0 Eg Et u. pose proof (vx_pos y) as VP. destruct Sane as (_ & _ & P0 & P1 & PS).
  unfold shortfall, dot. cbn [Rsum]. rewrite r_vx in VP, Et. rewrite r_log_cobb.
  unfold xvec at 1 3. rewrite Eg. cbn [nth].
  set (y0 := xvec y 0%nat) in *. set (y1 := xvec y 1%nat) in *.
  assert (Q0 : 0 <= m_p m 0%nat * exp y0) by (apply Rmult_le_pos; [assumption|left; apply exp_pos]).
  assert (Q1 : 0 <= m_p m 1%nat * exp y1) by (apply Rmult_le_pos; [assumption|left; apply exp_pos]).
  pose proof (tangent gamma (m_p m 0%nat * exp y0) (m_p m 1%nat * exp y1) (u 0%nat - y0) (u 1%nat - y1) G0 Q0 Q1 ltac:(lra)) as T.
  replace (m_p m 0%nat * exp y0 * exp (u 0%nat - y0)) with (m_p m 0%nat * exp (u 0%nat)) in T by (rewrite Rmult_assoc, <- exp_plus; do 2 f_equal; ring).
  replace (m_p m 1%nat * exp y1 * exp (u 1%nat - y1)) with (m_p m 1%nat * exp (u 1%nat)) in T by (rewrite Rmult_assoc, <- exp_plus; do 2 f_equal; ring).
  rewrite <- Et in T. lra.
Qed.
Lemma costs_pos (u : vec) : 0 < m_p m 0%nat * exp (u 0%nat) + m_p m 1%nat * exp (u 1%nat).
Proof.
  destruct Sane as (_ & _ & P0 & P1 & PS). pose proof (exp_pos (u 0%nat)). pose proof (exp_pos (u 1%nat)). destruct P0 as [P0|P0]; [|rewrite <- P0 in *; nra].
  assert (0 < m_p m 0%nat * exp (u 0%nat)) by (apply Rmult_lt_0_compat; assumption).
  assert (0 <= m_p m 1%nat * exp (u 1%nat)) by (apply Rmult_le_pos; lra). lra.
Qed.
Lemma shortfall_neg (gamma : R) (u : vec) : 0 <= gamma -> gamma <= mprofit m (u 0%nat) (u 1%nat) -> shortfall gamma u <= 0.
Proof.
  intros G0 Hu. rewrite mprofit_exp in Hu. pose proof (costs_pos u). unfold shortfall.
  assert (L : ln (gamma + (m_p m 0%nat * exp (u 0%nat) + m_p m 1%nat * exp (u 1%nat))) <= ln (m_P m) + (m_a m 0%nat * u 0%nat + m_a m 1%nat * u 1%nat)).
  { apply ln_le_exp; lra. }
  lra.
Qed.
Lemma profit_cut y (gamma t : R) (g : Arr RNum) : 0 <= gamma ->
  adata g = [m_p m 0%nat * exp (xvec y 0%nat) * (1 / t) - m_a m 0%nat; m_p m 1%nat * exp (xvec y 1%nat) * (1 / t) - m_a m 1%nat] ->
  t = gamma + v_vx p y ->
  valid_cut 2 (xvec g) (xvec y) (ln t - v_log_cobb p y) (fun u => mfeas m (u 0%nat) (u 1%nat) /\ gamma <= mprofit m (u 0%nat) (u 1%nat)).
Proof.
  intros G0 Eg Et u [_ Hu]. eapply Rle_trans; [exact (profit_cut_under y gamma t g G0 Eg Et u)|]. now apply shortfall_neg.
Qed.
End At.

Lemma about_same p q m : about p m -> same_params p q -> about q m.
Proof. intros (A & B & C) (S1 & S2 & S3 & S4). unfold about. rewrite S1, S2, S3, S4. auto. Qed.

Lemma profit_good_under (p : Profit RNum) m y (gamma : R) : profit_ok p -> about p m -> sane m -> two y -> 0 <= gamma ->
  exists p' gamma' g beta b, profit_assess (N := RNum) p y gamma = Ok (p', gamma', ((g, mkSingle (N := RNum) beta), b)) /\
    profit_ok p' /\ same_params p p' /\ gamma <= gamma' /\
    good_answer (mfeas m) (mprofit m) (xvec y) gamma gamma' g beta b /\
    ((xvec y 0%nat > ln (m_k m) /\ adata g = [1; 0]) \/ (forall u, dot 2 (xvec g) (fun i => u i - xvec y i) + beta <= shortfall m gamma' u)).
Proof.
  intros Ok_ Ab Sn Ty G. destruct (profit_feas_ok (N := RNum) p y gamma Ok_ Ty) as (p' & r & E & O & Sm & RR).
  pose proof (vx_pos p m Sn Ab y) as VP. assert (VG : 0 < gamma + v_vx p y) by (change (num RNum) with R in *; lra).
  pose proof (r_tests p m Sn Ab y gamma VG) as RT. change (num RNum) with R in *.
  unfold profit_assess. rewrite E. cbn [bind]. destruct r as [[g fj]|].
  - destruct RR as (F & T & D). do 5 eexists. split; [reflexivity|]. split; [exact O|]. split; [exact Sm|]. split; [lra|].
    assert (In fj (v_tests p y gamma)) as Hin by (unfold v_tests; destruct D as [[-> _]|[-> _]]; cbn; auto).
    apply Rlt_bool_iff in F. split; [split|].
    + apply T.
    + split; [discriminate|]. intros K. apply RT in K. specialize (K fj Hin). apply Rlt_bool_no in K. exfalso.
      change (n0 (N := RNum)) with 0 in *. change (num RNum) with R in *. lra.
    + discriminate.
    + auto.
    + destruct D as [[Ef Eg]|[Ef Eg]].
      * intros u [Hu _]. apply (mfeas_ln m Sn) in Hu. unfold dot. cbn [Rsum]. unfold xvec at 1 3. rewrite Eg.
        cbn [nth]. rewrite Ef. toR. rewrite (proj1 (proj2 Ab)). unfold n1, n0. cbn [nZ nsub RNum]. lra.
      * rewrite Ef. apply (profit_cut p m Sn Ab y gamma (gamma + v_vx p y) g G); [|reflexivity].
        rewrite Eg. toR. destruct Ab as (_ & _ & B). rewrite (proj1 (B 0%nat ltac:(lia))), (proj1 (B 1%nat ltac:(lia))), (proj2 (B 0%nat ltac:(lia))), (proj2 (B 1%nat ltac:(lia))). reflexivity.
    + destruct D as [[Ef Eg]|[Ef Eg]]; [left|right].
      * split; [|exact Eg]. rewrite Ef in F. revert F. toR. rewrite (proj1 (proj2 Ab)). unfold n0. cbn [nZ nsub RNum]. intros F. lra.
      * intros u. rewrite Ef. apply (profit_cut_under p m Sn Ab y gamma (gamma + v_vx p y) g G); [|reflexivity].
        rewrite Eg. toR. destruct Ab as (_ & _ & B). rewrite (proj1 (B 0%nat ltac:(lia))), (proj1 (B 1%nat ltac:(lia))), (proj2 (B 0%nat ltac:(lia))), (proj2 (B 1%nat ltac:(lia))). reflexivity.
  - destruct RR as (F & Lc & Vx & T & Q0 & Q1). rewrite Lc, Vx. pose proof O as (_ & _ & (Te1 & Te2)). pose proof Sm as (S1 & S2 & S3 & S4).
    apply RT in F as F'.
    apply two_inv in T as (q0 & q1 & rq & Eq). rewrite Eq in *. unfold at_ in Q0, Q1. cbn [adata nth] in Q0, Q1.
    assert (Te : two (p_elast p)) by apply Ok_. rewrite S4. apply two_inv in Te as (a0 & a1 & ra & Ea). rewrite Ea.
    unfold a_sub, a_zip, a_len, a_divs, a_mapd. cbn [adata map length Nat.eqb assert bind zipwith arows acols].
    eexists. exists (exp (v_log_cobb p y) - v_vx p y). do 3 eexists. split; [reflexivity|]. split; [exact O|]. split; [repeat split; assumption|].
    assert (EP : @eq R (exp (v_log_cobb p y) - v_vx p y) (mprofit m (xvec y 0%nat) (xvec y 1%nat))) by apply (r_profit p m Sn Ab y).
    change (num RNum) with R in *. cbn [nexp nsub nmul ndiv RNum n1 n0] in *.
    split; [rewrite EP; apply F'|]. set (g := mkArr _ _ _).
    assert (Hu : forall u, dot 2 (xvec g) (fun i => u i - xvec y i) + n0 (N := RNum) <= shortfall m (mprofit m (xvec y 0%nat) (xvec y 1%nat)) u).
    { pose proof (profit_cut_under p m Sn Ab y (mprofit m (xvec y 0%nat) (xvec y 1%nat)) (exp (v_log_cobb p y)) g) as C.
      rewrite ln_exp in C. replace (v_log_cobb p y - v_log_cobb p y) with (n0 (N := RNum)) in C by (unfold n0; cbn; ring).
      apply C; [destruct F' as [_ F']; lra| |].
      * unfold g. cbn [adata]. destruct Ab as (_ & _ & B). rewrite Q0, Q1.
        rewrite <- (proj1 (B 0%nat ltac:(lia))), <- (proj1 (B 1%nat ltac:(lia))), <- (proj2 (B 0%nat ltac:(lia))), <- (proj2 (B 1%nat ltac:(lia))). rewrite Ea. reflexivity.
      * rewrite <- EP. ring. }
    split; [split|].
    + split; reflexivity.
    + split; auto.
    + intros _. split; [exact EP|reflexivity].
    + discriminate.
    + rewrite EP. intros u [_ Hu2]. eapply Rle_trans; [apply Hu|]. apply (shortfall_neg m Sn); [destruct F' as [_ F']; lra|exact Hu2].
    + right. rewrite EP. exact Hu.
Qed.
Lemma profit_good (p : Profit RNum) m y (gamma : R) : profit_ok p -> about p m -> sane m -> two y -> 0 <= gamma ->
  exists p' gamma' g beta b, profit_assess (N := RNum) p y gamma = Ok (p', gamma', ((g, mkSingle (N := RNum) beta), b)) /\
    profit_ok p' /\ same_params p p' /\ gamma <= gamma' /\
    good_answer (mfeas m) (mprofit m) (xvec y) gamma gamma' g beta b.
Proof.
  intros Ok_ Ab Sn Ty G. destruct (profit_good_under p m y gamma Ok_ Ab Sn Ty G) as (p' & ga & g & be & b & E & H1 & H2 & H3 & H4 & _).
  exists p', ga, g, be, b. auto 6.
Qed.
(** the decision alone, also for negative [gamma] *)
Lemma profit_decides (p : Profit RNum) m y (gamma : R) : profit_ok p -> about p m -> sane m -> two y ->
  0 < gamma + (m_p m 0%nat * exp (xvec y 0%nat) + m_p m 1%nat * exp (xvec y 1%nat)) ->
  exists p' gamma' g beta b, profit_assess (N := RNum) p y gamma = Ok (p', gamma', ((g, mkSingle (N := RNum) beta), b)) /\
    gamma <= gamma' /\
    (b = true <-> mfeas m (xvec y 0%nat) (xvec y 1%nat) /\ gamma <= mprofit m (xvec y 0%nat) (xvec y 1%nat)) /\
    (b = true -> gamma' = mprofit m (xvec y 0%nat) (xvec y 1%nat) /\ beta = 0) /\ (b = false -> gamma' = gamma /\ 0 < beta).
Proof.
  intros Ok_ Ab Sn Ty G. destruct (profit_assess_ok (N := RNum) p y gamma Ok_ Ty) as (p' & gamma' & g & beta & b & E & _ & _ & _ & D1 & D2 & D3).
  exists p', gamma', g, beta, b. split; [exact E|]. rewrite <- (r_vx p m Ab) in G. rewrite (r_tests p m Sn Ab y gamma G) in D1.
  rewrite (r_profit p m Sn Ab) in D2. change (n0 (N := RNum)) with 0 in *. change (num RNum) with R in *.
  split.
  - destruct b; [rewrite (proj1 (D2 eq_refl)); apply D1; reflexivity|rewrite (proj1 (D3 eq_refl)); lra].
  - split; [exact D1|]. split; [exact D2|]. intros K. destruct (D3 K) as (A & _ & B). split; [exact A|]. apply Rlt_bool_iff in B. exact B.
Qed.
