(** The profit oracle in binary64 (C114). *)
From Coq Require Import ZArith Reals Lra Lia Psatz List Bool Arith.
From Flocq Require Import Core IEEE754.BinarySingleNaN.
From Verif Require Import Num Res Arr ArrLemmas CuttingPlane Spec RealLin EllReal LmiSpec ExSpec ExProofs FloatLemmas FloatErr FloatRel KernAcc FcosAcc StepAccSpec StepRunSpec Profit ProfitSpec ProfitProofs ProfitReal ProfAccSpec.
Import ListNotations.
Local Open Scope R_scope.
#[local] Opaque fadd fsub fmul fdiv fsqrt fofZ.

(** ** Relative errors *)
Definition near (r x X : R) : Prop := Rabs (x - X) <= r * X.
Lemma near_in r x X : near r x X -> X - r * X <= x <= X + r * X.
Proof. unfold near. intros H. apply Rabs_le_inv in H. lra. Qed.
Lemma near_of r x X : X - r * X <= x <= X + r * X -> near r x X.
Proof. unfold near. intros H. apply Rabs_le. lra. Qed.
Lemma near_add r a A b B : near r a A -> near r b B -> near r (a + b) (A + B).
Proof. intros H1 H2. apply near_in in H1, H2. apply near_of. lra. Qed.
Lemma near_exact r X : 0 <= r -> 0 <= X -> near r X X.
Proof. intros. apply near_of. nra. Qed.
Lemma near_weaken r s x X : 0 <= X -> r <= s -> near r x X -> near s x X.
Proof. unfold near. intros H1 H2 H3. eapply Rle_trans; [exact H3|]. apply Rmult_le_compat_r; assumption. Qed.
Lemma ee_low x : bpow radix2 (-1010) <= x -> ee <= uu * x.
Proof. intros H. apply Rle_trans with (uu * bpow radix2 (-1010)). - rewrite <- bpow_plus. apply bpow_le. lia. - apply Rmult_le_compat_l; [apply bpow_ge_0|exact H]. Qed.
Lemma near_rnd r x X : near r x X -> 0 <= r <= / 4 -> bpow radix2 (-1010) <= X -> near (r + 3 * uu) (rnd x) X.
Proof.
  intros H Hr Hx. pose proof (ee_low X Hx) as E. pose proof uu_small as U. pose proof (bpow_gt_0 radix2 (-1010)) as P. pose proof (rnd_err x) as R. apply near_in in H.
  assert (X0 : 0 < X) by lra. assert (A : Rabs x <= 2 * X) by (apply Rabs_le; split; nra). assert (R2 : Rabs (rnd x - x) <= 3 * (uu * X)) by nra. apply Rabs_le_inv in R2. apply near_of. lra.
Qed.
Lemma near_mul_exact r v e E : 0 <= v -> near r e E -> near r (v * e) (v * E).
Proof. intros Hv H. apply near_in in H. apply near_of. split; nra. Qed.
Lemma ln_tan w : 0 < w -> ln w <= w - 1.
Proof. intros H. pose proof (exp_ineq1_le (ln w)) as K. rewrite exp_ln in K by exact H. lra. Qed.
Lemma near_pos r x X : near r x X -> 0 <= r <= / 4 -> 0 < X -> 0 < x.
Proof. intros H Hr HX. apply near_in in H. nra. Qed.
Lemma near_ln r x X : near r x X -> 0 <= r <= / 4 -> 0 < X -> Rabs (ln x - ln X) <= 2 * r.
Proof.
  intros H Hr HX. pose proof (near_pos r x X H Hr HX) as Px. apply near_in in H.
  assert (D : forall a b, 0 < a -> 0 < b -> ln a - ln b <= a / b - 1). { intros a b Ha Hb. replace (ln a - ln b) with (ln (a / b)) by (unfold Rdiv; rewrite ln_mult, ln_Rinv; [ring| | |apply Rinv_0_lt_compat]; assumption). apply ln_tan. apply Rdiv_lt_0_compat; assumption. }
  pose proof (D x X Px HX) as D1. pose proof (D X x HX Px) as D2.
  assert (E1 : x / X <= 1 + r). { apply Rmult_le_reg_r with X; [exact HX|]. unfold Rdiv. rewrite Rmult_assoc, Rinv_l by lra. lra. }
  assert (E2 : X / x <= 1 + 2 * r). { apply Rmult_le_reg_r with x; [exact Px|]. unfold Rdiv. rewrite Rmult_assoc, Rinv_l by lra. nra. }
  apply Rabs_le. lra.
Qed.
Lemma exp_up d : 0 <= d <= 1 / 2 -> exp d <= 1 + 2 * d.
Proof.
  intros Hd. pose proof (exp_ineq1_le (- d)) as H. rewrite exp_Ropp in H. pose proof (exp_pos d) as P.
  apply Rmult_le_compat_r with (r := exp d) in H; [|lra]. rewrite Rinv_l in H by lra. nra.
Qed.
Lemma near_exp h a b : Rabs (a - b) <= h -> 0 <= h <= 1 / 2 -> near (2 * h) (exp a) (exp b).
Proof.
  intros H Hh. pose proof (exp_pos b) as P. apply Rabs_le_inv in H. replace (exp a) with (exp b * exp (a - b)) by (rewrite <- exp_plus; f_equal; ring).
  pose proof (exp_ineq1_le (a - b)) as L. assert (U : exp (a - b) <= 1 + 2 * h). { apply Rle_trans with (exp h); [|now apply exp_up]. destruct (Rle_lt_or_eq_dec (a - b) h ltac:(lra)) as [K|K]; [left; now apply exp_increasing|rewrite K; lra]. }
  apply near_of. split; nra.
Qed.
Lemma near_trans r s x y z : near r x y -> near s y z -> 0 <= r <= / 4 -> 0 <= s -> 0 <= z -> near (r + 2 * s) x z.
Proof. intros H1 H2 Hr Hs Hz. apply near_in in H1, H2. assert (0 <= s * z) by nra. assert (0 <= r * z) by nra. apply near_of. split; nra. Qed.
Lemma near_inv r x X : near r x X -> 0 <= r <= / 4 -> 0 < X -> near (2 * r) (1 / x) (1 / X).
Proof.
  intros H Hr HX. pose proof (near_pos r x X H Hr HX) as Px. apply near_in in H. unfold near. replace (1 / x - 1 / X) with ((X - x) / x * (1 / X)) by (field; lra). rewrite Rabs_mult, (Rabs_pos_eq (1 / X)) by (left; apply Rdiv_lt_0_compat; lra).
  apply Rmult_le_compat_r; [left; apply Rdiv_lt_0_compat; lra|]. apply Rabs_le. assert (E : forall w, w * x <= (X - x) -> w <= (X - x) / x). { intros w Hw. apply Rmult_le_reg_r with x; [exact Px|]. unfold Rdiv. rewrite Rmult_assoc, Rinv_l by lra. lra. }
  split; [apply E; nra|]. apply Rmult_le_reg_r with x; [exact Px|]. unfold Rdiv. rewrite Rmult_assoc, Rinv_l by lra. nra.
Qed.
Lemma near_inv' r x X : near r x X -> 0 <= r <= / 100 -> 0 < X -> near (102 / 100 * r) (1 / x) (1 / X).
Proof.
  intros H Hr HX. pose proof (near_pos r x X H ltac:(lra) HX) as Px. apply near_in in H. unfold near. replace (1 / x - 1 / X) with ((X - x) / x * (1 / X)) by (field; lra). rewrite Rabs_mult, (Rabs_pos_eq (1 / X)) by (left; apply Rdiv_lt_0_compat; lra).
  apply Rmult_le_compat_r; [left; apply Rdiv_lt_0_compat; lra|]. apply Rabs_le. assert (E : forall w, w * x <= (X - x) -> w <= (X - x) / x). { intros w Hw. apply Rmult_le_reg_r with x; [exact Px|]. unfold Rdiv. rewrite Rmult_assoc, Rinv_l by lra. lra. }
  split; [apply E; nra|]. apply Rmult_le_reg_r with x; [exact Px|]. unfold Rdiv. rewrite Rmult_assoc, Rinv_l by lra. nra.
Qed.
Lemma near_mul r s a A b B : near r a A -> near s b B -> 0 <= A -> 0 <= B -> 0 <= r -> 0 <= s -> near (r + s + r * s) (a * b) (A * B).
Proof.
  unfold near. intros H1 H2 HA HB Hr Hs. replace (a * b - A * B) with ((a - A) * (b - B) + ((a - A) * B + A * (b - B))) by ring. eapply Rle_trans; [apply Rabs_triang|].
  assert (T1 : Rabs ((a - A) * (b - B)) <= r * A * (s * B)) by (rewrite Rabs_mult; apply Rmult_le_compat; auto using Rabs_pos).
  assert (T2 : Rabs ((a - A) * B) <= r * A * B) by (rewrite Rabs_mult, (Rabs_pos_eq B) by assumption; apply Rmult_le_compat_r; assumption).
  assert (T3 : Rabs (A * (b - B)) <= A * (s * B)) by (rewrite Rabs_mult, (Rabs_pos_eq A) by assumption; apply Rmult_le_compat_l; assumption).
  pose proof (Rabs_triang ((a - A) * B) (A * (b - B))) as T4. replace ((r + s + r * s) * (A * B)) with (r * A * (s * B) + (r * A * B + A * (s * B))) by ring. lra.
Qed.
Lemma exp_nat k : exp (INR k) <= bpow radix2 (2 * Z.of_nat k).
Proof.
  induction k as [|k IH]; [cbn; rewrite exp_0; lra|]. rewrite S_INR, exp_plus. replace (2 * Z.of_nat (S k))%Z with (2 * Z.of_nat k + 2)%Z by lia. rewrite bpow_plus. change (bpow radix2 2) with 4. pose proof exp_le_3. pose proof (exp_pos (INR k)). pose proof (exp_pos 1). nra.
Qed.
Lemma exp_le a b : a <= b -> exp a <= exp b.
Proof. intros [H|H]; [left; now apply exp_increasing|rewrite H; lra]. Qed.
Lemma exp_500 : exp 500 <= bpow radix2 1000.
Proof. replace 500 with (INR 500) by (rewrite INR_IZR_INZ; reflexivity). exact (exp_nat 500). Qed.
Lemma exp_m500 : bpow radix2 (-1000) <= exp (- 500).
Proof.
  replace (-500) with (Ropp 500) by lra. rewrite exp_Ropp. change (bpow radix2 (-1000)) with (bpow radix2 (- (1000))). rewrite bpow_opp. apply Rinv_le; [apply exp_pos|exact exp_500].
Qed.
Lemma big_fin x : Rabs x <= bpow radix2 1010 -> Rabs (rnd x) < bpow radix2 femax.
Proof.
  intros H. pose proof (rnd_err x) as R. pose proof uu_small as U. pose proof ee_small as E. assert (B : bpow radix2 femax = 16384 * bpow radix2 1010) by (change femax with (14 + 1010)%Z; rewrite bpow_plus; reflexivity). assert (1 <= bpow radix2 1010) by (change 1 with (bpow radix2 0); apply bpow_le; lia).
  rewrite B. replace (rnd x) with ((rnd x - x) + x) by ring. eapply Rle_lt_trans; [apply Rabs_triang|]. nra.
Qed.

(** ** Absolute errors *)
Lemma bnd_fin x B : Rabs x <= B -> B <= 1000000 -> Rabs (rnd x) < bpow radix2 femax.
Proof. intros H1 H2. apply big_fin. apply Rle_trans with (bpow radix2 20); [change (bpow radix2 20) with 1048576; lra|apply bpow_le; lia]. Qed.
Lemma add_ab (x y : f64) a b e f B : fin x = true -> fin y = true -> Rabs (val x - a) <= e -> Rabs (val y - b) <= f -> Rabs (a + b) + e + f <= B -> B <= 1000000 ->
  fin (fadd x y) = true /\ Rabs (val (fadd x y) - (a + b)) <= e + f + uu * B + ee.
Proof.
  intros Fx Fy Hx Hy HB HM. assert (S : Rabs (val x + val y - (a + b)) <= e + f). { replace (val x + val y - (a + b)) with ((val x - a) + (val y - b)) by ring. eapply Rle_trans; [apply Rabs_triang|]. lra. }
  assert (M : Rabs (val x + val y) <= B). { replace (val x + val y) with ((val x + val y - (a + b)) + (a + b)) by ring. eapply Rle_trans; [apply Rabs_triang|]. lra. }
  destruct (fadd_fin x y Fx Fy (bnd_fin _ B M HM)) as [V Fr]. split; [exact Fr|]. rewrite V. pose proof (rnd_err (val x + val y)) as R. pose proof uu_small as U.
  replace (rnd (val x + val y) - (a + b)) with ((rnd (val x + val y) - (val x + val y)) + (val x + val y - (a + b))) by ring. eapply Rle_trans; [apply Rabs_triang|]. nra.
Qed.
Lemma sub_ab (x y : f64) a b e f B : fin x = true -> fin y = true -> Rabs (val x - a) <= e -> Rabs (val y - b) <= f -> Rabs (a - b) + e + f <= B -> B <= 1000000 ->
  fin (fsub x y) = true /\ Rabs (val (fsub x y) - (a - b)) <= e + f + uu * B + ee.
Proof.
  intros Fx Fy Hx Hy HB HM. assert (S : Rabs (val x - val y - (a - b)) <= e + f). { replace (val x - val y - (a - b)) with ((val x - a) + - (val y - b)) by ring. eapply Rle_trans; [apply Rabs_triang|]. rewrite Rabs_Ropp. lra. }
  assert (M : Rabs (val x - val y) <= B). { replace (val x - val y) with ((val x - val y - (a - b)) + (a - b)) by ring. eapply Rle_trans; [apply Rabs_triang|]. lra. }
  destruct (fsub_fin x y Fx Fy (bnd_fin _ B M HM)) as [V Fr]. split; [exact Fr|]. rewrite V. pose proof (rnd_err (val x - val y)) as R. pose proof uu_small as U.
  replace (rnd (val x - val y) - (a - b)) with ((rnd (val x - val y) - (val x - val y)) + (val x - val y - (a - b))) by ring. eapply Rle_trans; [apply Rabs_triang|]. nra.
Qed.
Lemma mul_ab (x y : f64) B : fin x = true -> fin y = true -> Rabs (val x * val y) <= B -> B <= 1000000 -> fin (fmul x y) = true /\ Rabs (val (fmul x y) - val x * val y) <= uu * B + ee.
Proof.
  intros Fx Fy H HM. destruct (fmul_fin x y Fx Fy (bnd_fin _ B H HM)) as [V Fr]. split; [exact Fr|]. rewrite V. pose proof (rnd_err (val x * val y)) as R. pose proof uu_small as U. nra.
Qed.
Lemma self0 x : Rabs (x - x) <= 0. Proof. replace (x - x) with 0 by ring. rewrite Rabs_R0. lra. Qed.

(** ** The values of the code *)
Lemma prof_sane {lm} (p : Profit (FNum lm)) X L T : prof_fits p X L T -> sane (prof_market p).
Proof.
  intros H. pose proof (pf_low _ _ _ _ H 0%nat ltac:(lia)) as A. pose proof (pf_low _ _ _ _ H 1%nat ltac:(lia)) as B. pose proof (exp_pos (X + 1 - T)) as C. repeat split; cbn; try apply exp_pos; lra.
Qed.
Section V.
Variable lm : Libm.
Notation F := (FNum lm).
Variables (dl X L T : R) (p : Profit F) (y : Arr F).
Hypotheses (Hdl : 0 <= dl <= / 1000000) (HE : exp_near lm L dl) (HL : ln_near lm T dl) (Hp : profit_ok p) (Hf : prof_fits p X L T) (Hy : in_square X y).
Notation m := (prof_market p).
Definition yy (i : nat) : R := fcoords y i.
Definition cost (u : vec) : R := m_p m 0%nat * exp (u 0%nat) + m_p m 1%nat * exp (u 1%nat).
Definition lrev (u : vec) : R := ln (m_P m) + (m_a m 0%nat * u 0%nat + m_a m 1%nat * u 1%nat).
Lemma two_fin (a : Arr F) i : two a -> all_finite a -> (i < 2)%nat -> fin (at_ a i : f64) = true.
Proof. intros [A1 A2] A3 Hi. unfold at_. unfold all_finite in A3. rewrite Forall_forall in A3. apply A3. apply nth_In. lia. Qed.
Lemma p_range i : (i < 2)%nat -> exp (X + 1 - T) <= m_p m i /\ m_p m i * exp X + 2 * exp L <= exp (T - 1).
Proof.
  intros Hi. split; [exact (pf_low _ _ _ _ Hf i Hi)|]. eapply Rle_trans; [|exact (pf_high _ _ _ _ Hf)]. apply Rplus_le_compat_r, Rmult_le_compat_r; [left; apply exp_pos|]. cbn [m_p prof_market].
  pose proof (pf_low _ _ _ _ Hf 0%nat ltac:(lia)) as A. pose proof (pf_low _ _ _ _ Hf 1%nat ltac:(lia)) as B. pose proof (exp_pos (X + 1 - T)). destruct i as [|[|]]; [lra|lra|lia].
Qed.
Lemma y_range i : (i < 2)%nat -> - X <= yy i <= X.
Proof. intros Hi. destruct Hy as (_ & _ & H). apply Rabs_le_inv. exact (H i Hi). Qed.
Lemma term_range i : (i < 2)%nat -> exp (1 - T) <= m_p m i * exp (yy i) <= m_p m i * exp X.
Proof.
  intros Hi. destruct (p_range i Hi) as [A B]. pose proof (y_range i Hi) as C. pose proof (exp_pos (X + 1 - T)). split.
  - replace (1 - T) with ((X + 1 - T) + - X) by ring. rewrite exp_plus. apply Rmult_le_compat; [lra|left; apply exp_pos|exact A|apply exp_le; lra].
  - apply Rmult_le_compat_l; [lra|apply exp_le; lra].
Qed.
Lemma T_low : bpow radix2 (-1010) <= exp (1 - T).
Proof. pose proof (pf_T _ _ _ _ Hf) as H. eapply Rle_trans; [|eapply Rle_trans; [exact exp_m500|apply exp_le; lra]]. apply bpow_le. lia. Qed.
Lemma T_high : exp (T - 1) <= bpow radix2 1000.
Proof. pose proof (pf_T _ _ _ _ Hf) as H. eapply Rle_trans; [|exact exp_500]. apply exp_le. lra. Qed.
Lemma dec_le : 4 * bpow radix2 1000 <= bpow radix2 1010.
Proof. change 4 with (bpow radix2 2). rewrite <- bpow_plus. apply bpow_le. lia. Qed.
Definition fq (i : nat) : f64 := nmul (n := F) (at_ (p_price_out p) i) (nexp (n := F) (at_ y i)).
Lemma fq_near i : (i < 2)%nat -> fin (fq i) = true /\ near (dl + 3 * uu) (val (fq i)) (m_p m i * exp (yy i)).
Proof.
  intros Hi. destruct Hp as (_ & P2 & _). destruct Hy as (Y2 & Yf & Yb). pose proof (pf_X _ _ _ _ Hf) as HX. destruct (HE (at_ y i) (two_fin y i Y2 Yf Hi)) as [Fe Ne]. { eapply Rle_trans; [exact (Yb i Hi)|apply HX]. }
  pose proof (two_fin _ i P2 (pf_pr _ _ _ _ Hf) Hi) as Fv. change (near dl (val (nexp (n := F) (at_ y i))) (exp (yy i))) in Ne. destruct (p_range i Hi) as [A B]. pose proof (exp_pos (X + 1 - T)) as P0. destruct (term_range i Hi) as [C D]. pose proof T_low as TL. pose proof T_high as TH. pose proof dec_le as DL. pose proof uu_small as U. pose proof (exp_pos L) as PL.
  assert (N := near_mul_exact dl (m_p m i) _ _ ltac:(lra) Ne). pose proof N as N2. apply near_in in N2. set (Q := m_p m i * exp (yy i)) in *. pose proof (bpow_gt_0 radix2 (-1010)) as B0.
  destruct (fmul_fin (at_ (p_price_out p) i) (nexp (n := F) (at_ y i)) Fv Fe) as [V Fr].
  { apply big_fin. change (Rabs (m_p m i * val (nexp (n := F) (at_ y i))) <= bpow radix2 1010). apply Rabs_le. assert (dl * Q <= Q) by nra. assert (0 <= dl * Q) by nra. lra. }
  split; [exact Fr|]. change (val (fq i)) with (val (fmul (at_ (p_price_out p) i) (nexp (n := F) (at_ y i)))). rewrite V. apply near_rnd; [exact N|lra|lra].
Qed.
Lemma cost_range : 2 * exp (1 - T) <= cost yy /\ cost yy + 2 * exp L <= exp (T - 1).
Proof.
  destruct (term_range 0 ltac:(lia)) as [A B]. destruct (term_range 1 ltac:(lia)) as [C D]. unfold cost. split; [lra|]. eapply Rle_trans; [|exact (pf_high _ _ _ _ Hf)]. cbn [m_p prof_market] in *. lra.
Qed.
Lemma vx_near : fin (v_vx p y : f64) = true /\ near (dl + 6 * uu) (val (v_vx p y : f64)) (cost yy).
Proof.
  destruct (fq_near 0 ltac:(lia)) as [F0 N0]. destruct (fq_near 1 ltac:(lia)) as [F1 N1]. pose proof (near_add _ _ _ _ _ N0 N1) as N. fold (cost yy) in N. destruct cost_range as [C D]. pose proof T_low as TL. pose proof T_high as TH. pose proof dec_le as DL. pose proof uu_small as U. pose proof (exp_pos L). pose proof (exp_pos (1 - T)). pose proof N as N2. apply near_in in N2. pose proof (bpow_gt_0 radix2 (-1010)) as B0.
  destruct (fadd_fin (fq 0) (fq 1) F0 F1) as [V Fr]. { apply big_fin. apply Rabs_le. assert ((dl + 3 * uu) * cost yy <= cost yy) by nra. lra. }
  change (v_vx p y) with (fadd (fq 0) (fq 1)). split; [exact Fr|]. rewrite V. replace (dl + 6 * uu) with (dl + 3 * uu + 3 * uu) by ring. apply near_rnd; [exact N|lra|lra].
Qed.
Lemma tot_near (ga : f64) : level_fits L ga -> 0 <= val ga -> fin (fadd ga (v_vx p y)) = true /\ near (dl + 9 * uu) (val (fadd ga (v_vx p y))) (val ga + cost yy).
Proof.
  intros [Fg Bg] G0. destruct vx_near as [F1 N1]. destruct cost_range as [C D]. pose proof T_low as TL. pose proof T_high as TH. pose proof dec_le as DL. pose proof uu_small as U. pose proof (exp_pos L). pose proof (exp_pos (1 - T)). pose proof (bpow_gt_0 radix2 (-1010)) as B0.
  pose proof (near_add (dl + 6 * uu) (val ga) (val ga) _ _ (near_exact (dl + 6 * uu) (val ga) ltac:(lra) G0) N1) as N. pose proof N as N2. apply near_in in N2. set (Q := val ga + cost yy) in *. assert (Q <= exp (T - 1)) by (unfold Q; lra). assert (0 < Q) by (unfold Q; lra).
  destruct (fadd_fin ga (v_vx p y) Fg F1) as [V Fr]. { apply big_fin. apply Rabs_le. assert ((dl + 6 * uu) * Q <= Q) by nra. lra. }
  split; [exact Fr|]. rewrite V. replace (dl + 9 * uu) with (dl + 6 * uu + 3 * uu) by ring. apply near_rnd; [exact N|lra|unfold Q; lra].
Qed.
Lemma tot_ln (ga : f64) : level_fits L ga -> 0 <= val ga -> fin (nln (n := F) (fadd ga (v_vx p y)) : f64) = true /\ Rabs (val (nln (n := F) (fadd ga (v_vx p y)) : f64) - ln (val ga + cost yy)) <= 3 * dl + 18 * uu.
Proof.
  intros Lg G0. destruct (tot_near ga Lg G0) as [Ft N]. destruct cost_range as [C D]. destruct Lg as [Fg Bg]. pose proof uu_small as U. pose proof N as N2. apply near_in in N2. pose proof (exp_pos (1 - T)). pose proof (exp_pos (T - 1)). pose proof (exp_pos T). set (Q := val ga + cost yy) in *. assert (0 < Q) by (unfold Q; lra). assert (QT : Q <= exp (T - 1)) by (unfold Q; lra).
  assert (E1 : exp (1 - T) = exp 1 * exp (- T)) by (rewrite <- exp_plus; reflexivity). assert (E2 : exp T = exp 1 * exp (T - 1)) by (rewrite <- exp_plus; f_equal; ring). pose proof (exp_ineq1_le 1) as E3. pose proof (exp_pos (- T)). assert (QD : (dl + 9 * uu) * Q <= Q / 4) by nra.
  destruct (HL _ Ft) as [Fl Nl]. { split; [|nra]. assert (2 * exp (- T) <= exp (1 - T)) by (rewrite E1; nra). unfold Q in *. lra. }
  split; [exact Fl|]. pose proof (near_ln _ _ _ N ltac:(lra) ltac:(lra)) as NL. replace (_ - ln Q) with ((val (nln (n := F) (fadd ga (v_vx p y)) : f64) - ln (val (fadd ga (v_vx p y)))) + (ln (val (fadd ga (v_vx p y))) - ln Q)) by ring. eapply Rle_trans; [apply Rabs_triang|]. lra.
Qed.
Lemma lrev_eq u : lrev u = val (p_log_p_scale p : f64) + (fcoords (p_elast p) 0%nat * u 0%nat + fcoords (p_elast p) 1%nat * u 1%nat).
Proof. unfold lrev. cbn [m_P m_a prof_market]. rewrite ln_exp. reflexivity. Qed.
Lemma lrev_range : Rabs (lrev yy) + 1 <= L.
Proof.
  rewrite lrev_eq. pose proof (pf_rev _ _ _ _ Hf) as R. destruct Hy as (_ & _ & Yb). pose proof (Yb 0%nat ltac:(lia)) as A. pose proof (Yb 1%nat ltac:(lia)) as B. fold (yy 0) in A. fold (yy 1) in B. eapply Rle_trans; [|exact R]. apply Rplus_le_compat_r. eapply Rle_trans; [apply Rabs_triang|]. apply Rplus_le_compat_l. eapply Rle_trans; [apply Rabs_triang|]. rewrite !Rabs_mult, Rmult_plus_distr_r. apply Rplus_le_compat; apply Rmult_le_compat_l; auto using Rabs_pos.
Qed.
Lemma cobb_near : fin (v_log_cobb p y : f64) = true /\ Rabs (val (v_log_cobb p y : f64) - lrev yy) <= 2000 * uu.
Proof.
  destruct Hp as (_ & _ & P3). destruct Hy as (Y2 & Yf & Yb). pose proof (pf_rev _ _ _ _ Hf) as R. pose proof (pf_L _ _ _ _ Hf) as L2. pose proof (pf_X _ _ _ _ Hf) as HX. pose proof uu_small as U. pose proof ee_low 1 as EL. assert (bpow radix2 (-1010) <= 1) by (change 1 with (bpow radix2 0); apply bpow_le; lia). specialize (EL H). rewrite Rmult_1_r in EL.
  pose proof (two_fin _ 0 P3 (pf_el _ _ _ _ Hf) ltac:(lia)) as A0. pose proof (two_fin _ 1 P3 (pf_el _ _ _ _ Hf) ltac:(lia)) as A1. pose proof (two_fin _ 0 Y2 Yf ltac:(lia)) as B0. pose proof (two_fin _ 1 Y2 Yf ltac:(lia)) as B1.
  pose proof (Rabs_pos (val (p_log_p_scale p : f64))) as S0. set (a0 := fcoords (p_elast p) 0%nat) in *. set (a1 := fcoords (p_elast p) 1%nat) in *. pose proof (Rabs_pos a0). pose proof (Rabs_pos a1). assert (0 <= Rabs a0 * X) by nra. assert (0 <= Rabs a1 * X) by nra.
  assert (M0 : Rabs (a0 * yy 0) <= 200). { rewrite Rabs_mult. pose proof (Yb 0%nat ltac:(lia)) as Q. fold (yy 0) in Q. apply Rle_trans with (Rabs a0 * X); [apply Rmult_le_compat_l; auto|]. nra. }
  assert (M1 : Rabs (a1 * yy 1) <= 200). { rewrite Rabs_mult. pose proof (Yb 1%nat ltac:(lia)) as Q. fold (yy 1) in Q. apply Rle_trans with (Rabs a1 * X); [apply Rmult_le_compat_l; auto|]. nra. }
  assert (M2 : Rabs (val (p_log_p_scale p : f64)) <= 200) by nra.
  destruct (mul_ab (at_ (p_elast p) 0) (at_ y 0) 200 A0 B0 M0 ltac:(lra)) as [C0 D0]. destruct (mul_ab (at_ (p_elast p) 1) (at_ y 1) 200 A1 B1 M1 ltac:(lra)) as [C1 D1].
  change (val (at_ (p_elast p) 0) * val (at_ y 0)) with (a0 * yy 0) in D0. change (val (at_ (p_elast p) 1) * val (at_ y 1)) with (a1 * yy 1) in D1.
  assert (Z0 : fin (nsum0 (n := F) : f64) = true) by reflexivity. assert (Z1 : Rabs (val (nsum0 (n := F) : f64) - 0) <= 0) by (cbn; rewrite Rminus_0_r, Rabs_R0; lra).
  destruct (add_ab _ _ 0 (a0 * yy 0) 0 _ 201 Z0 C0 Z1 D0) as [G0 H0']; [rewrite Rplus_0_l; lra|lra|]. rewrite Rplus_0_l in H0'.
  destruct (add_ab _ _ (a0 * yy 0) (a1 * yy 1) _ _ 401 G0 C1 H0' D1) as [G1 H1']; [pose proof (Rabs_triang (a0 * yy 0) (a1 * yy 1)); lra|lra|].
  destruct (add_ab _ _ _ _ _ _ 602 (pf_scale _ _ _ _ Hf) G1 (self0 _) H1') as [G2 H2']. { pose proof (Rabs_triang (val (p_log_p_scale p : f64)) (a0 * yy 0 + a1 * yy 1)) as Q1. pose proof (Rabs_triang (a0 * yy 0) (a1 * yy 1)) as Q2. lra. } { lra. }
  split; [exact G2|]. rewrite lrev_eq. eapply Rle_trans; [exact H2'|]. lra.
Qed.

Notation eps := (prof_eps dl).
Lemma eps_eq : eps = dl + 8192 * uu.
Proof. unfold prof_eps. f_equal. change 8192 with (bpow radix2 13). rewrite <- bpow_plus. reflexivity. Qed.
Lemma ee_uu : ee <= uu. Proof. apply bpow_le. lia. Qed.
Lemma ln_range w : 0 < w -> exp (1 - T) <= w <= exp (T - 1) -> Rabs (ln w) <= 500.
Proof.
  intros Hw [A B]. pose proof (pf_T _ _ _ _ Hf) as HT. assert (L1 : 1 - T <= ln w). { rewrite <- (ln_exp (1 - T)). destruct A as [A|A]; [left; apply ln_increasing; [apply exp_pos|exact A]|rewrite A; lra]. }
  assert (L2 : ln w <= T - 1). { rewrite <- (ln_exp (T - 1)). destruct B as [B|B]; [left; apply ln_increasing; [exact Hw|exact B]|rewrite B; lra]. } apply Rabs_le. lra.
Qed.
Lemma test_near (ga : f64) : level_fits L ga -> 0 <= val ga -> let fj := fsub (nln (n := F) (fadd ga (v_vx p y))) (v_log_cobb p y) in
  fin fj = true /\ Rabs (val fj - (ln (val ga + cost yy) - lrev yy)) <= 3 * eps.
Proof.
  intros Lg G0 fj. destruct (tot_ln ga Lg G0) as [F1 N1]. destruct cobb_near as [F2 N2]. destruct cost_range as [C D]. destruct Lg as [_ Bg]. pose proof (exp_pos (1 - T)). pose proof lrev_range as LR. pose proof (pf_L _ _ _ _ Hf) as L2. pose proof uu_small as U. pose proof ee_uu as EU.
  assert (LB : Rabs (ln (val ga + cost yy)) <= 500) by (apply ln_range; lra).
  destruct (sub_ab _ _ _ _ _ _ 702 F1 F2 N1 N2) as [F3 N3]; [|lra|].
  - replace (ln (val ga + cost yy) - lrev yy) with (ln (val ga + cost yy) + - lrev yy) by ring. pose proof (Rabs_triang (ln (val ga + cost yy)) (- lrev yy)) as Q. rewrite Rabs_Ropp in Q. lra.
  - split; [exact F3|]. eapply Rle_trans; [exact N3|]. rewrite eps_eq. lra.
Qed.
Lemma limit_near : let fj := fsub (at_ y 0) (p_log_k p) in fin fj = true /\ Rabs (val fj - (yy 0 - val (p_log_k p : f64))) <= 3 * eps.
Proof.
  intros fj. destruct Hy as (Y2 & Yf & Yb). pose proof (two_fin _ 0 Y2 Yf ltac:(lia)) as B0. pose proof (Yb 0%nat ltac:(lia)) as Q. pose proof (pf_X _ _ _ _ Hf) as HX. pose proof (pf_L _ _ _ _ Hf) as L2. pose proof (pf_k _ _ _ _ Hf) as HK. pose proof uu_small as U. pose proof ee_uu as EU.
  destruct (sub_ab (at_ y 0) (p_log_k p) (yy 0) (val (p_log_k p : f64)) 0 0 1201 B0 (pf_limit _ _ _ _ Hf) (self0 _) (self0 _)) as [F3 N3]; [|lra|].
  - fold (yy 0) in Q. replace (yy 0 - val (p_log_k p : f64)) with (yy 0 + - val (p_log_k p : f64)) by ring. pose proof (Rabs_triang (yy 0) (- val (p_log_k p : f64))) as Q2. rewrite Rabs_Ropp in Q2. lra.
  - split; [exact F3|]. eapply Rle_trans; [exact N3|]. rewrite eps_eq. lra.
Qed.
Lemma T_low' : bpow radix2 (-1010) <= exp (- T).
Proof. pose proof (pf_T _ _ _ _ Hf) as H. eapply Rle_trans; [|eapply Rle_trans; [exact exp_m500|apply exp_le; lra]]. apply bpow_le. lia. Qed.
Lemma T_high' : exp T <= bpow radix2 1000.
Proof. pose proof (pf_T _ _ _ _ Hf) as H. eapply Rle_trans; [|exact exp_500]. apply exp_le. lra. Qed.
(** an entry of a gradient whose denominator [t] stands for [D] *)
Lemma grad_near (t : f64) D r i : (i < 2)%nat -> fin t = true -> near r (val t) D -> 0 <= r <= / 1000 -> exp (- T) <= D <= exp T -> m_p m i * exp (yy i) <= 101 / 100 * D ->
  let g := fsub (fmul (fq i) (fdiv (n1 (N := F)) t)) (at_ (p_elast p) i) in
  fin g = true /\ Rabs (val g - (m_p m i * exp (yy i) * (1 / D) - m_a m i)) <= 105 / 100 * (dl + r) + 150 * uu.
Proof.
  intros Hi Ft Nt Hr [D1 D2] HQ g. pose proof uu_small as U. pose proof ee_uu as EU. pose proof T_low' as TL. pose proof T_high' as TH. pose proof dec_le as DL. pose proof (bpow_gt_0 radix2 (-1010)) as B0. pose proof (exp_pos (- T)) as P0. assert (D0 : 0 < D) by lra.
  destruct (fofZ_small 1 ltac:(cbn; lia)) as [V1 F1]. assert (Pt : 0 < val t) by (apply (near_pos r _ D Nt); [lra|exact D0]).
  assert (Ni := near_inv' r _ D Nt ltac:(lra) D0). assert (ID : bpow radix2 (-1000) <= 1 / D <= bpow radix2 1010).
  { unfold Rdiv. rewrite Rmult_1_l. split. - change (bpow radix2 (-1000)) with (bpow radix2 (- (1000))). rewrite bpow_opp. apply Rinv_le; lra. - replace 1010%Z with (- (-1010))%Z by reflexivity. rewrite bpow_opp. apply Rinv_le; lra. }
  pose proof Ni as Ni2. apply near_in in Ni2. assert (ID2 : 1 / D <= bpow radix2 1000). { unfold Rdiv. rewrite Rmult_1_l. replace 1000%Z with (- (-1000))%Z by reflexivity. rewrite bpow_opp. apply Rinv_le; [apply bpow_gt_0|]. eapply Rle_trans; [|exact D1]. pose proof (pf_T _ _ _ _ Hf) as HT. eapply Rle_trans; [exact exp_m500|]. apply exp_le. lra. }
  assert (I0 : 0 < 1 / D) by (apply Rdiv_lt_0_compat; lra). assert (I1 : 102 / 100 * r * (1 / D) <= 1 * (1 / D)) by (apply Rmult_le_compat_r; lra).
  assert (I2 : Rabs (1 / val t) <= bpow radix2 1010). { assert (Z1 : bpow radix2 1010 = 1024 * bpow radix2 1000) by (change 1024 with (bpow radix2 10); rewrite <- bpow_plus; reflexivity). pose proof (bpow_gt_0 radix2 1000) as Z2. apply Rabs_le. lra. }
  destruct (fdiv_fin (n1 (N := F)) t F1 ltac:(lra)) as [Vd Fd]. { unfold n1. cbn [nZ FNum]. rewrite V1. exact (big_fin _ I2). }
  assert (Vd' : val (fdiv (n1 (N := F)) t) = rnd (1 / val t)). { rewrite Vd. unfold n1. cbn [nZ FNum]. rewrite V1. reflexivity. }
  assert (Nd := near_rnd _ _ _ Ni ltac:(lra) ltac:(eapply Rle_trans; [|exact (proj1 ID)]; apply bpow_le; lia)). rewrite <- Vd' in Nd. destruct (fq_near i Hi) as [Fq Nq].
  destruct (term_range i Hi) as [Q1 Q2]. pose proof (exp_pos (1 - T)) as P1. set (Q := m_p m i * exp (yy i)) in *. assert (Q0 : 0 < Q) by lra.
  assert (Nw := near_mul _ _ _ _ _ _ Nq Nd ltac:(lra) ltac:(lra) ltac:(lra) ltac:(lra)). set (W := Q * (1 / D)) in *. assert (W1 : 0 <= W <= 101 / 100). { unfold W. split; [apply Rmult_le_pos; lra|]. apply Rmult_le_reg_r with D; [exact D0|]. replace (Q * (1 / D) * D) with Q by (field; lra). exact HQ. }
  set (s1 := dl + 3 * uu) in *. set (s2 := 102 / 100 * r + 3 * uu) in *. assert (S : s1 + s2 + s1 * s2 <= 101 / 100 * dl + 103 / 100 * r + 7 * uu). { assert (0 <= s1 <= / 100000) by (unfold s1; lra). assert (0 <= s2) by (unfold s2; lra). assert (s1 * s2 <= / 100000 * s2) by nra. unfold s1, s2 in *. lra. }
  assert (Sp : 0 <= s1 + s2 + s1 * s2) by (unfold s1, s2; nra). assert (AW : Rabs (val (fq i) * val (fdiv (n1 (N := F)) t) - W) <= 101 / 100 * (101 / 100 * dl + 103 / 100 * r + 7 * uu)). { eapply Rle_trans; [exact Nw|]. nra. }
  assert (BW : Rabs (val (fq i) * val (fdiv (n1 (N := F)) t)) <= 2). { apply Rabs_le_inv in AW. apply Rabs_le. lra. }
  destruct (mul_ab _ _ 2 Fq Fd BW ltac:(lra)) as [Fm Nm]. destruct Hp as (_ & _ & P3). pose proof (two_fin _ i P3 (pf_el _ _ _ _ Hf) Hi) as Fa.
  assert (Nm2 : Rabs (val (fmul (fq i) (fdiv (n1 (N := F)) t)) - W) <= 101 / 100 * (101 / 100 * dl + 103 / 100 * r + 7 * uu) + (uu * 2 + ee)). { replace (val (fmul (fq i) (fdiv (n1 (N := F)) t)) - W) with ((val (fmul (fq i) (fdiv (n1 (N := F)) t)) - val (fq i) * val (fdiv (n1 (N := F)) t)) + (val (fq i) * val (fdiv (n1 (N := F)) t) - W)) by ring. eapply Rle_trans; [apply Rabs_triang|]. lra. }
  destruct (sub_ab _ _ W (m_a m i) _ 0 102 Fm Fa Nm2 (self0 _)) as [Fg Ng]; [|lra|].
  - pose proof (pf_a _ _ _ _ Hf i Hi) as HA. change (Rabs (m_a m i) <= 100) in HA. replace (W - m_a m i) with (W + - m_a m i) by ring. pose proof (Rabs_triang W (- m_a m i)) as TR. rewrite Rabs_Ropp, (Rabs_pos_eq W) in TR by lra. lra.
  - split; [exact Fg|]. eapply Rle_trans; [exact Ng|]. lra.
Qed.

Lemma grad_big (t : f64) D r i : (i < 2)%nat -> fin t = true -> near r (val t) D -> 0 <= r <= / 1000 -> exp (- T) <= D <= exp T -> m_p m i * exp (yy i) <= 101 / 100 * D ->
  Rabs (val (fsub (fmul (fq i) (fdiv (n1 (N := F)) t)) (at_ (p_elast p) i))) <= 103.
Proof.
  intros Hi Ft Nt Hr HD HQ. destruct (grad_near t D r i Hi Ft Nt Hr HD HQ) as [_ G]. pose proof uu_small as U. pose proof (pf_a _ _ _ _ Hf i Hi) as HA. change (Rabs (m_a m i) <= 100) in HA. destruct (term_range i Hi) as [Q1 _]. pose proof (exp_pos (1 - T)) as P1. pose proof (exp_pos (- T)) as P0.
  assert (W : 0 <= m_p m i * exp (yy i) * (1 / D) <= 101 / 100). { assert (0 < 1 / D) by (apply Rdiv_lt_0_compat; lra). split; [apply Rmult_le_pos; lra|]. apply Rmult_le_reg_r with D; [lra|]. replace (m_p m i * exp (yy i) * (1 / D) * D) with (m_p m i * exp (yy i)) by (field; lra). exact HQ. }
  apply Rabs_le_inv in G, HA. apply Rabs_le. lra.
Qed.

Notation mu := (prof_margin dl X).
Lemma eps_range : 0 < eps <= 11 / 10000000.
Proof. rewrite eps_eq. pose proof uu_small as U. lra. Qed.
Lemma rev_exp u : exp (lrev u) - cost u = mprofit m (u 0%nat) (u 1%nat).
Proof. symmetry. apply mprofit_exp. apply prof_sane with X L T; assumption. Qed.
Lemma turnover_exp u : turnover m u = exp (lrev u) + cost u.
Proof. unfold turnover, lrev, cost, Rpower. rewrite !ln_exp, !exp_plus, exp_ln by (cbn; apply exp_pos). ring. Qed.
Lemma ev_near : fin (nexp (n := F) (v_log_cobb p y) : f64) = true /\ near (dl + 8000 * uu) (val (nexp (n := F) (v_log_cobb p y) : f64)) (exp (lrev yy)).
Proof.
  destruct cobb_near as [F1 N1]. pose proof lrev_range as LR. pose proof uu_small as U.
  destruct (HE _ F1) as [F2 N2]. { pose proof (Rabs_triang (val (v_log_cobb p y : f64) - lrev yy) (lrev yy)) as TR. replace (val (v_log_cobb p y : f64) - lrev yy + lrev yy) with (val (v_log_cobb p y : f64)) in TR by ring. lra. }
  split; [exact F2|]. replace (dl + 8000 * uu) with (dl + 2 * (2 * (2000 * uu))) by ring. apply near_trans with (exp (val (v_log_cobb p y : f64))); [exact N2| |lra|lra|left; apply exp_pos]. apply near_exp; [exact N1|lra].
Qed.
Lemma prof_near : let ga := fsub (nexp (n := F) (v_log_cobb p y)) (v_vx p y) in level_fits L ga /\ Rabs (val ga - (exp (lrev yy) - cost yy)) <= eps * (exp (lrev yy) + cost yy).
Proof.
  intros ga. destruct ev_near as [F1 N1]. destruct vx_near as [F2 N2]. pose proof lrev_range as LR. pose proof uu_small as U. pose proof eps_range as EP. destruct cost_range as [C1 C2]. pose proof T_low as TL. pose proof T_high as TH. pose proof dec_le as DC. pose proof (bpow_gt_0 radix2 (-1010)) as B0. pose proof (exp_pos (lrev yy)) as R0. pose proof (exp_pos L) as L0.
  assert (RL : 2 * exp (lrev yy) <= exp L). { apply Rle_trans with (exp 1 * exp (lrev yy)). - apply Rmult_le_compat_r; [lra|]. pose proof (exp_ineq1_le 1). lra. - rewrite <- exp_plus. apply exp_le. pose proof (Rle_abs (lrev yy)). lra. }
  pose proof N1 as I1. apply near_in in I1. pose proof N2 as I2. apply near_in in I2. set (RV := exp (lrev yy)) in *. set (EV := val (nexp (n := F) (v_log_cobb p y) : f64)) in *. set (CO := cost yy) in *. set (VX := val (v_vx p y : f64)) in *.
  assert (dl * RV <= / 1000000 * RV) by (apply Rmult_le_compat_r; lra). assert (dl * CO <= / 1000000 * CO) by (apply Rmult_le_compat_r; lra). assert (uu * RV <= / 10 ^ 12 * RV) by (apply Rmult_le_compat_r; lra). assert (uu * CO <= / 10 ^ 12 * CO) by (apply Rmult_le_compat_r; lra).
  assert (0 <= dl * RV /\ 0 <= dl * CO /\ 0 <= uu * RV /\ 0 <= uu * CO) as (Z1 & Z2 & Z3 & Z4) by (repeat split; apply Rmult_le_pos; lra).
  assert (D1 : Rabs (EV - VX) <= 2 * (RV + CO)) by (apply Rabs_le; lra).
  destruct (fsub_fin _ _ F1 F2) as [V3 F3]. { apply big_fin. fold EV VX. lra. } fold EV VX in V3. assert (EC : ee <= uu * CO) by (apply ee_low; lra).
  pose proof (rnd_err (EV - VX)) as RE. rewrite <- V3 in RE. change (fsub (nexp (n := F) (v_log_cobb p y)) (v_vx p y)) with ga in RE, F3.
  assert (RE2 : Rabs (val ga - (EV - VX)) <= 2 * (uu * RV) + 3 * (uu * CO)). { eapply Rle_trans; [exact RE|]. assert (uu * Rabs (EV - VX) <= uu * (2 * (RV + CO))) by (apply Rmult_le_compat_l; lra). lra. }
  assert (A : Rabs (val ga - (RV - CO)) <= eps * (RV + CO)). { apply Rabs_le_inv in RE2. rewrite eps_eq. apply Rabs_le. lra. }
  split; [|exact A]. split; [exact F3|]. apply Rabs_le_inv in A. assert (eps * (RV + CO) <= 11 / 10000000 * (RV + CO)) by (apply Rmult_le_compat_r; lra). lra.
Qed.
Lemma ln_k : ln (m_k m) = val (p_log_k p : f64). Proof. cbn. apply ln_exp. Qed.
Lemma sane_worse nu : sane (worse nu m).
Proof.
  destruct (prof_sane p X L T Hf) as (A & B & C). pose proof (exp_pos (- nu)). split; [|split; [|exact C]]; cbn; apply Rmult_lt_0_compat; try assumption; apply exp_pos.
Qed.
Lemma ln_scale v nu : 0 < v -> ln (v * exp (- nu)) = ln v - nu.
Proof. intros H. rewrite ln_mult, ln_exp by (try apply exp_pos; assumption). ring. Qed.
Lemma sf_worse nu t u : shortfall (worse nu m) t u = ln (t + cost u) - lrev u + nu.
Proof. unfold shortfall, cost, lrev. cbn [m_P m_a m_p worse]. rewrite ln_scale by (cbn; apply exp_pos). ring. Qed.
Lemma earns_out nu t z : 0 <= t -> earns (worse nu m) t z -> z 0%nat <= val (p_log_k p : f64) - nu /\ ln (t + cost z) - lrev z <= - nu.
Proof.
  intros T0 [E1 E2]. pose proof (sane_worse nu) as S. split.
  - apply (mfeas_ln _ S) in E1. cbn [m_k worse] in E1. rewrite ln_scale, ln_k in E1 by (cbn; apply exp_pos). exact E1.
  - pose proof (shortfall_neg _ S t z T0 E2) as Q. rewrite sf_worse in Q. lra.
Qed.
Lemma earns_in nu t z : 0 <= t -> z 0%nat <= val (p_log_k p : f64) - nu -> ln (t + cost z) - lrev z <= - nu -> earns (worse nu m) t z.
Proof.
  intros T0 E1 E2. pose proof (sane_worse nu) as S. split.
  - apply (mfeas_ln _ S). cbn [m_k worse]. rewrite ln_scale, ln_k by (cbn; apply exp_pos). exact E1.
  - rewrite (mprofit_exp _ S). cbn [m_P m_a m_p worse]. rewrite ln_scale by (cbn; apply exp_pos). pose proof (costs_pos _ (sane_worse 0) z) as CP. cbn [m_p worse] in CP. fold (cost z) in *.
    assert (Q : ln (t + cost z) <= ln (m_P m) - nu + (m_a m 0%nat * z 0%nat + m_a m 1%nat * z 1%nat)) by (unfold lrev in E2; lra). apply ln_le_exp in Q; lra.
Qed.
(** a cut whose gradient and offset are off by at most [e1] and [e2] *)
Lemma cut_under (t : R) (g : nat -> R) b e1 e2 : 0 <= t -> 0 <= e1 -> (forall i, (i < 2)%nat -> Rabs (g i - (m_p m i * exp (yy i) * (1 / (t + cost yy)) - m_a m i)) <= e1) ->
  b <= ln (t + cost yy) - lrev yy + e2 -> forall z, (forall i, (i < 2)%nat -> Rabs (z i) <= X) -> along 2 g z yy + b <= ln (t + cost z) - lrev z + e1 * (4 * X) + e2.
Proof.
  intros T0 E0 G B z Bz. destruct cost_range as [C1 _]. pose proof (exp_pos (1 - T)) as P1. destruct (term_range 0 ltac:(lia)) as [Q0 _]. destruct (term_range 1 ltac:(lia)) as [Q1 _].
  pose proof (tangent t (m_p m 0%nat * exp (yy 0)) (m_p m 1%nat * exp (yy 1)) (z 0%nat - yy 0) (z 1%nat - yy 1) T0 ltac:(lra) ltac:(lra) ltac:(lra)) as TG.
  replace (m_p m 0%nat * exp (yy 0) * exp (z 0%nat - yy 0)) with (m_p m 0%nat * exp (z 0%nat)) in TG by (rewrite Rmult_assoc, <- exp_plus; do 2 f_equal; ring).
  replace (m_p m 1%nat * exp (yy 1) * exp (z 1%nat - yy 1)) with (m_p m 1%nat * exp (z 1%nat)) in TG by (rewrite Rmult_assoc, <- exp_plus; do 2 f_equal; ring).
  fold (cost yy) (cost z) in TG. unfold along, dot. cbn [Rsum].
  assert (W : forall i, (i < 2)%nat -> g i * (z i - yy i) <= (m_p m i * exp (yy i) * (1 / (t + cost yy)) - m_a m i) * (z i - yy i) + e1 * (2 * X)).
  { intros i Hi. pose proof (G i Hi) as GI. set (w := m_p m i * exp (yy i) * (1 / (t + cost yy)) - m_a m i) in *. assert (K : (g i - w) * (z i - yy i) <= e1 * (2 * X)).
    { eapply Rle_trans; [apply Rle_abs|]. rewrite Rabs_mult. apply Rmult_le_compat; try apply Rabs_pos; [exact GI|]. pose proof (y_range i Hi). pose proof (Rabs_le_inv _ _ (Bz i Hi)). apply Rabs_le. lra. } lra. }
  pose proof (W 0%nat ltac:(lia)) as W0. pose proof (W 1%nat ltac:(lia)) as W1. unfold lrev in *. lra.
Qed.
Lemma mu_out : 0 <= X -> mu = 5 * eps + 20 * (X * eps).
Proof. intros _. unfold prof_margin. ring. Qed.

Lemma nlt_val (b : f64) : fin b = true -> nltb (n := F) (n0 (N := F)) b = true -> 0 < val b.
Proof. intros Hb H. change (Bltb (n0 (N := F) : f64) b = true) in H. rewrite fltb_fin in H by (try apply n0_fin; exact Hb). rewrite n0_val in H. apply Rlt_bool_iff in H. exact H. Qed.
Lemma nle_val (b : f64) : fin b = true -> nltb (n := F) (n0 (N := F)) b = false -> val b <= 0.
Proof. intros Hb H. change (Bltb (n0 (N := F) : f64) b = false) in H. rewrite fltb_fin in H by (try apply n0_fin; exact Hb). rewrite n0_val in H. apply Rlt_bool_no in H. exact H. Qed.
Lemma n1_val : val (n1 (N := F) : f64) = 1. Proof. exact (proj1 (fofZ_small 1 ltac:(cbn; lia))). Qed.
Lemma n1_fin : fin (n1 (N := F) : f64) = true. Proof. exact (proj2 (fofZ_small 1 ltac:(cbn; lia))). Qed.
Lemma two_vals (g : Arr F) a b : adata g = [a; b] -> acols g = 0%nat -> fin (a : f64) = true -> fin (b : f64) = true -> two g /\ all_finite g /\ fcoords g 0%nat = val (a : f64) /\ fcoords g 1%nat = val (b : f64).
Proof.
  intros E C Fa Fb. split; [split; [rewrite E; reflexivity|exact C]|]. unfold all_finite, fcoords. rewrite E. split; [repeat constructor; assumption|]. split; reflexivity.
Qed.
Definition call_good (ga : f64) (p' : Profit F) (ga' : f64) (g : Arr F) (b : f64) (sh : bool) : Prop :=
  profit_ok p' /\ same_params p p' /\ level_fits L ga' /\ two g /\ all_finite g /\ fin b = true /\
  val ga <= val ga' + prof_drop dl L /\ (sh = false -> ga' = ga /\ 0 < val b) /\
  (sh = true -> earns (worse (- (3 * eps)) m) (val ga) yy /\ Rabs (val ga' - mprofit m (yy 0) (yy 1)) <= eps * turnover m yy /\ val b = 0) /\
  (0 <= val ga' -> forall z, (forall i, (i < 2)%nat -> Rabs (z i) <= X) -> earns (worse mu m) (val ga') z -> along 2 (fcoords g) z yy + val b <= 0).
Lemma prof_call_big (ga : f64) : level_fits L ga -> 0 <= val ga ->
  exists p' ga' g b sh, profit_assess p y ga = Ok (p', ga', ((g, mkSingle b), sh)) /\ call_good ga p' ga' g b sh /\ (forall i, (i < 2)%nat -> Rabs (fcoords g i) <= 103) /\ Rabs (val b) <= 2000.
Proof.
  intros Lg G0. pose proof Hy as (Y2 & Yf & Yb). destruct (profit_feas_ok p y ga Hp Y2) as (p' & r & E & O & Sm & R). unfold profit_assess. rewrite E. cbn [bind].
  pose proof eps_range as EP. pose proof uu_small as U. pose proof (pf_X _ _ _ _ Hf) as HX. destruct cost_range as [C1 C2]. pose proof (exp_pos (1 - T)) as P1. pose proof eps_eq as EE.
  assert (XE : 0 <= X * eps) by (apply Rmult_le_pos; lra). pose proof (mu_out ltac:(lra)) as MU. destruct (term_range 0 ltac:(lia)) as [Q0 _]. destruct (term_range 1 ltac:(lia)) as [Q1 _]. assert (CE : cost yy = m_p m 0%nat * exp (yy 0) + m_p m 1%nat * exp (yy 1)) by reflexivity.
  assert (TT : exp (- T) <= exp (1 - T) /\ exp (T - 1) <= exp T) by (split; apply exp_le; lra).
  pose proof (exp_pos L) as L0. assert (DP : 0 <= prof_drop dl L) by (unfold prof_drop; repeat apply Rmult_le_pos; lra).
  destruct r as [[g fj]|].
  - destruct R as (P & Tg & [(Ef & Eg)|(Ef & Eg)]).
    + destruct limit_near as [F1 N1]. change (fsub (at_ y 0) (p_log_k p)) with (nsub (n := F) (at_ y 0) (p_log_k p)) in F1, N1. rewrite <- Ef in F1, N1. pose proof (nlt_val fj F1 P) as Pb.
      destruct (two_vals g _ _ Eg (proj2 Tg) n1_fin (n0_fin lm)) as (_ & Ag & V0 & V1). do 5 eexists. split; [reflexivity|]. split; cycle 1.
      { split; [intros [|[|i]] Hi; [| |lia]; [rewrite V0, n1_val|rewrite V1, n0_val]; apply Rabs_le; lra|]. pose proof (y_range 0 ltac:(lia)) as YR. pose proof (pf_k _ _ _ _ Hf) as HK. pose proof (pf_L _ _ _ _ Hf) as HL2. apply Rabs_le_inv in N1, HK. apply Rabs_le. lra. }
      unfold call_good. refine (conj O (conj Sm (conj Lg (conj Tg (conj Ag (conj F1 (conj _ (conj _ (conj _ _))))))))); [lra|auto|discriminate|].
      intros _ z Bz Hz. apply earns_out in Hz as [Hz _]; [|exact G0]. unfold along, dot. cbn [Rsum]. rewrite V0, V1, n0_val, n1_val. apply Rabs_le_inv in N1. lra.
    + destruct (test_near ga Lg G0) as [F1 N1]. cbv zeta in F1, N1. change (fsub (nln (n := F) (fadd ga (v_vx p y))) (v_log_cobb p y)) with (nsub (n := F) (nln (n := F) (nadd (n := F) ga (v_vx p y))) (v_log_cobb p y)) in F1, N1. rewrite <- Ef in F1, N1. pose proof (nlt_val fj F1 P) as Pb.
      destruct (tot_near ga Lg G0) as [Ft Nt]. pose proof (proj2 Lg) as Lu.
      destruct (grad_near _ _ _ 0 ltac:(lia) Ft Nt ltac:(lra) ltac:(lra) ltac:(lra)) as [H0 G1]. destruct (grad_near _ _ _ 1 ltac:(lia) Ft Nt ltac:(lra) ltac:(lra) ltac:(lra)) as [H1 G2].
      destruct (two_vals g _ _ Eg (proj2 Tg) H0 H1) as (_ & Ag & V0 & V1). do 5 eexists. split; [reflexivity|]. split; cycle 1.
      { split; [pose proof (grad_big _ _ _ 0 ltac:(lia) Ft Nt ltac:(lra) ltac:(lra) ltac:(lra)) as B0; pose proof (grad_big _ _ _ 1 ltac:(lia) Ft Nt ltac:(lra) ltac:(lra) ltac:(lra)) as B1; intros [|[|i]] Hi; [| |lia]; [rewrite V0|rewrite V1]; assumption|]. pose proof (ln_range (val ga + cost yy) ltac:(lra) ltac:(lra)) as LN. pose proof lrev_range as LR. pose proof (pf_L _ _ _ _ Hf) as HL2. assert (LR2 : Rabs (lrev yy) <= 199) by lra. apply Rabs_le_inv in N1, LN, LR2. apply Rabs_le. lra. }
      unfold call_good. refine (conj O (conj Sm (conj Lg (conj Tg (conj Ag (conj F1 (conj _ (conj _ (conj _ _))))))))); [lra|auto|discriminate|].
      intros _ z Bz Hz. apply earns_out in Hz as [_ Hz]; [|exact G0]. pose proof (cut_under (val ga) (fcoords g) (val fj) (3 * eps) (3 * eps) G0 ltac:(lra)) as CU.
      assert (Q : along 2 (fcoords g) z yy + val fj <= ln (val ga + cost z) - lrev z + 3 * eps * (4 * X) + 3 * eps).
      { apply CU; [|apply Rabs_le_inv in N1; lra|exact Bz]. intros [|[|i]] Hi; [| |lia]; [rewrite V0|rewrite V1]; (eapply Rle_trans; [eassumption|lra]). }
      lra.
  - destruct R as (NP & Lc & Vx & Tq & Qa & Qb). rewrite Lc, Vx. destruct Sm as (S1 & S2 & S3 & S4).
    destruct ev_near as [Fe Ne]. destruct prof_near as [Lg' Np]. cbv zeta in Lg', Np. pose proof (proj2 Lg') as Lu'. set (EV := nexp (n := F) (v_log_cobb p y)) in *. set (ga' := fsub EV (v_vx p y)) in *. change (nsub (n := F) EV (v_vx p y)) with ga'.
    assert (NP2 := NP). unfold v_tests in NP2. apply none_positive_cons in NP2 as [T1 NP2]. apply none_positive_cons in NP2 as [T2 _].
    destruct limit_near as [F1 N1]. cbv zeta in F1, N1. destruct (test_near ga Lg G0) as [F2 N2]. cbv zeta in F2, N2. apply (nle_val _ F1) in T1. apply (nle_val _ F2) in T2. change (nsub (n := F) (at_ y 0) (p_log_k p)) with (fsub (at_ y 0) (p_log_k p)) in T1. change (nsub (n := F) (nln (n := F) (nadd (n := F) ga (v_vx p y))) (v_log_cobb p y)) with (fsub (nln (n := F) (fadd ga (v_vx p y))) (v_log_cobb p y)) in T2.
    assert (AC : earns (worse (- (3 * eps)) m) (val ga) yy). { apply Rabs_le_inv in N1. apply Rabs_le_inv in N2. apply earns_in; [exact G0|lra|lra]. }
    assert (TL := T_low). assert (TL' := T_low'). pose proof (exp_pos (lrev yy)) as R0.
    assert (DC : Rabs (val ga' + cost yy - exp (lrev yy)) <= eps * (exp (lrev yy) + cost yy)) by (replace (val ga' + cost yy - exp (lrev yy)) with (val ga' - (exp (lrev yy) - cost yy)) by ring; exact Np).
    assert (SG : forall e, near e (val EV) (exp (lrev yy)) -> Rabs (val EV - exp (lrev yy)) <= e * exp (lrev yy)) by (intros e He; exact He). apply SG in Ne. clear SG.
    assert (Ev : Rabs (val EV - exp (lrev yy)) <= eps * exp (lrev yy)). { eapply Rle_trans; [exact Ne|]. apply Rmult_le_compat_r; lra. }
    apply two_inv in Tq as (q0 & q1 & rq & Eq). pose proof O as (_ & _ & Te). apply two_inv in Te as (a0 & a1 & ra & Ea).
    assert (Q0' : q0 = fq 0) by (unfold at_ in Qa; rewrite Eq in Qa; exact Qa). assert (Q1' : q1 = fq 1) by (unfold at_ in Qb; rewrite Eq in Qb; exact Qb).
    assert (A0' : at_ (p_elast p) 0 = a0) by (rewrite <- S4, Ea; reflexivity). assert (A1' : at_ (p_elast p) 1 = a1) by (rewrite <- S4, Ea; reflexivity).
    rewrite Eq, Ea. unfold a_sub, a_zip, a_len, a_divs, a_mapd. cbn [adata map length Nat.eqb assert bind zipwith arows acols].
    set (g0 := nsub (n := F) (nmul (n := F) q0 (ndiv (n := F) n1 EV)) a0). set (g1 := nsub (n := F) (nmul (n := F) q1 (ndiv (n := F) n1 EV)) a1).
    assert (RU : val ga + cost yy <= exp (lrev yy) + 6 * eps * exp (lrev yy)).
    { apply Rabs_le_inv in N2. assert (Q : ln (val ga + cost yy) <= lrev yy + 3 * eps) by lra. apply ln_le_exp in Q; [|lra]. rewrite exp_plus in Q. pose proof (exp_up (3 * eps) ltac:(lra)) as EU. assert (exp (lrev yy) * exp (3 * eps) <= exp (lrev yy) * (1 + 2 * (3 * eps))) by (apply Rmult_le_compat_l; lra). lra. }
    assert (CR : cost yy <= 101 / 100 * exp (lrev yy)). { assert (6 * eps * exp (lrev yy) <= 1 / 100 * exp (lrev yy)) by (apply Rmult_le_compat_r; lra). lra. }
    assert (RL : 2 * exp (lrev yy) <= exp L). { pose proof lrev_range as LR. apply Rle_trans with (exp 1 * exp (lrev yy)). - apply Rmult_le_compat_r; [lra|]. pose proof (exp_ineq1_le 1). lra. - rewrite <- exp_plus. apply exp_le. pose proof (Rle_abs (lrev yy)). lra. }
    assert (DRP : val ga <= val ga' + prof_drop dl L).
    { pose proof Np as Np'. apply Rabs_le_inv in Np'. unfold prof_drop. assert (eps * cost yy <= eps * (101 / 100 * exp (lrev yy))) by (apply Rmult_le_compat_l; lra). assert (eps * (2 * exp (lrev yy)) <= eps * exp L) by (apply Rmult_le_compat_l; lra). assert (0 <= eps * exp L) by (apply Rmult_le_pos; lra). lra. }
    pose proof lrev_range as LR. assert (RT : exp (lrev yy) <= exp T). { apply Rle_trans with (exp L); [apply exp_le; pose proof (Rle_abs (lrev yy)); lra|]. pose proof (exp_pos L). lra. }
    destruct (grad_near EV _ _ 0 ltac:(lia) Fe Ne ltac:(lra) ltac:(lra) ltac:(lra)) as [H0 _]. destruct (grad_near EV _ _ 1 ltac:(lia) Fe Ne ltac:(lra) ltac:(lra) ltac:(lra)) as [H1 _].
    rewrite <- Q0', A0' in H0. rewrite <- Q1', A1' in H1.
    destruct (two_vals (mkArr [g0; g1] rq 0) g0 g1 eq_refl eq_refl H0 H1) as (Tg & Ag & V0 & V1).
    do 5 eexists. split; [reflexivity|]. split; cycle 1.
    { split; [|rewrite n0_val, Rabs_R0; lra]. pose proof (grad_big EV _ _ 0 ltac:(lia) Fe Ne ltac:(lra) ltac:(lra) ltac:(lra)) as B0. pose proof (grad_big EV _ _ 1 ltac:(lia) Fe Ne ltac:(lra) ltac:(lra) ltac:(lra)) as B1. rewrite <- Q0', A0' in B0. rewrite <- Q1', A1' in B1. intros [|[|i]] Hi; [| |lia]; [rewrite V0|rewrite V1]; assumption. }
    unfold call_good. refine (conj O (conj (conj S1 (conj S2 (conj S3 S4))) (conj Lg' (conj Tg (conj Ag (conj (n0_fin lm) (conj _ (conj _ (conj _ _))))))))); [exact DRP|discriminate| |].
    + intros _. rewrite <- rev_exp, turnover_exp. refine (conj AC (conj Np (n0_val lm))).
    + intros Gp z Bz Hz. apply earns_out in Hz as [_ Hz]; [|exact Gp]. set (RV := exp (lrev yy)) in *. set (D := val ga' + cost yy) in *.
      assert (CE2 : eps * (RV + cost yy) <= 201 / 100 * eps * RV) by (assert (eps * cost yy <= eps * (101 / 100 * RV)) by (apply Rmult_le_compat_l; lra); lra).
      assert (ND : near (201 / 100 * eps) D RV) by (unfold near; lra). pose proof (near_pos _ _ _ ND ltac:(lra) R0) as Dp. pose proof (near_ln _ _ _ ND ltac:(lra) R0) as LD. unfold RV in LD at 1. rewrite ln_exp in LD.
      assert (RD : RV <= 101 / 100 * D). { apply near_in in ND. assert (201 / 100 * eps * RV <= / 1000 * RV) by (apply Rmult_le_compat_r; lra). lra. }
      assert (NE : near (31 / 10 * eps) (val EV) D). { unfold near. replace (val EV - D) with ((val EV - RV) + - (D - RV)) by ring. eapply Rle_trans; [apply Rabs_triang|]. rewrite Rabs_Ropp. assert (301 / 100 * eps * RV <= 301 / 100 * eps * (101 / 100 * D)) by (apply Rmult_le_compat_l; lra). assert (0 <= eps * D) by (apply Rmult_le_pos; lra). lra. }
      assert (DR : exp (- T) <= D <= exp T) by (unfold D; lra).
      destruct (grad_near EV D _ 0 ltac:(lia) Fe NE ltac:(lra) DR ltac:(unfold D; lra)) as [_ G1]. destruct (grad_near EV D _ 1 ltac:(lia) Fe NE ltac:(lra) DR ltac:(unfold D; lra)) as [_ G2]. rewrite <- Q0', A0' in G1. rewrite <- Q1', A1' in G2.
      assert (Q : along 2 (fcoords (mkArr [g0; g1] rq 0)) z yy + val (n0 (N := F) : f64) <= ln (val ga' + cost z) - lrev z + 44 / 10 * eps * (4 * X) + 402 / 100 * eps).
      { apply cut_under; [exact Gp|lra| |rewrite n0_val; fold D; apply Rabs_le_inv in LD; lra|exact Bz]. intros [|[|i]] Hi; [| |lia]; [rewrite V0|rewrite V1]; fold D; (eapply Rle_trans; [eassumption|lra]). }
      lra.
Qed.
Lemma prof_call (ga : f64) : level_fits L ga -> 0 <= val ga ->
  exists p' ga' g b sh, profit_assess p y ga = Ok (p', ga', ((g, mkSingle b), sh)) /\ call_good ga p' ga' g b sh.
Proof. intros H1 H2. destruct (prof_call_big ga H1 H2) as (p' & ga' & g & b & sh & E & G & _). exists p', ga', g, b, sh. split; assumption. Qed.
End V.
