(** The discrete profit oracle in binary64 (C126). *)
From Coq Require Import ZArith Reals Lra Lia Psatz List Bool Arith.
From Flocq Require Import Core IEEE754.BinarySingleNaN.
From Verif Require Import Num Res Arr ArrLemmas CuttingPlane Spec RealLin EllReal LmiSpec ExSpec ExProofs FloatLemmas FloatErr FloatRel KernAcc FcosAcc StepAccSpec StepRunSpec Profit ProfitSpec ProfitProofs ProfitReal ProfAccSpec ProfAcc ProfQAccSpec.
Import ListNotations.
Local Open Scope R_scope.
#[local] Opaque fadd fsub fmul fdiv fsqrt fofZ fround.

Lemma fround_val (x : f64) : fin x = true -> fin (fround x) = true /\ val (fround x) = IZR (ZnearestA (val x)).
Proof.
  intros H. Transparent fround. unfold fround. Opaque fround. destruct (Bnearbyint_correct fprec femax fprec_lt_emax mode_NA x) as (A & B & _). rewrite B. split; [exact H|]. rewrite A.
  unfold round, scaled_mantissa, cexp, FIX_exp, F2R. cbn [Fnum Fexp round_mode]. change (bpow radix2 (- 0)) with 1. change (bpow radix2 0) with 1. rewrite !Rmult_1_r. reflexivity.
Qed.
Lemma near_half x : Rabs (IZR (ZnearestA x) - x) <= 1 / 2.
Proof. rewrite Rabs_minus_sym. pose proof (Znearest_half (Z.leb 0) x) as H. lra. Qed.

Lemma ln_mono a b : 0 < a -> a <= b -> ln a <= ln b.
Proof. intros H [K|K]; [left; now apply ln_increasing|rewrite K; lra]. Qed.

(** the whole amount of a coordinate, profit_oracle.rs 150-156 *)
Definition amount {N : Num} (v : N) : N := let r := nround (nexp v) in if neqb r n0 then n1 else r.
Lemma q_round_shape {N : Num} (y0 y1 : N) r : profit_q_round (mkArr [y0; y1] r 0) = Ok (mkArr [nln (amount y0); nln (amount y1)] r 0).
Proof.
  unfold profit_q_round, amount, a_map, a_mapd, a_idx, a_setidx, rd, wr. cbn. destruct (neqb (nround (nexp y0)) n0); cbn; destruct (neqb (nround (nexp y1)) n0); reflexivity.
Qed.

Lemma shift_f {lm} (g x y : Arr (FNum lm)) (b : f64) : two g -> two x -> two y -> all_finite g -> all_finite x -> all_finite y -> fin b = true ->
  (forall i, (i < 2)%nat -> Rabs (fcoords g i) <= 103) -> (forall i, (i < 2)%nat -> Rabs (fcoords x i) <= 200) -> (forall i, (i < 2)%nat -> Rabs (fcoords y i) <= 200) -> Rabs (val b) <= 2000 ->
  exists d (gd : f64), a_sub x y = Ok d /\ a_dot g d = Ok (gd : FNum lm) /\ fin (fadd b gd) = true /\
    Rabs (val (fadd b gd) - (val b + dot 2 (fcoords g) (fun i => fcoords x i - fcoords y i))) <= q_shift.
Proof.
  intros G2 X2 Y2 Gf Xf Yf Fb Bg Bx By Bb. apply two_inv in G2 as (g0 & g1 & rg & ->). apply two_inv in X2 as (x0 & x1 & rx & ->). apply two_inv in Y2 as (y0 & y1 & ry & ->).
  unfold all_finite in *. cbn [adata] in *. inversion Gf as [|? ? Fg0 Gf']. subst. inversion Gf' as [|? ? Fg1 _]. subst. inversion Xf as [|? ? Fx0 Xf']. subst. inversion Xf' as [|? ? Fx1 _]. subst. inversion Yf as [|? ? Fy0 Yf']. subst. inversion Yf' as [|? ? Fy1 _]. subst. clear Gf Gf' Xf Xf' Yf Yf'.
  pose proof (Bg 0%nat ltac:(lia)) as Bg0. pose proof (Bg 1%nat ltac:(lia)) as Bg1. pose proof (Bx 0%nat ltac:(lia)) as Bx0. pose proof (Bx 1%nat ltac:(lia)) as Bx1. pose proof (By 0%nat ltac:(lia)) as By0. pose proof (By 1%nat ltac:(lia)) as By1. clear Bg Bx By.
  unfold dot. cbn [Rsum]. change (fcoords (mkArr (N := FNum lm) [g0; g1] rg 0) 0%nat) with (val (g0 : f64)) in *. change (fcoords (mkArr (N := FNum lm) [g0; g1] rg 0) 1%nat) with (val (g1 : f64)) in *. change (fcoords (mkArr (N := FNum lm) [x0; x1] rx 0) 0%nat) with (val (x0 : f64)) in *. change (fcoords (mkArr (N := FNum lm) [x0; x1] rx 0) 1%nat) with (val (x1 : f64)) in *. change (fcoords (mkArr (N := FNum lm) [y0; y1] ry 0) 0%nat) with (val (y0 : f64)) in *. change (fcoords (mkArr (N := FNum lm) [y0; y1] ry 0) 1%nat) with (val (y1 : f64)) in *.
  assert (Term : forall u v w : f64, fin u = true -> fin v = true -> fin w = true -> Rabs (val u) <= 103 -> Rabs (val v) <= 200 -> Rabs (val w) <= 200 ->
    fin (fmul u (fsub v w)) = true /\ Rabs (val (fmul u (fsub v w)) - val u * (val v - val w)) <= 84000 * uu /\ Rabs (val u * (val v - val w)) <= 41200).
  { intros u v w Fu Fv Fw Bu Bv Bw. pose proof uu_small as U. assert (EU : ee <= uu) by (apply bpow_le; lia). assert (U0 : 0 < uu) by apply bpow_gt_0. assert (E0 : 0 < ee) by apply bpow_gt_0.
    assert (D0 : Rabs (val v - val w) <= 400) by (apply Rabs_le_inv in Bv, Bw; apply Rabs_le; lra).
    destruct (sub_ab v w _ _ 0 0 400 Fv Fw (self0 _) (self0 _) ltac:(lra) ltac:(lra)) as [Fd Nd].
    assert (D1 : Rabs (val (fsub v w)) <= 401). { replace (val (fsub v w)) with ((val (fsub v w) - (val v - val w)) + (val v - val w)) by ring. eapply Rle_trans; [apply Rabs_triang|]. lra. }
    assert (M : Rabs (val u * val (fsub v w)) <= 42000). { rewrite Rabs_mult. apply Rle_trans with (103 * 401); [apply Rmult_le_compat; auto using Rabs_pos|lra]. }
    destruct (mul_ab u (fsub v w) 42000 Fu Fd M ltac:(lra)) as [Fm Nm]. split; [exact Fm|]. split.
    - replace (val (fmul u (fsub v w)) - val u * (val v - val w)) with ((val (fmul u (fsub v w)) - val u * val (fsub v w)) + val u * (val (fsub v w) - (val v - val w))) by ring. eapply Rle_trans; [apply Rabs_triang|]. rewrite (Rabs_mult (val u)).
      assert (K : Rabs (val u) * Rabs (val (fsub v w) - (val v - val w)) <= 103 * (401 * uu)) by (apply Rmult_le_compat; auto using Rabs_pos; lra). lra.
    - rewrite Rabs_mult. apply Rle_trans with (103 * 400); [apply Rmult_le_compat; auto using Rabs_pos|lra]. }
  destruct (Term g0 x0 y0 Fg0 Fx0 Fy0 Bg0 Bx0 By0) as (F0 & N0 & M0). destruct (Term g1 x1 y1 Fg1 Fx1 Fy1 Bg1 Bx1 By1) as (F1 & N1 & M1). clear Term.
  set (t0 := fmul g0 (fsub x0 y0)) in *. set (t1 := fmul g1 (fsub x1 y1)) in *. set (P0 := val (g0 : f64) * (val (x0 : f64) - val (y0 : f64))) in *. set (P1 := val (g1 : f64) * (val (x1 : f64) - val (y1 : f64))) in *.
  pose proof uu_small as U. assert (EU : ee <= uu) by (apply bpow_le; lia). assert (U0 : 0 < uu) by apply bpow_gt_0.
  assert (Z : Rabs (val (B754_zero (lm_sum0 lm) : f64) - 0) <= 0) by (cbn; rewrite Rminus_0_r, Rabs_R0; lra).
  destruct (add_ab (B754_zero (lm_sum0 lm)) t0 0 P0 0 (84000 * uu) 42000 eq_refl F0 Z N0) as [S0 K0]; [rewrite Rplus_0_l; lra|lra|].
  destruct (add_ab _ t1 (0 + P0) P1 (127000 * uu) (84000 * uu) 84000 S0 F1) as [S1 K1]; [lra|exact N1| |lra|]. { pose proof (Rabs_triang (0 + P0) P1) as TR. rewrite Rplus_0_l in *. lra. }
  destruct (add_ab b _ (val b) (0 + P0 + P1) 0 (300000 * uu) 90000 Fb S1 (self0 _)) as [S2 K2]; [lra| |lra|]. { pose proof (Rabs_triang (val b) (0 + P0 + P1)) as TR. pose proof (Rabs_triang P0 P1) as TR2. rewrite Rplus_0_l in *. lra. }
  exists (mkArr (N := FNum lm) [fsub x0 y0; fsub x1 y1] rx 0), (fadd (fadd (B754_zero (lm_sum0 lm)) t0) t1). split; [reflexivity|]. split; [reflexivity|]. split; [exact S2|].
  assert (QS : q_shift = 8388608 * uu) by (unfold q_shift; change (-30)%Z with (23 + -53)%Z; rewrite bpow_plus; reflexivity). rewrite QS.
  match goal with |- Rabs (_ - (_ + ?c)) <= _ => replace c with (0 + P0 + P1) by (unfold P0, P1; ring) end. eapply Rle_trans; [exact K2|]. lra.
Qed.

Section Q.
Variable lm : Libm.
Notation F := (FNum lm).
Variables (dl X L T : R).
Hypotheses (Hdl : 0 <= dl <= / 1000000) (HE : exp_near lm L dl) (HL : ln_near lm T dl) (X0 : 0 <= X) (XL : X + 1 <= L) (L2 : L <= 200) (LT : exp L <= exp T).

Lemma whole_log (t : f64) v (u : f64) : fin t = true -> Rabs (val t - v) <= dl * v -> 0 < v <= exp X ->
  u = (if neqb (n := F) (nround (n := F) t) (n0 (N := F)) then n1 (N := F) else nround (n := F) t) ->
  fin (nln (n := F) u : f64) = true /\ Rabs (val (nln (n := F) u : f64)) <= X + 1 /\ exists z, whole_near dl v z /\ Rabs (val (nln (n := F) u : f64) - ln (IZR z)) <= dl.
Proof.
  intros Ft Nt Hv Eu. destruct (fround_val t Ft) as [Fr Vr]. change (nround (n := F) t) with (fround t) in Eu. set (z0 := ZnearestA (val t)) in *. pose proof (near_half (val t)) as H. fold z0 in H.
  assert (DV : 0 <= dl * v <= / 1000000 * v) by (split; [apply Rmult_le_pos; lra|apply Rmult_le_compat_r; lra]). apply Rabs_le_inv in Nt. assert (HH := H). apply Rabs_le_inv in HH.
  assert (Z0 : (0 <= z0)%Z). { apply le_IZR. destruct (Z_lt_le_dec z0 0) as [K|K]; [|now apply IZR_le]. assert (z0 <= -1)%Z by lia. assert (IZR z0 <= -1) by (now apply IZR_le). lra. }
  assert (G : exists z, fin u = true /\ val u = IZR z /\ whole_near dl v z /\ IZR z <= v + dl * v + 1 / 2 \/ fin u = true /\ z = 1%Z /\ val u = IZR z /\ whole_near dl v z).
  { change (neqb (n := F) (fround t) (n0 (N := F))) with (Beqb (fround t) (fofZ 0)) in Eu. destruct (fofZ_small 0 ltac:(cbn; lia)) as [V0 F0]. destruct (fofZ_small 1 ltac:(cbn; lia)) as [V1 F1].
    destruct (Z.eq_dec z0 0) as [K|K].
    - assert (B : Beqb (fround t) (fofZ 0) = true). { rewrite feqb_fin by assumption. rewrite Vr, V0, K. apply Req_bool_true. reflexivity. }
      rewrite B in Eu. exists 1%Z. right. subst u. change (n1 (N := F)) with (fofZ 1). split; [exact F1|]. split; [reflexivity|]. split; [exact V1|]. split; [lia|]. right. split; [reflexivity|]. rewrite K in HH. lra.
    - assert (B : Beqb (fround t) (fofZ 0) = false). { rewrite feqb_fin by assumption. rewrite Vr, V0. apply Req_bool_false. intros Q. apply eq_IZR in Q. contradiction. }
      rewrite B in Eu. exists z0. left. subst u. split; [exact Fr|]. split; [exact Vr|]. split; [|lra]. split; [lia|]. left. apply Rabs_le. lra. }
  assert (E1 : 1 <= exp X) by (pose proof (exp_ineq1_le X); lra).
  assert (G2 : exists z, fin u = true /\ val u = IZR z /\ whole_near dl v z /\ IZR z <= 150001 / 100000 * exp X).
  { destruct G as (z & [(A & B & C & D)|(A & B & C & D)]); exists z; (split; [exact A|split; [assumption|split; [assumption|]]]); [lra|subst z; lra]. }
  clear G. destruct G2 as (z & Fu & Vu & W & U). pose proof W as [Z1 _]. assert (Z1' : 1 <= IZR z) by (now apply IZR_le).
  assert (LZ : 0 <= ln (IZR z) <= X + 51 / 100).
  { split. - rewrite <- ln_1. apply ln_mono; lra. - apply Rle_trans with (ln (150001 / 100000 * exp X)); [apply ln_mono; lra|]. rewrite ln_mult by (try apply exp_pos; lra). rewrite ln_exp. pose proof (ln_tan (150001 / 100000) ltac:(lra)). lra. }
  assert (T0 : exp (- T) <= 1). { rewrite exp_Ropp. rewrite <- Rinv_1. apply Rinv_le; [lra|]. pose proof (exp_ineq1_le L). lra. }
  assert (EX : 2 * exp X <= exp L). { apply Rle_trans with (exp (X + 1)); [|apply exp_le; lra]. rewrite exp_plus. pose proof (exp_ineq1_le 1). nra. }
  destruct (HL u Fu) as [Fl Nl]; [rewrite Vu; lra|]. rewrite Vu in Nl. split; [exact Fl|]. split; [|exists z; split; assumption]. apply Rabs_le_inv in Nl. apply Rabs_le. lra.
Qed.

Lemma q_round_f (y : Arr F) : in_square X y -> exists x : Arr F, profit_q_round y = Ok x /\ in_square (X + 1) x /\
  forall i, (i < 2)%nat -> exists z, whole_near dl (exp (fcoords y i)) z /\ Rabs (fcoords x i - ln (IZR z)) <= dl.
Proof.
  intros (Y2 & Yf & Yb). apply two_inv in Y2 as (y0 & y1 & ry & ->). 
  assert (V0 : fcoords (mkArr (N := F) [y0; y1] ry 0) 0%nat = val (y0 : f64)) by reflexivity. assert (V1 : fcoords (mkArr (N := F) [y0; y1] ry 0) 1%nat = val (y1 : f64)) by reflexivity.
  pose proof (Yb 0%nat ltac:(lia)) as B0. pose proof (Yb 1%nat ltac:(lia)) as B1. rewrite V0 in B0. rewrite V1 in B1. unfold all_finite in Yf. cbn [adata] in Yf. inversion Yf as [|? ? F0 Yf']. subst. inversion Yf' as [|? ? F1 _]. subst.
  destruct (HE y0 F0 ltac:(lra)) as [E0 N0]. destruct (HE y1 F1 ltac:(lra)) as [E1 N1].
  assert (R0 : 0 < exp (val (y0 : f64)) <= exp X) by (split; [apply exp_pos|apply exp_le; pose proof (Rle_abs (val (y0 : f64))); lra]). assert (R1 : 0 < exp (val (y1 : f64)) <= exp X) by (split; [apply exp_pos|apply exp_le; pose proof (Rle_abs (val (y1 : f64))); lra]).
  destruct (whole_log _ _ _ E0 N0 R0 eq_refl) as (A1 & A2 & A3). destruct (whole_log _ _ _ E1 N1 R1 eq_refl) as (C1 & C2 & C3).
  eexists. split; [exact (q_round_shape y0 y1 ry)|]. split.
  - split; [split; reflexivity|]. split; [repeat constructor; assumption|]. intros [|[|i]] Hi; [exact A2|exact C2|lia].
  - intros [|[|i]] Hi; [exact A3|exact C3|lia].
Qed.
Variable (o : ProfitQ F) (y : Arr F).
Hypotheses (Hp : profit_ok (pq_omega o)) (Hf : prof_fits (pq_omega o) (X + 1) L T) (Hyd : log_whole dl (X + 1) (pq_yd o)) (Hy : in_square X y).
Notation m := (prof_market (pq_omega o)).
Notation mu := (prof_margin dl (X + 1)).

(** what a call has to deliver, spelt out in C126_call *)
Definition q_call_good (ga : f64) (retry : bool) (o' : ProfitQ F) (ga' : f64) (g : Arr F) (b : f64) (sh : bool) (x : Arr F) (more : bool) : Prop :=
  profit_ok (pq_omega o') /\ same_params (pq_omega o) (pq_omega o') /\ log_whole dl (X + 1) (pq_yd o') /\ level_fits L ga' /\ two g /\ all_finite g /\ fin b = true /\
  val ga <= val ga' + prof_drop dl L /\ more = negb retry /\
  ((retry = false /\ sh = false /\ x = y /\ ga' = ga /\ pq_yd o' = pq_yd o /\ 0 < val b /\
      (0 <= val ga' -> forall z, (forall i, (i < 2)%nat -> Rabs (z i) <= X + 1) -> earns (worse mu m) (val ga') z -> along 2 (fcoords g) z (fcoords y) + val b <= 0)) \/
   (x = pq_yd o' /\ (retry = true -> x = pq_yd o) /\
    (retry = false -> earns (worse (- (3 * prof_eps dl)) m) (val ga) (fcoords y) /\
       forall i, (i < 2)%nat -> exists z, whole_near dl (exp (fcoords y i)) z /\ Rabs (fcoords x i - ln (IZR z)) <= dl) /\
    (sh = false -> ga' = ga) /\
    (sh = true -> earns (worse (- (3 * prof_eps dl)) m) (val ga) (fcoords x) /\ Rabs (val ga' - mprofit m (fcoords x 0%nat) (fcoords x 1%nat)) <= prof_eps dl * turnover m (fcoords x)) /\
    exists bd, Rabs (val b - (bd + dot 2 (fcoords g) (fun i => fcoords x i - fcoords y i))) <= q_shift /\
      (0 <= val ga' -> forall z, (forall i, (i < 2)%nat -> Rabs (z i) <= X + 1) -> earns (worse mu m) (val ga') z -> along 2 (fcoords g) z (fcoords x) + bd <= 0))).

Lemma fits_same (p q : Profit F) Y : same_params p q -> prof_fits p Y L T -> prof_fits q Y L T /\ prof_market q = prof_market p.
Proof.
  intros (S1 & S2 & S3 & S4) H. split; [|unfold prof_market; rewrite S1, S2, S3, S4; reflexivity]. destruct H. split; rewrite ?S1, ?S2, ?S3, ?S4; assumption.
Qed.
Lemma square_grow : in_square (X + 1) y.
Proof. destruct Hy as (A & B & C). split; [exact A|]. split; [exact B|]. intros i Hi. specialize (C i Hi). lra. Qed.
Lemma same_trans (p q r : Profit F) : same_params p q -> same_params q r -> same_params p r.
Proof. unfold same_params. intros (A1 & A2 & A3 & A4) (B1 & B2 & B3 & B4). repeat split; congruence. Qed.
Lemma q_tail (p : Profit F) (x : Arr F) (ga : f64) : profit_ok p -> same_params (pq_omega o) p -> in_square (X + 1) x -> level_fits L ga -> 0 <= val ga ->
  exists p' ga' g b sh d gd, profit_assess p x ga = Ok (p', ga', ((g, mkSingle b), sh)) /\ a_sub x y = Ok d /\ a_dot g d = Ok gd /\ call_good lm dl (X + 1) L p x ga p' ga' g b sh /\ fin (fadd b gd) = true /\
    Rabs (val (fadd b gd) - (val b + dot 2 (fcoords g) (fun i => fcoords x i - fcoords y i))) <= q_shift.
Proof.
  intros Hq Sq Hx Lg G0. destruct (fits_same _ _ _ Sq Hf) as [Fq _]. destruct (prof_call_big lm dl (X + 1) L T p x Hdl HE HL Hq Fq Hx ga Lg G0) as (p' & ga' & g & b & sh & E & C & Bg & Bb).
  pose proof C as (_ & _ & _ & Tg & Ag & Fb & _). destruct Hx as (Tx & Ax & Bx). destruct Hy as (Ty & Ay & By).
  destruct (shift_f g x y b Tg Tx Ty Ag Ax Ay Fb Bg) as (d & gd & E1 & E2 & F2 & N2); [intros i Hi; specialize (Bx i Hi); lra|intros i Hi; specialize (By i Hi); lra|exact Bb|].
  exists p', ga', g, b, sh, d, gd. split; [exact E|]. split; [exact E1|]. split; [exact E2|]. split; [exact C|]. split; assumption.
Qed.
Lemma q_end (p : Profit F) (x : Arr F) (ga : f64) (retry : bool) p' ga' g b sh gd : same_params (pq_omega o) p -> log_whole dl (X + 1) x -> call_good lm dl (X + 1) L p x ga p' ga' g b sh -> fin (fadd b gd) = true ->
  Rabs (val (fadd b gd) - (val b + dot 2 (fcoords g) (fun i => fcoords x i - fcoords y i))) <= q_shift ->
  (retry = true -> x = pq_yd o) -> (retry = false -> earns (worse (- (3 * prof_eps dl)) m) (val ga) (fcoords y) /\ forall i, (i < 2)%nat -> exists z, whole_near dl (exp (fcoords y i)) z /\ Rabs (fcoords x i - ln (IZR z)) <= dl) ->
  q_call_good ga retry (mkProfitQ p' x) ga' g (fadd b gd) sh x (negb retry).
Proof.
  intros Sq Wx (O & Sm & Lg' & Tg & Ag & Fb & Dr & Rj & Ac & Ct) Fs Ns R1 R2. destruct (fits_same _ _ _ Sq Hf) as [_ Em]. rewrite Em in Ac, Ct.
  unfold q_call_good. cbn [pq_omega pq_yd]. refine (conj O (conj (same_trans _ _ _ Sq Sm) (conj Wx (conj Lg' (conj Tg (conj Ag (conj Fs (conj Dr (conj eq_refl (or_intror (conj eq_refl (conj R1 (conj R2 (conj _ (conj _ _))))))))))))))).
  - intros H. exact (proj1 (Rj H)).
  - intros H. destruct (Ac H) as (A & B & _). split; assumption.
  - exists (val b). split; [exact Ns|exact Ct].
Qed.
Lemma q_call (ga : f64) (retry : bool) : level_fits L ga -> 0 <= val ga ->
  exists o' ga' g b sh x more, profit_q_assess o y ga retry = Ok (o', ga', ((g, mkSingle b), sh, x, more)) /\ q_call_good ga retry o' ga' g b sh x more.
Proof.
  intros Lg G0. assert (S0 : same_params (pq_omega o) (pq_omega o)) by (repeat split). unfold profit_q_assess. destruct retry; cbn [negb].
  - destruct (q_tail (pq_omega o) (pq_yd o) ga Hp S0 (proj1 Hyd) Lg G0) as (p' & ga' & g & b & sh & d & gd & E & E1 & E2 & C & Fs & Ns). rewrite E. cbn [bind]. rewrite E1. cbn [bind]. rewrite E2. cbn [bind sc_beta].
    do 7 eexists. split; [reflexivity|]. exact (q_end _ _ _ true _ _ _ _ _ _ S0 Hyd C Fs Ns (fun _ => eq_refl) ltac:(discriminate)).
  - destruct (prof_call lm dl (X + 1) L T (pq_omega o) y Hdl HE HL Hp Hf square_grow ga Lg G0) as (p1 & ga1 & g1 & b1 & s1 & E & C1).
    destruct (profit_feas_ok (pq_omega o) y (ga : F) Hp (proj1 Hy)) as (p' & r & EF & O2 & Sm2 & _). unfold profit_assess in E. rewrite EF in *. cbn [bind] in *. destruct r as [[g fj]|].
    + injection E as -> -> -> -> <-. destruct C1 as (O & Sm & Lg' & Tg & Ag & Fb & Dr & Rj & Ac & Ct). do 7 eexists. split; [reflexivity|]. unfold q_call_good. cbn [pq_omega pq_yd].
      refine (conj O (conj Sm (conj Hyd (conj Lg' (conj Tg (conj Ag (conj Fb (conj Dr (conj eq_refl (or_introl (conj eq_refl (conj eq_refl (conj eq_refl (conj eq_refl (conj eq_refl (conj (proj2 (Rj eq_refl)) Ct)))))))))))))))).
    + assert (S1 : s1 = true) by (apply bind_inv in E as (g2 & _ & E); inversion E; reflexivity). destruct C1 as (_ & _ & _ & _ & _ & _ & _ & _ & Ac & _). destruct (Ac S1) as (AC & _).
      destruct (q_round_f y Hy) as (x & Ex & Sx & Wx). rewrite Ex. cbn [bind pq_omega pq_yd]. assert (LW : log_whole dl (X + 1) x) by (split; [exact Sx|]; intros i Hi; destruct (Wx i Hi) as (z & (Z1 & _) & Z2); exists z; split; assumption).
      destruct (q_tail p' x ga O2 Sm2 Sx Lg G0) as (p2 & ga' & g & b & sh & d & gd & E3 & E1 & E2 & C & Fs & Ns). unfold profit_assess in E3. rewrite ?E3. unfold profit_assess. rewrite E3. cbn [bind]. rewrite E1. cbn [bind]. rewrite E2. cbn [bind sc_beta].
      do 7 eexists. split; [reflexivity|]. exact (q_end _ _ _ false _ _ _ _ _ _ Sm2 LW C Fs Ns ltac:(discriminate) (fun _ => conj AC Wx)).
Qed.
End Q.

Lemma q_call_f lm dl X L T (o : ProfitQ (FNum lm)) (y : Arr (FNum lm)) (ga : f64) retry : 0 <= dl <= / 1000000 -> exp_near lm L dl -> ln_near lm T dl ->
  profit_ok (pq_omega o) -> prof_fits (pq_omega o) (X + 1) L T -> log_whole dl (X + 1) (pq_yd o) -> in_square X y -> level_fits L ga -> 0 <= val ga ->
  exists o' ga' g b sh x more, profit_q_assess o y (ga : FNum lm) retry = Ok (o', ga', ((g, mkSingle (N := FNum lm) b), sh, x, more)) /\ q_call_good lm dl X L o y ga retry o' ga' g b sh x more.
Proof.
  intros Hdl HE HL Hp Hf Hyd Hy Lg G0. pose proof (pf_X _ _ _ _ Hf) as HX. pose proof (pf_L _ _ _ _ Hf) as HL2.
  assert (X0 : 0 <= X) by (destruct Hy as (_ & _ & B); specialize (B 0%nat ltac:(lia)); pose proof (Rabs_pos (fcoords y 0%nat)); lra).
  assert (LT : exp L <= exp T). { pose proof (pf_high _ _ _ _ Hf) as H. pose proof (pf_low _ _ _ _ Hf 0%nat ltac:(lia)) as A. pose proof (pf_low _ _ _ _ Hf 1%nat ltac:(lia)) as B. pose proof (exp_pos (X + 1 + 1 - T)) as C. pose proof (exp_pos (X + 1)) as D. pose proof (exp_pos L) as E. pose proof (exp_le (T - 1) T ltac:(lra)) as K.
    assert (0 <= (fcoords (p_price_out (pq_omega o)) 0%nat + fcoords (p_price_out (pq_omega o)) 1%nat) * exp (X + 1)) by (apply Rmult_le_pos; lra). lra. }
  exact (q_call lm dl X L T Hdl HE HL X0 (proj2 HX) HL2 LT o y Hp Hf Hyd Hy ga retry Lg G0).
Qed.
