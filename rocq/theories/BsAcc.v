(** bsearch in binary64 against a threshold oracle: what the final bracket is, when the loop ends. *)
From Coq Require Import ZArith Reals Lra Lia Bool Arith.
From Flocq Require Import Core IEEE754.BinarySingleNaN.
From Verif Require Import Num Res CuttingPlane DriverSpec DriverProofs2 FloatLemmas FloatErr BSearchFloat FcosAcc QcAcc BsAccSpec.
Local Open Scope R_scope.

(** Half of the rounded width. *)
Lemma tau_parts lm (l u : f64) :
  fin l = true -> fin u = true -> val l <= val u -> fin (fsub u l) = true ->
  let d := val u - val l in
  fin (@bs_tau (FNum lm) l u) = true /\
  val (@bs_tau (FNum lm) l u) = rnd (rnd d / 2) /\
  Rabs (rnd (rnd d / 2) - d / 2) <= 11 / 10 * (uu * d) + 2 * ee.
Proof.
  intros Fl Fu Hle Fs d.
  destruct (fsub_fin_inv u l Fu Fl Fs) as (Es & Hs).
  destruct (fofZ_small 2 ltac:(cbn; lia)) as [E2 F2].
  assert (Hd0 : 0 <= d) by (unfold d; lra).
  assert (Hrd0 : 0 <= rnd d) by (rewrite <- rnd_0; now apply rnd_le).
  assert (Htau : 0 <= rnd (rnd d / 2)) by (rewrite <- rnd_0; apply rnd_le; lra).
  assert (Hdb : rnd (rnd d / 2) <= Rabs (rnd d)).
  { rewrite Rabs_pos_eq by auto. apply Rle_trans with (rnd (rnd d)).
    - apply rnd_le. lra.
    - rewrite (rnd_generic (rnd d)); [lra|]. apply generic_format_round; typeclasses eauto. }
  destruct (fdiv_fin (fsub u l) (fofZ 2) Fs) as (Et & Ft).
  { rewrite E2. lra. }
  { rewrite Es, E2. fold d. rewrite Rabs_pos_eq by tauto. fold d in Hs. lra. }
  rewrite Es, E2 in Et. fold d in Et.
  split; [exact Ft|]. split; [exact Et|].
  pose proof (rnd_err d) as H1. pose proof (rnd_err (rnd d / 2)) as H2.
  rewrite (Rabs_pos_eq d) in H1 by auto. rewrite (Rabs_pos_eq (rnd d / 2)) in H2 by lra.
  pose proof uu_small as [U1 U2]. pose proof ee_small as [V1 V2].
  apply Rabs_le_inv in H1, H2. apply Rabs_le.
  assert (P : uu * (rnd d / 2) <= 11 / 20 * (uu * d) + / 2 * ee).
  { assert (rnd d <= 11 / 10 * d + ee) by nra.
    assert (uu * ee <= ee) by nra. nra. }
  nra.
Qed.

(** The probe is near the midpoint. *)
Lemma probe_near lm (l u : f64) (M : R) :
  fin l = true -> fin u = true -> val l <= val u -> fin (fsub u l) = true ->
  Rabs (val l) <= M -> Rabs (val u) <= M ->
  Rabs (val (@nadd (FNum lm) l (@bs_tau (FNum lm) l u)) - (val l + val u) / 2) <= 4 * (uu * M) + 3 * ee.
Proof.
  intros Fl Fu Hle Fs Ml Mu.
  destruct (tau_parts lm l u Fl Fu Hle Fs) as (Ft & Et & Ht).
  destruct (midpoint_inside lm l u Fl Fu Hle Fs) as (Fg & Hg).
  set (g := @nadd (FNum lm) l (@bs_tau (FNum lm) l u)) in *.
  assert (Eg : val g = rnd (val l + rnd (rnd (val u - val l) / 2))).
  { rewrite <- Et. now apply fadd_inv. }
  pose proof (rnd_err_r (val l + rnd (rnd (val u - val l) / 2))) as H1. rewrite <- Eg in H1.
  apply Rabs_le_inv in Ml, Mu, H1, Ht.
  assert (Bg : Rabs (val g) <= M) by (apply Rabs_le; lra).
  pose proof uu_small as [U1 U2]. pose proof ee_small as [V1 V2].
  assert (P1 : uu * Rabs (val g) <= uu * M) by (apply Rmult_le_compat_l; lra).
  assert (P2 : uu * (val u - val l) <= 2 * (uu * M)) by nra.
  assert (P3 : 0 <= uu * M) by (apply Rmult_le_pos; lra).
  apply Rabs_le. split; lra.
Qed.

(** Two different doubles are not much closer than their size allows. *)
Lemma gap_pos (x y : R) : generic_format radix2 fexp64 x -> generic_format radix2 fexp64 y ->
  0 <= x -> x < y -> uu * x < y - x.
Proof.
  intros Gx Gy Hx Hxy.
  pose proof (succ_le_lt radix2 fexp64 x y Gx Gy Hxy) as H.
  rewrite succ_eq_pos in H by auto.
  assert (Q : Rabs x * uu < ulp radix2 fexp64 x) by exact (ulp_FLT_gt radix2 (-1074) 53 x).
  rewrite Rabs_pos_eq in Q by auto. lra.
Qed.
Lemma gap (lo hi : f64) (T : R) : val lo < T <= val hi -> bpow radix2 (-54) * Rabs T <= val hi - val lo.
Proof.
  intros [H1 H2].
  assert (E54 : bpow radix2 (-54) = uu / 2).
  { change (-54)%Z with (-53 + -1)%Z. rewrite bpow_plus. change (bpow radix2 (-1)) with (/ 2). reflexivity. }
  rewrite E54. pose proof uu_small as [U1 U2].
  destruct (Rle_or_lt 0 (val lo)) as [P|P].
  - pose proof (gap_pos (val lo) (val hi) (val_generic lo) (val_generic hi) P ltac:(lra)) as G.
    rewrite Rabs_pos_eq by lra. nra.
  - destruct (Rle_or_lt (val hi) 0) as [Q|Q].
    + pose proof (gap_pos (- val hi) (- val lo) ltac:(apply generic_format_opp, val_generic)
        ltac:(apply generic_format_opp, val_generic) ltac:(lra) ltac:(lra)) as G.
      rewrite Rabs_left1 by lra. nra.
    + assert (Rabs T <= val hi - val lo) by (apply Rabs_le; lra).
      pose proof (Rabs_pos T). nra.
Qed.

Lemma probes_of lm {B} (ora : OracleBS (FNum lm) B) tol k bs (lo hi : nat -> f64) ans :
  bs_steps (N := FNum lm) ora tol k bs lo hi ans ->
  (lo k = lo 0%nat \/ exists i, (i < k)%nat /\ ans i = false /\ lo k = @nadd (FNum lm) (lo i) (@bs_tau (FNum lm) (lo i) (hi i))) /\
  (hi k = hi 0%nat \/ exists i, (i < k)%nat /\ ans i = true /\ hi k = @nadd (FNum lm) (lo i) (@bs_tau (FNum lm) (lo i) (hi i))).
Proof.
  intros H. assert (G : forall j, (j <= k)%nat ->
    (lo j = lo 0%nat \/ exists i, (i < j)%nat /\ ans i = false /\ lo j = @nadd (FNum lm) (lo i) (@bs_tau (FNum lm) (lo i) (hi i))) /\
    (hi j = hi 0%nat \/ exists i, (i < j)%nat /\ ans i = true /\ hi j = @nadd (FNum lm) (lo i) (@bs_tau (FNum lm) (lo i) (hi i)))).
  { induction j; intros Hj; [auto|].
    destruct IHj as (A & C); [lia|]. destruct (H j ltac:(lia)) as (_ & _ & K).
    change (1 + j)%nat with (S j) in K. destruct (ans j) eqn:Ej; destruct K as [K1 K2].
    - split.
      + rewrite K1. destruct A as [A|(i & A1 & A2)]; [auto|right; exists i; split; [lia|auto]].
      + right. exists j. split; [lia|auto].
    - split.
      + right. exists j. split; [lia|auto].
      + rewrite K2. destruct C as [C|(i & A1 & A2)]; [auto|right; exists i; split; [lia|auto]]. }
  apply G. lia.
Qed.

Section Run.
Context (lm : Libm) {B : Type} (ora : OracleBS (FNum lm) B) (opt : Options (FNum lm)) (T : R) (l u : f64) (b : B).
Notation F := (FNum lm).
Hypothesis (Fl : fin l = true) (Fu : fin u = true) (Fs : fin (fsub u l) = true).
Hypothesis (HT : val l < T <= val u).
Hypothesis (Hora : threshold lm ora T).

Lemma bs_ok : exists b' flag k, bsearch ora opt b ((l, u) : F * F) = Ok (b', (l, u), (flag, k)).
Proof.
  destruct (bsearch ora opt b ((l, u) : F * F)) as [[[b' iv] [flag k]]|] eqn:E.
  - exists b', flag, k. apply (bsearch_iff (N := F)) in E as (_ & -> & _). reflexivity.
  - apply (bsearch_panic_iff (N := F)) in E.
    + cbn [nleb FNum] in E. rewrite (fleb_fin l u Fl Fu) in E. revert E. case Rle_bool_spec; [discriminate|lra].
    + intros b1 g X. destruct (Hora b1 g) as (b2 & a & Y & _). now rewrite Y in X.
Qed.

Notation mm := (Rmax (Rabs (val l)) (Rabs (val u))).
Notation sl := (bs_slack l u).

Lemma bs_inv k bs (lo hi : nat -> f64) ans :
  lo 0%nat = l -> hi 0%nat = u ->
  bs_steps (N := F) ora (tolerance opt) k bs lo hi ans ->
  forall i, (i <= k)%nat ->
    fin (lo i) = true /\ fin (hi i) = true /\ fin (fsub (hi i) (lo i)) = true /\
    val l <= val (lo i) /\ val (lo i) < T <= val (hi i) /\ val (hi i) <= val u /\
    val (hi i) - val (lo i) <= (val u - val l) / 2 ^ i + sl.
Proof.
  intros Hl Hu Hs.
  assert (ML : Rabs (val l) <= mm) by apply Rmax_l. assert (MU : Rabs (val u) <= mm) by apply Rmax_r.
  pose proof uu_small as [U1 U2]. pose proof ee_small as [V1 V2]. pose proof (Rabs_pos (val l)) as PL.
  assert (E50 : bpow radix2 (-50) = 8 * uu).
  { change (-50)%Z with (3 + -53)%Z. rewrite bpow_plus. reflexivity. }
  assert (E72 : bpow radix2 (-1072) = 8 * ee).
  { change (-1072)%Z with (3 + -1075)%Z. rewrite bpow_plus. reflexivity. }
  assert (Psl : 0 <= sl) by (unfold bs_slack; rewrite E50, E72; assert (0 <= uu * mm) by (apply Rmult_le_pos; lra); lra).
  induction i; intros Hi.
  - rewrite Hl, Hu. repeat split; auto; try lra.
  - destruct IHi as (A1 & A2 & A3 & A4 & A5 & A6 & A7); [lia|].
    destruct (Hs i ltac:(lia)) as (_ & Eo & Hst).
    destruct (midpoint_inside lm (lo i) (hi i) A1 A2 ltac:(lra) A3) as (Fg & Hg).
    assert (Hn := probe_near lm (lo i) (hi i) mm A1 A2 ltac:(lra) A3).
    assert (BL : Rabs (val (lo i)) <= mm).
    { apply Rabs_le_inv in ML, MU. apply Rabs_le. lra. }
    assert (BU : Rabs (val (hi i)) <= mm).
    { apply Rabs_le_inv in ML, MU. apply Rabs_le. lra. }
    specialize (Hn BL BU).
    set (g := @nadd F (lo i) (@bs_tau F (lo i) (hi i))) in *.
    destruct (Hora (bs i) g) as (b2 & a & Ea & Ha). specialize (Ha Fg).
    assert (Eans : ans i = a) by (rewrite Ea in Eo; now inversion Eo).
    assert (Hw : (val u - val l) / 2 ^ S i = (val u - val l) / 2 ^ i / 2).
    { simpl. field. apply pow_nonzero. lra. }
    apply Rabs_le_inv in Hn.
    assert (S2 : sl / 2 = 4 * (uu * mm) + 4 * ee) by (unfold bs_slack; rewrite E50, E72; field).
    assert (Fa : fin (fsub g (lo i)) = true) by (apply (fsub_narrow (lo i) (hi i)); auto; lra).
    assert (Fb : fin (fsub (hi i) g) = true) by (apply (fsub_narrow (lo i) (hi i)); auto; lra).
    rewrite Hw. change (S i) with (1 + i)%nat. rewrite Eans, Ha in Hst. revert Hst.
    case Rle_bool_spec; intros Hc [-> ->]; repeat split; auto; lra.
Qed.

Lemma bs_float :
  fin (tolerance opt) = true ->
  exists b' flag k bs (gammas : nat -> f64) ans (lo hi : f64),
  bsearch ora opt b ((l, u) : F * F) = Ok (b', (l, u), (flag, k)) /\ (k <= max_iters opt)%nat /\
  bs 0%nat = b /\ bs k = b' /\
  (forall i, (i < k)%nat -> ora (bs i) (gammas i) = Ok (bs (1 + i)%nat, ans i) /\ fin (gammas i) = true) /\
  (lo = l \/ exists i, (i < k)%nat /\ ans i = false /\ lo = gammas i) /\
  (hi = u \/ exists i, (i < k)%nat /\ ans i = true /\ hi = gammas i) /\
  val l <= val lo /\ val lo < T <= val hi /\ val hi <= val u /\
  val hi - val lo <= (val u - val l) / 2 ^ k + sl /\
  (forall i, (i < k)%nat -> 2 * val (tolerance opt) <= (1 + bpow radix2 (-50)) * ((val u - val l) / 2 ^ i + sl) + bpow radix2 (-1072)) /\
  (k = max_iters opt \/ (1 - bpow radix2 (-50)) * (val hi - val lo) <= 2 * val (tolerance opt) + bpow radix2 (-1072)) /\
  (flag = true <-> val hi < val u).
Proof.
  intros Ftol. destruct bs_ok as (b' & flag & k & E).
  pose proof (proj1 (bsearch_iff (N := F) ora opt b l u b' (l, u) flag k) E) as (_ & _ & bs & lo & hi & ans & Hb & Hl & Hu & Hs & Hb' & Hfl & Hend).
  pose proof (bs_inv k bs lo hi ans Hl Hu Hs) as Hinv.
  destruct (probes_of lm ora (tolerance opt) k bs lo hi ans Hs) as (Hp1 & Hp2).
  assert (E50 : bpow radix2 (-50) = 8 * uu).
  { change (-50)%Z with (3 + -53)%Z. rewrite bpow_plus. reflexivity. }
  assert (E72 : bpow radix2 (-1072) = 8 * ee).
  { change (-1072)%Z with (3 + -1075)%Z. rewrite bpow_plus. reflexivity. }
  pose proof uu_small as [U1 U2]. pose proof ee_small as [V1 V2].
  destruct (Hinv k ltac:(lia)) as (A1 & A2 & A3 & A4 & A5 & A6 & A7).
  exists b', flag, k, bs, (fun i => @nadd F (lo i) (@bs_tau F (lo i) (hi i))), ans, (lo k), (hi k).
  split; [exact E|]. split; [destruct Hend as [[? _]|?]; lia|]. split; [auto|]. split; [auto|].
  split.
  { intros i Hi. destruct (Hs i Hi) as (_ & Eo & _). split; [exact Eo|].
    destruct (Hinv i ltac:(lia)) as (B1 & B2 & B3 & B4 & B5 & B6 & B7).
    apply midpoint_inside; auto; lra. }
  split; [rewrite <- Hl; exact Hp1|]. split; [rewrite <- Hu; exact Hp2|].
  split; [auto|]. split; [auto|]. split; [auto|]. split; [auto|].
  split.
  { intros i Hi. destruct (Hs i Hi) as (Ht & _ & _).
    destruct (Hinv i ltac:(lia)) as (B1 & B2 & B3 & B4 & B5 & B6 & B7).
    destruct (tau_parts lm (lo i) (hi i) B1 B2 ltac:(lra) B3) as (Ft & Et & Eh).
    cbn [nltb FNum] in Ht. rewrite (fltb_fin _ _ Ft Ftol) in Ht. revert Ht. case Rlt_bool_spec; [discriminate|intros Ht _].
    rewrite Et in Ht. apply Rabs_le_inv in Eh. rewrite E50, E72.
    set (d := val (hi i) - val (lo i)) in *. set (W := (val u - val l) / 2 ^ i + sl) in *.
    assert (Pd : 0 < d) by (unfold d; lra).
    assert (8 * uu * d <= 8 * uu * W) by (apply Rmult_le_compat_l; lra).
    assert (0 < uu * d) by (apply Rmult_lt_0_compat; lra). lra. }
  split.
  { destruct Hend as [[_ Ht]|Hk]; [right|auto].
    destruct (tau_parts lm (lo k) (hi k) A1 A2 ltac:(lra) A3) as (Ft & Et & Eh).
    cbn [nltb FNum] in Ht. rewrite (fltb_fin _ _ Ft Ftol) in Ht. revert Ht. case Rlt_bool_spec; [intros Ht _|discriminate].
    rewrite Et in Ht. apply Rabs_le_inv in Eh. rewrite E50, E72.
    set (d := val (hi k) - val (lo k)) in *. assert (Pd : 0 < d) by (unfold d; lra).
    assert (0 < uu * d) by (apply Rmult_lt_0_compat; lra). lra. }
  rewrite Hfl. cbn [neqb FNum].
  assert (Q : Beqb (hi k) u = Req_bool (val (hi k)) (val u)) by (apply Beqb_correct; auto).
  rewrite Q. case Req_bool_spec; intros Hq; simpl; split; intros; try discriminate; auto; lra.
Qed.

(** A tolerance below the spacing of the doubles near the threshold is never met. *)
Lemma bs_stuck b' iv flag k :
  fin (tolerance opt) = true -> val (tolerance opt) <= bpow radix2 (-55) * Rabs T ->
  bsearch ora opt b ((l, u) : F * F) = Ok (b', iv, (flag, k)) -> k = max_iters opt.
Proof.
  intros Ftol Htol E.
  apply (bsearch_iff (N := F)) in E as (_ & _ & bs & lo & hi & ans & Hb & Hl & Hu & Hs & Hb' & Hfl & Hend).
  destruct Hend as [[_ Ht]|Hk]; [exfalso|auto].
  destruct (bs_inv k bs lo hi ans Hl Hu Hs k ltac:(lia)) as (A1 & A2 & A3 & A4 & A5 & A6 & A7).
  destruct (tau_parts lm (lo k) (hi k) A1 A2 ltac:(lra) A3) as (Ft & Et & Eh).
  cbn [nltb FNum] in Ht. rewrite (fltb_fin _ _ Ft Ftol) in Ht. revert Ht. case Rlt_bool_spec; [intros Ht _|discriminate].
  rewrite Et in Ht. pose proof (gap (lo k) (hi k) T A5) as G.
  assert (E54 : bpow radix2 (-54) = 2 * bpow radix2 (-55)).
  { change (-54)%Z with (1 + -55)%Z. rewrite bpow_plus. reflexivity. }
  rewrite E54 in G.
  assert (D : 2 * val (tolerance opt) <= val (hi k) - val (lo k)) by lra.
  assert (D1 : 2 * val (tolerance opt) <= rnd (val (hi k) - val (lo k))).
  { rewrite <- (rnd_generic (2 * val (tolerance opt))) by (apply twice_generic, val_generic). now apply rnd_le. }
  assert (D2 : val (tolerance opt) <= rnd (rnd (val (hi k) - val (lo k)) / 2)).
  { rewrite <- (rnd_val (tolerance opt)). apply rnd_le. lra. }
  lra.
Qed.
End Run.
