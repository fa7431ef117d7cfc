(** linspace and arange in binary64 (C121). *)
From Coq Require Import ZArith Reals Lra Lia Psatz List Bool Arith.
From Flocq Require Import Core IEEE754.BinarySingleNaN.
From Verif Require Import Num Res Arr ArrLemmas Spec FloatLemmas FloatErr FcosAcc StepAccSpec ProfAcc.
Import ListNotations.
Local Open Scope R_scope.
#[local] Opaque fadd fsub fmul fdiv fsqrt fofZ.

Section L.
Context {lm : Libm}.
Notation F := (FNum lm).

Lemma fill_f n (f : nat -> F) : exists l : Arr F, for_range 0 n (fun i a => a_setidx (N := F) a i (f i)) (a_new (N := F) n) = Ok l /\
  length (adata l) = n /\ acols l = 0%nat /\ forall i, (i < n)%nat -> nth i (adata l) (n0 (N := F)) = f i.
Proof.
  destruct (for_range_inv (fun k (o : Arr F) => (length (adata o) = n /\ acols o = 0%nat) /\ forall i, (i < k)%nat -> nth i (adata o) (n0 (N := F)) = f i)
    0 n (fun i a => a_setidx (N := F) a i (f i)) (a_new (N := F) n)) as (o & E & [Ho Hc] & Hf).
  - lia.
  - split; [split; [apply repeat_length|reflexivity]|]. intros; lia.
  - intros i t [_ Hi] ([Lt Ct] & Ht). unfold a_setidx. rewrite wr_ok by lia. simpl. eexists. split; [reflexivity|].
    split; [split; [cbn [adata]; rewrite upd_length; auto|auto]|].
    intros k Hk. cbn [adata]. rewrite nth_upd by (eapply Nat.lt_le_trans; [exact Hi|apply Nat.eq_le_incl; symmetry; exact Lt]). destruct (Nat.eqb_spec i k) as [<-|]; auto. apply Ht. lia.
  - exists o. auto.
Qed.
Lemma nN_f k : (Z.of_nat k <= 2 ^ 53)%Z -> val (nN (N := F) k : f64) = INR k /\ fin (nN (N := F) k : f64) = true.
Proof. intros H. rewrite INR_IZR_INZ. apply fofZ_small. lia. Qed.

Section S.
Context (a b : f64) (n : nat) (M : R) (Fa : fin a = true) (Fb : fin b = true) (Ha : Rabs (val a) <= M) (Hb : Rabs (val b) <= M) (HM : M <= bpow radix2 1000) (Hn : (2 <= n)%nat) (Hz : (Z.of_nat n <= 2 ^ 53)%Z).
Notation A := (val a). Notation B := (val b). Notation K := (INR (n - 1)).
Definition dd : f64 := fsub b a.
Definition ss : f64 := fdiv dd (nN (N := F) (n - 1)).
Definition tt_ (i : nat) : f64 := fmul ss (nN (N := F) i).
Definition xx (i : nat) : f64 := fadd a (tt_ i).

Lemma M0 : 0 <= M. Proof. pose proof (Rabs_pos A). lra. Qed.
Lemma K1 : 1 <= K. Proof. replace 1 with (INR 1) by reflexivity. apply le_INR. lia. Qed.
Lemma K53 : K <= bpow radix2 53.
Proof. rewrite INR_IZR_INZ. replace (bpow radix2 53) with (IZR (2 ^ 53)) by reflexivity. apply IZR_le. lia. Qed.
Lemma top : 16 * M + 1 <= bpow radix2 1010.
Proof.
  assert (E : bpow radix2 1010 = 1024 * bpow radix2 1000). { replace 1010%Z with (10 + 1000)%Z by reflexivity. rewrite bpow_plus. replace (bpow radix2 10) with 1024 by (simpl; lra). reflexivity. }
  assert (1 <= bpow radix2 1000) by (replace 1 with (bpow radix2 0) by reflexivity; apply bpow_le; lia). lra.
Qed.
Lemma fine r : Rabs r <= 16 * M + 1 -> Rabs (rnd r) < bpow radix2 femax.
Proof. intros H. apply big_fin. pose proof top. lra. Qed.
Lemma u1 : 0 < uu <= 1 / 1000000. Proof. pose proof uu_small. pose proof (bpow_gt_0 radix2 (-53)). lra. Qed.
Lemma e1 : 0 < ee /\ ee <= uu /\ ee * K <= 1 / 4 /\ uu * (ee * K) <= ee.
Proof.
  pose proof (bpow_gt_0 radix2 (-1075)). pose proof K53. pose proof K1. repeat split; auto.
  - apply bpow_le. lia.
  - apply Rle_trans with (ee * bpow radix2 53); [apply Rmult_le_compat_l; lra|]. rewrite <- bpow_plus. replace (1 / 4) with (bpow radix2 (-2)) by (simpl; lra). apply bpow_le. lia.
  - apply Rle_trans with (uu * (ee * bpow radix2 53)); [apply Rmult_le_compat_l; [apply bpow_ge_0|]; apply Rmult_le_compat_l; lra|]. rewrite <- !bpow_plus. apply bpow_le. lia.
Qed.
Lemma dd_ok : fin dd = true /\ val dd = rnd (B - A) /\ Rabs (val dd - (B - A)) <= uu * (2 * M) + ee /\ Rabs (val dd) <= 2 * M + uu * (2 * M) + ee.
Proof.
  pose proof M0. pose proof u1. pose proof e1. assert (D : Rabs (B - A) <= 2 * M). { apply Rabs_le_inv in Ha, Hb. apply Rabs_le. lra. }
  destruct (fsub_fin b a Fb Fa (fine (B - A) ltac:(lra))) as [V Fd]. unfold dd. split; [exact Fd|]. split; [exact V|].
  pose proof (rnd_err (B - A)) as R. assert (uu * Rabs (B - A) <= uu * (2 * M)) by (apply Rmult_le_compat_l; lra). rewrite V.
  split; [lra|]. replace (rnd (B - A)) with ((rnd (B - A) - (B - A)) + (B - A)) by ring. eapply Rle_trans; [apply Rabs_triang|]. lra.
Qed.
Lemma step_small : Rabs (val dd / K) * K = Rabs (val dd).
Proof. pose proof K1. unfold Rdiv. rewrite Rabs_mult, (Rabs_pos_eq (/ K)). field. lra. left. apply Rinv_0_lt_compat. lra. Qed.
Lemma ss_ok : fin ss = true /\ val ss = rnd (val dd / K) /\ Rabs (val ss - val dd / K) <= uu * Rabs (val dd / K) + ee.
Proof.
  destruct dd_ok as (Fd & _ & _ & D). pose proof M0. pose proof u1. pose proof e1. pose proof K1. destruct (nN_f (n - 1) ltac:(lia)) as [VK FK].
  assert (Q : Rabs (val dd / K) <= Rabs (val dd)). { rewrite <- step_small. pose proof (Rabs_pos (val dd / K)). nra. }
  assert (uu * (2 * M) <= M) by nra.
  destruct (fdiv_fin dd (nN (N := F) (n - 1)) Fd) as [V Fs]. { rewrite VK. lra. } { rewrite VK. apply fine. lra. }
  unfold ss. rewrite VK in V. split; [exact Fs|]. split; [exact V|]. rewrite V. apply rnd_err.
Qed.
Lemma tt_ok i : (i < n)%nat -> fin (tt_ i) = true /\ val (tt_ i) = rnd (val ss * INR i) /\
  Rabs (val (tt_ i) - val dd * INR i / K) <= 2 * (uu * Rabs (val dd)) + uu * (uu * Rabs (val dd)) + ee * K + 2 * ee /\ Rabs (val (tt_ i)) <= 3 * M + 4 * ee + ee * K + M.
Proof.
  intros Hi. destruct dd_ok as (Fd & _ & _ & D). destruct ss_ok as (Fs & _ & S). pose proof M0. pose proof u1. pose proof e1 as (E0 & E1 & E2 & E3). pose proof K1. destruct (nN_f i ltac:(lia)) as [Vi Fi].
  assert (Hk : 0 <= INR i <= K) by (split; [apply pos_INR|apply le_INR; lia]).
  assert (X : Rabs (val ss * INR i - val dd * INR i / K) <= uu * Rabs (val dd) + ee * K).
  { replace (val ss * INR i - val dd * INR i / K) with ((val ss - val dd / K) * INR i) by (field; lra). rewrite Rabs_mult, (Rabs_pos_eq (INR i)) by lra.
    apply Rle_trans with ((uu * Rabs (val dd / K) + ee) * K); [apply Rmult_le_compat; [apply Rabs_pos|lra|lra|lra]|]. rewrite Rmult_plus_distr_r, Rmult_assoc, step_small. lra. }
  assert (Y : Rabs (val dd * INR i / K) <= Rabs (val dd)).
  { replace (val dd * INR i / K) with ((val dd / K) * INR i) by (field; lra). rewrite Rabs_mult, (Rabs_pos_eq (INR i)) by lra. rewrite <- step_small. apply Rmult_le_compat_l; [apply Rabs_pos|lra]. }
  assert (Z0 : Rabs (val ss * INR i) <= Rabs (val dd) + uu * Rabs (val dd) + ee * K).
  { replace (val ss * INR i) with ((val ss * INR i - val dd * INR i / K) + val dd * INR i / K) by ring. eapply Rle_trans; [apply Rabs_triang|]. lra. }
  assert (U1 : uu * (2 * M) <= M / 1000) by nra. assert (Dm : Rabs (val dd) <= 2 * M + M / 1000 + ee) by lra. pose proof (Rabs_pos (val dd)) as D0.
  assert (U2 : 0 <= uu * Rabs (val dd) <= M / 1000 + ee / 1000 + M / 1000). { split; [apply Rmult_le_pos; lra|]. apply Rle_trans with (1 / 1000000 * (2 * M + M / 1000 + ee)); [apply Rmult_le_compat; lra|]. lra. }
  destruct (fmul_fin ss (nN (N := F) i) Fs Fi) as [V Ft]. { rewrite Vi. apply fine. lra. }
  rewrite Vi in V. unfold tt_. split; [exact Ft|]. split; [exact V|]. rewrite V. pose proof (rnd_err (val ss * INR i)) as R.
  assert (R2 : uu * Rabs (val ss * INR i) <= uu * Rabs (val dd) + uu * (uu * Rabs (val dd)) + uu * (ee * K)). { apply Rle_trans with (uu * (Rabs (val dd) + uu * Rabs (val dd) + ee * K)); [apply Rmult_le_compat_l; lra|]. lra. }
  assert (U3 : uu * (uu * Rabs (val dd)) <= uu * Rabs (val dd)). { rewrite <- (Rmult_1_l (uu * Rabs (val dd))) at 2. apply Rmult_le_compat_r; lra. }
  split.
  - replace (rnd (val ss * INR i) - val dd * INR i / K) with ((rnd (val ss * INR i) - val ss * INR i) + (val ss * INR i - val dd * INR i / K)) by ring. eapply Rle_trans; [apply Rabs_triang|]. lra.
  - replace (rnd (val ss * INR i)) with ((rnd (val ss * INR i) - val ss * INR i) + val ss * INR i) by ring. eapply Rle_trans; [apply Rabs_triang|]. lra.
Qed.
Lemma xx_ok i : (i < n)%nat -> fin (xx i) = true /\ val (xx i) = rnd (A + val (tt_ i)) /\ Rabs (val (xx i) - (A + (B - A) * INR i / K)) <= uu * (16 * M) + 4 * INR n * ee.
Proof.
  intros Hi. destruct dd_ok as (Fd & _ & De & D). destruct (tt_ok i Hi) as (Ft & _ & Te & Tb). pose proof M0. pose proof u1. pose proof e1 as (E0 & E1 & E2 & E3). pose proof K1.
  assert (Hk : 0 <= INR i <= K) by (split; [apply pos_INR|apply le_INR; lia]).
  assert (En : INR n = K + 1). { replace n with (S (n - 1)) at 1 by lia. rewrite S_INR. reflexivity. }
  assert (T1 : Rabs (A + val (tt_ i)) <= 5 * M + 4 * ee + ee * K). { eapply Rle_trans; [apply Rabs_triang|]. lra. }
  destruct (fadd_fin a (tt_ i) Fa Ft (fine (A + val (tt_ i)) ltac:(lra))) as [V Fx]. unfold xx. split; [exact Fx|]. split; [exact V|]. rewrite V.
  pose proof (rnd_err (A + val (tt_ i))) as R. assert (R2 : uu * Rabs (A + val (tt_ i)) <= 5 * (uu * M) + 4 * (uu * ee) + uu * (ee * K)). { apply Rle_trans with (uu * (5 * M + 4 * ee + ee * K)); [apply Rmult_le_compat_l; lra|]. lra. }
  assert (W : Rabs (val dd * INR i / K - (B - A) * INR i / K) <= uu * (2 * M) + ee).
  { replace (val dd * INR i / K - (B - A) * INR i / K) with ((val dd - (B - A)) * (INR i / K)) by (field; lra). rewrite Rabs_mult.
    assert (0 <= INR i / K <= 1). { split; [apply Rmult_le_pos; [lra|left; apply Rinv_0_lt_compat; lra]|]. apply Rmult_le_reg_r with K; [lra|]. replace (INR i / K * K) with (INR i) by (field; lra). lra. }
    rewrite (Rabs_pos_eq (INR i / K)) by lra. pose proof (Rabs_pos (val dd - (B - A))). nra. }
  assert (Q : uu * Rabs (val dd) <= 2 * (uu * M) + uu * M / 1000 + uu * ee). { assert (Rabs (val dd) <= 2 * M + M / 1000 + ee) by nra. apply Rle_trans with (uu * (2 * M + M / 1000 + ee)); [apply Rmult_le_compat_l; lra|]. lra. }
  assert (0 <= uu * M) by (apply Rmult_le_pos; lra). assert (0 <= uu * ee <= ee / 1000) by (split; [apply Rmult_le_pos; lra|apply Rle_trans with (1 / 1000 * ee); [apply Rmult_le_compat_r; lra|lra]]). pose proof (Rabs_pos (val dd)).
  assert (Q2 : 0 <= uu * Rabs (val dd)) by (apply Rmult_le_pos; lra). assert (Q3 : uu * (uu * Rabs (val dd)) <= uu * Rabs (val dd) / 1000) by (apply Rle_trans with (1 / 1000 * (uu * Rabs (val dd))); [apply Rmult_le_compat_r; lra|lra]).
  replace (rnd (A + val (tt_ i)) - (A + (B - A) * INR i / K)) with ((rnd (A + val (tt_ i)) - (A + val (tt_ i))) + ((val (tt_ i) - val dd * INR i / K) + (val dd * INR i / K - (B - A) * INR i / K))) by ring.
  eapply Rle_trans; [apply Rabs_triang|]. pose proof (Rabs_triang (val (tt_ i) - val dd * INR i / K) (val dd * INR i / K - (B - A) * INR i / K)). rewrite En.
  assert (EK : ee <= ee * K) by (rewrite <- (Rmult_1_r ee) at 1; apply Rmult_le_compat_l; lra). lra.
Qed.
Lemma xx_first : val (xx 0) = A.
Proof.
  destruct (tt_ok 0 ltac:(lia)) as (_ & T & _). destruct (xx_ok 0 ltac:(lia)) as (_ & X & _). rewrite X, T. change (INR 0) with 0. rewrite Rmult_0_r, rnd_0, Rplus_0_r. apply rnd_val.
Qed.
Lemma ss_sign : (A <= B -> 0 <= val ss) /\ (B <= A -> val ss <= 0).
Proof.
  destruct dd_ok as (_ & D & _). destruct ss_ok as (_ & S & _). pose proof K1. assert (0 < / K) by (apply Rinv_0_lt_compat; lra). rewrite S, D. split; intros H1.
  - rewrite <- rnd_0. apply rnd_le. apply Rmult_le_pos; [|lra]. rewrite <- rnd_0. apply rnd_le. lra.
  - rewrite <- rnd_0. apply rnd_le. assert (X : rnd (B - A) <= 0) by (rewrite <- rnd_0; apply rnd_le; lra). unfold Rdiv. nra.
Qed.
Lemma xx_mono i j : (i <= j < n)%nat -> (A <= B -> val (xx i) <= val (xx j)) /\ (B <= A -> val (xx j) <= val (xx i)).
Proof.
  intros H. destruct (tt_ok i ltac:(lia)) as (_ & Ti & _). destruct (xx_ok i ltac:(lia)) as (_ & Xi & _). destruct (tt_ok j ltac:(lia)) as (_ & Tj & _). destruct (xx_ok j ltac:(lia)) as (_ & Xj & _).
  assert (I : INR i <= INR j) by (apply le_INR; lia). destruct ss_sign as [P Q]. rewrite Xi, Xj, Ti, Tj. split; intros O; apply rnd_le, Rplus_le_compat_l, rnd_le.
  - specialize (P O). nra.
  - specialize (Q O). nra.
Qed.
Lemma linspace_f64 : exists l : Arr F, linspace (N := F) a b n = Ok l /\ length (adata l) = n /\ acols l = 0%nat /\ all_finite l /\ fcoords l 0%nat = A /\
  (forall i, (i < n)%nat -> Rabs (fcoords l i - (A + (B - A) * INR i / INR (n - 1))) <= bpow radix2 (-53) * (16 * M) + 4 * INR n * bpow radix2 (-1075)) /\
  (forall i j, (i <= j < n)%nat -> (A <= B -> fcoords l i <= fcoords l j) /\ (B <= A -> fcoords l j <= fcoords l i)).
Proof.
  destruct (fill_f n xx) as (l & E & Ll & Lc & Lf). exists l. split.
  { unfold linspace. destruct (Nat.eqb_spec n 0); [lia|]. destruct (Nat.eqb_spec n 1); [lia|]. exact E. }
  split; [exact Ll|]. split; [exact Lc|].
  assert (C : forall i, (i < n)%nat -> fcoords l i = val (xx i)). { intros i Hi. unfold fcoords. now rewrite Lf. }
  split. { unfold all_finite. rewrite Forall_forall. intros v Hv. destruct (In_nth _ _ (n0 (N := F)) Hv) as (i & Hi & <-). rewrite Lf by lia. apply xx_ok. lia. }
  split; [rewrite C by lia; apply xx_first|]. split.
  - intros i Hi. rewrite C by auto. apply xx_ok. exact Hi.
  - intros i j H. rewrite !C by lia. apply xx_mono. exact H.
Qed.
End S.

Lemma rnd_int z : (Z.abs z <= 2 ^ 53)%Z -> rnd (IZR z) = IZR z.
Proof. intros H. destruct (fofZ_small z H) as [<- _]. apply rnd_val. Qed.

Lemma rnd_unit r : Rabs r <= bpow radix2 51 -> Rabs (rnd r - r) <= 26 / 100.
Proof.
  intros H. pose proof (rnd_err r) as R. assert (uu * Rabs r <= uu * bpow radix2 51) by (apply Rmult_le_compat_l; [apply bpow_ge_0|exact H]).
  rewrite <- bpow_plus in H0. change (-53 + 51)%Z with (-2)%Z in H0. assert (bpow radix2 (-2) = 1 / 4) by (simpl; lra).
  assert (ee <= bpow radix2 (-7)) by (apply bpow_le; lia). assert (bpow radix2 (-7) = 1 / 128) by (simpl; lra). lra.
Qed.
Lemma b51 : bpow radix2 51 = 2 * bpow radix2 50. Proof. replace 51%Z with (1 + 50)%Z by reflexivity. rewrite bpow_plus. reflexivity. Qed.
Lemma unit_fin r : Rabs r <= bpow radix2 51 -> Rabs (rnd r) < bpow radix2 femax.
Proof. intros H. apply big_fin. apply Rle_trans with (1 := H). apply bpow_le. lia. Qed.

Section A.
Context (a b : f64) (Fa : fin a = true) (Fb : fin b = true).
Notation A := (val a). Notation B := (val b).
Lemma arange_empty : B <= A -> arange (N := F) a b = Ok (a_new (N := F) 0).
Proof.
  intros H. unfold arange. cbn [nltb FNum]. assert (E : Bltb a b = false). { pose proof (fltb_fin a b Fa Fb) as T. rewrite T. apply Rlt_bool_false. exact H. }
  rewrite E. reflexivity.
Qed.
Context (Ha : Rabs A <= bpow radix2 50) (Hb : Rabs B <= bpow radix2 50) (Lt : A < B).
Lemma arange_f64 : exists (l : Arr F) (n : nat), arange (N := F) a b = Ok l /\ length (adata l) = n /\ acols l = 0%nat /\ all_finite l /\
  (Zfloor (B - A) <= Z.of_nat n <= Zceil (B - A))%Z /\
  (forall i, (i < n)%nat -> Rabs (fcoords l i - (A + INR i)) <= bpow radix2 (-53) * Rabs (A + INR i) + bpow radix2 (-1075) /\ A <= fcoords l i < B) /\
  (forall i j, (i < j < n)%nat -> fcoords l i < fcoords l j).
Proof.
  pose proof b51 as E51. assert (D : 0 < B - A <= bpow radix2 51). { apply Rabs_le_inv in Ha, Hb. lra. }
  assert (D' : Rabs (B - A) <= bpow radix2 51) by (rewrite Rabs_pos_eq; lra).
  destruct (fsub_fin b a Fb Fa (unit_fin _ D')) as [V Fd].
  set (n := as_usize (N := F) (fsub b a)).
  assert (I51 : bpow radix2 51 = IZR (2 ^ 51)) by reflexivity.
  assert (R0 : 0 <= rnd (B - A) <= bpow radix2 51). { split; [rewrite <- rnd_0; apply rnd_le; lra|]. rewrite I51, <- (rnd_int (2 ^ 51)) by lia. apply rnd_le. rewrite <- I51. lra. }
  assert (Hn : Z.of_nat n = Zfloor (rnd (B - A))).
  { unfold n, as_usize. cbn [ntrunc FNum]. rewrite ftrunc_val, V, Ztrunc_floor by (auto; lra).
    assert (0 <= Zfloor (rnd (B - A)) <= 2 ^ 51)%Z. { split; [apply Zfloor_lub; simpl; lra|]. apply le_IZR. rewrite <- I51. eapply Rle_trans; [apply Zfloor_lb|]. lra. }
    rewrite Z.max_r, Z.min_r by lia. apply Z2Nat.id. lia. }
  assert (Fl : (Zfloor (B - A) <= Z.of_nat n <= Zceil (B - A))%Z).
  { assert (P : (0 <= Zfloor (B - A))%Z) by (apply Zfloor_lub; simpl; lra). assert (Q : (Zfloor (B - A) <= 2 ^ 51)%Z) by (apply le_IZR; rewrite <- I51; eapply Rle_trans; [apply Zfloor_lb|]; lra).
    assert (P2 : (Zceil (B - A) <= 2 ^ 51)%Z) by (apply Zceil_glb; rewrite <- I51; lra). assert (P3 : (0 <= Zceil (B - A))%Z) by (apply le_IZR; eapply Rle_trans; [|apply Zceil_ub]; simpl; lra).
    rewrite Hn. split.
    - apply Zfloor_lub. rewrite <- (rnd_int (Zfloor (B - A))) by lia. apply rnd_le, Zfloor_lb.
    - apply le_IZR. eapply Rle_trans; [apply Zfloor_lb|]. rewrite <- (rnd_int (Zceil (B - A))) by lia. apply rnd_le, Zceil_ub. }
  assert (Nr : INR n <= B - A + 26 / 100). { rewrite INR_IZR_INZ, Hn. eapply Rle_trans; [apply Zfloor_lb|]. pose proof (rnd_unit _ D') as X. apply Rabs_le_inv in X. lra. }
  assert (Nz : (Z.of_nat n <= 2 ^ 51)%Z). { apply le_IZR. rewrite <- I51, Hn. eapply Rle_trans; [apply Zfloor_lb|]. lra. }
  destruct (fill_f n (fun i => fadd a (nN (N := F) i))) as (l & E & Ll & Lc & Lf). exists l, n.
  assert (X : forall i, (i < n)%nat -> fin (fadd a (nN (N := F) i)) = true /\ val (fadd a (nN (N := F) i)) = rnd (A + INR i) /\ Rabs (A + INR i) <= bpow radix2 51 /\ 0 <= INR i /\ INR i + 1 <= B - A + 26 / 100).
  { intros i Hi. destruct (nN_f i ltac:(lia)) as [Vi Fi]. assert (J : INR i + 1 <= INR n) by (rewrite <- S_INR; apply le_INR; lia). pose proof (pos_INR i).
    assert (Y : Rabs (A + INR i) <= bpow radix2 51). { assert (1 <= bpow radix2 50) by (replace 1 with (bpow radix2 0) by reflexivity; apply bpow_le; lia). apply Rabs_le_inv in Ha, Hb. apply Rabs_le. lra. }
    destruct (fadd_fin a (nN (N := F) i) Fa Fi) as [Va Fs]. { rewrite Vi. apply unit_fin, Y. } rewrite Vi in Va. repeat split; auto; lra. }
  split. { rewrite <- E. unfold arange. cbn [nltb FNum]. assert (T := fltb_fin a b Fa Fb). rewrite T, Rlt_bool_true by exact Lt. reflexivity. }
  split; [exact Ll|]. split; [exact Lc|].
  assert (C : forall i, (i < n)%nat -> fcoords l i = rnd (A + INR i)). { intros i Hi. unfold fcoords. rewrite Lf by auto. apply X. exact Hi. }
  split. { unfold all_finite. rewrite Forall_forall. intros v Hv. destruct (In_nth _ _ (n0 (N := F)) Hv) as (i & Hi & <-). rewrite Lf by lia. apply X. lia. }
  split; [exact Fl|]. split.
  - intros i Hi. rewrite C by auto. destruct (X i Hi) as (_ & _ & Y & I0 & I1). split; [apply rnd_err|]. pose proof (rnd_unit _ Y) as U. apply Rabs_le_inv in U. split; [|lra].
    rewrite <- (rnd_val a) at 1. apply rnd_le. lra.
  - intros i j H. rewrite !C by lia. destruct (X i ltac:(lia)) as (_ & _ & Yi & _). destruct (X j ltac:(lia)) as (_ & _ & Yj & _). pose proof (rnd_unit _ Yi) as Ui. pose proof (rnd_unit _ Yj) as Uj. apply Rabs_le_inv in Ui, Uj.
    assert (INR i + 1 <= INR j) by (rewrite <- S_INR; apply le_INR; lia). lra.
Qed.
End A.
End L.
