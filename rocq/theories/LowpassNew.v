(** LowpassOracle::new. *)
From Coq Require Import ZArith Reals List Bool Arith Lia Lra.
From Flocq Require Import Core.
From Verif Require Import Num Res Arr ArrLemmas CuttingPlane Spec EllReal LmiSpec ExtSpec ExtDefined Lowpass LowpassSpec.
Import ListNotations.
Open Scope nat_scope.

Section Any.
Context {N : Num}.
Notation arr := (Arr N).
Lemma fill_any lo n (f : nat -> N) (a : arr) : lo <= n -> is_vec n a ->
  exists a', for_range lo n (fun i a => a_setidx a i (f i)) a = Ok a' /\ is_vec n a' /\
    forall i, vget a' i = if (lo <=? i) && (i <? n) then f i else vget a i.
Proof.
  intros Hlo Ha.
  destruct (for_range_inv (fun k (o : arr) => is_vec n o /\ forall i, vget o i = if (lo <=? i) && (i <? k) then f i else vget a i)
    lo n (fun i a => a_setidx a i (f i)) a) as (o & E & Ho & Hf).
  - exact Hlo.
  - split; [exact Ha|]. intros i. destruct (Nat.leb_spec lo i), (Nat.ltb_spec i lo); cbn; auto; lia.
  - intros i t Hi ([Lt Ct] & Ht). unfold a_setidx. rewrite wr_ok by lia. cbn [bind]. eexists. split; [reflexivity|].
    split; [split; [cbn [adata]; rewrite upd_length; auto|exact Ct]|].
    intros k. unfold vget. cbn [adata]. rewrite nth_upd by lia. destruct (Nat.eqb_spec i k) as [<-|Ne].
    + destruct (Nat.leb_spec lo i); [|lia]. destruct (Nat.ltb_spec i (S i)); [reflexivity|lia].
    + fold (vget t k). rewrite Ht. destruct (Nat.leb_spec lo k), (Nat.ltb_spec k i), (Nat.ltb_spec k (S i)); cbn; auto; lia.
  - exists o. auto.
Qed.
Lemma new_vec n : is_vec n (a_new n : arr).
Proof. split; [apply repeat_length|reflexivity]. Qed.
Lemma linspace_any (a b : N) n : 2 <= n -> exists l, linspace a b n = Ok l /\ is_vec n l /\
  forall i, i < n -> vget l i = a +! (b -! a) /! nN (n - 1) *! nN i.
Proof.
  intros Hn. unfold linspace. destruct (Nat.eqb_spec n 0); [lia|]. destruct (Nat.eqb_spec n 1); [lia|]. cbv zeta.
  destruct (fill_any 0 n (fun i => a +! (b -! a) /! nN (n - 1) *! nN i) (a_new n) ltac:(lia) (new_vec n)) as (l & E & V & H).
  exists l. split; [exact E|]. split; [exact V|]. intros i Hi. rewrite H. cbn [Nat.leb andb]. now rewrite (proj2 (Nat.ltb_lt i n)).
Qed.
Definition row_val (w : N) (j : nat) : N := if j =? 0 then n1 else n2 *! ncos (w *! nN j).
Lemma lowpass_row_ok w n (row : arr) : 0 < n -> is_vec n row -> exists r, lowpass_row w n row = Ok r /\ is_vec n r /\ forall j, j < n -> vget r j = row_val w j.
Proof.
  intros Hn [L C]. unfold lowpass_row, a_setidx at 1. rewrite wr_ok by lia. cbn [bind].
  destruct (fill_any 1 n (fun j => n2 *! ncos (w *! nN j)) (mkArr (upd (adata row) 0 n1) (arows row) (acols row)) ltac:(lia)) as (r & E & V & H).
  { split; [cbn [adata]; now rewrite upd_length|exact C]. }
  exists r. split; [exact E|]. split; [exact V|]. intros j Hj. rewrite H. unfold row_val. destruct j as [|j].
  - cbn. unfold vget. cbn [adata]. rewrite nth_upd by lia. reflexivity.
  - cbn [Nat.leb andb Nat.eqb]. now rewrite (proj2 (Nat.ltb_lt (S j) n)).
Qed.
Lemma lowpass_new_any n (wp ws lp up sp : N) : 0 < n ->
  exists o, lowpass_new n wp ws lp up sp = Ok o /\
    length (lw_spectrum o) = 15 * n /\
    (forall k, k < 15 * n -> is_vec n (nth k (lw_spectrum o) (a_new 0)) /\
       forall j, j < n -> vget (nth k (lw_spectrum o) (a_new 0)) j = row_val (n0 +! (npi -! n0) /! nN (15 * n - 1) *! nN k) j) /\
    lw_nwpass o = (as_i32 (nfloor (wp *! nN (15 * n - 1))) + 1)%Z /\ lw_nwstop o = (as_i32 (nfloor (ws *! nN (15 * n - 1))) + 1)%Z /\
    lw_lp o = lp /\ lw_up o = up /\ lw_sp o = sp /\ lw_idx1 o = (-1)%Z /\ lw_idx2 o = (lw_nwpass o - 1)%Z /\ lw_idx3 o = (lw_nwstop o - 1)%Z.
Proof.
  intros Hn. unfold lowpass_new. set (m := 15 * n). assert (Hm : 15 <= m) by (unfold m; lia).
  destruct (linspace_any n0 npi m ltac:(lia)) as (w & E & [Lw Cw] & Hw). rewrite E. cbn [bind].
  match goal with |- context [for_range 0 m ?B ?S] =>
    destruct (for_range_inv (fun k (sp : list arr) => length sp = m /\ (forall i, i < m -> is_vec n (nth i sp (a_new 0))) /\
      forall i, i < k -> forall j, j < n -> vget (nth i sp (a_new 0)) j = row_val (n0 +! (npi -! n0) /! nN (m - 1) *! nN i) j) 0 m B S) as (spec & Es & Ls & Hv & Hs) end.
  - lia.
  - split; [apply repeat_length|]. split; [|intros; lia]. intros i Hi. rewrite (nth_indep _ _ (a_new n)) by (rewrite repeat_length; exact Hi).
    rewrite nth_repeat. apply new_vec.
  - intros i t Hi (Lt & Vt & Ht). unfold a_idx. rewrite (rd_nth _ _ n0) by lia. cbn [bind]. rewrite (rd_nth _ _ (a_new 0)) by lia. cbn [bind].
    destruct (lowpass_row_ok (nth i (adata w) n0) n (nth i t (a_new 0)) Hn (Vt i ltac:(lia))) as (r & Er & Vr & Hr). rewrite Er. cbn [bind].
    rewrite wr_ok by lia. eexists. split; [reflexivity|]. split; [now rewrite upd_length|]. split.
    + intros j Hj. rewrite nth_upd by lia. destruct (Nat.eqb_spec i j); auto.
    + intros j Hj k Hk. rewrite nth_upd by lia. destruct (Nat.eqb_spec i j) as [<-|]; [|apply Ht; lia].
      rewrite Hr by exact Hk. f_equal. apply (Hw i). lia.
  - rewrite Es. cbn [bind]. rewrite (proj2 (Nat.ltb_lt 0 m)) by lia. cbn [assert]. eexists. split; [reflexivity|].
    cbn. split; [exact Ls|]. split; [intros k Hk; split; [apply Hv, Hk|apply Hs, Hk]|]. repeat split.
Qed.
Lemma lowpass_new_zero (wp ws lp up sp : N) : lowpass_new 0 wp ws lp up sp = Panic.
Proof. reflexivity. Qed.
End Any.

Open Scope R_scope.
Definition nband (m : nat) (w : R) : nat := Z.to_nat (Zfloor (w * INR (m - 1)) + 1).
Lemma floor_bounds m w : (2 <= m)%nat -> 0 <= w <= 1 -> (0 <= Zfloor (w * INR (m - 1)) <= Z.of_nat (m - 1))%Z.
Proof.
  intros Hm Hw. pose proof (pos_INR (m - 1)) as Hp. split.
  - apply Zfloor_lub. nra.
  - apply le_IZR. apply Rle_trans with (w * INR (m - 1)); [apply Zfloor_lb|]. rewrite <- INR_IZR_INZ. nra.
Qed.
Lemma band_ok m w : (2 <= m)%nat -> 0 <= w <= 1 -> band m w (nband m w) /\ ((nband m w < m)%nat <-> w < 1).
Proof.
  intros Hm Hw. pose proof (floor_bounds m w Hm Hw) as Hf. unfold nband.
  assert (Hp : 0 < INR (m - 1)) by (apply lt_0_INR; lia).
  split; [split; [lia|]|].
  - intros k Hk. split; intros H.
    + apply Rmult_le_reg_r with (INR (m - 1)); [exact Hp|]. unfold Rdiv. rewrite Rmult_assoc, Rinv_l, Rmult_1_r by lra.
      apply Rle_trans with (IZR (Zfloor (w * INR (m - 1)))); [|apply Zfloor_lb]. rewrite INR_IZR_INZ. apply IZR_le. lia.
    + assert (Z.of_nat k <= Zfloor (w * INR (m - 1)))%Z; [|lia]. apply Zfloor_lub. rewrite <- INR_IZR_INZ.
      apply Rmult_le_compat_r with (r := INR (m - 1)) in H; [|lra]. unfold Rdiv in H. rewrite Rmult_assoc, Rinv_l, Rmult_1_r in H by lra. exact H.
  - split; intros H.
    + destruct (Rlt_le_dec w 1) as [L|L]; [exact L|]. exfalso. assert (w = 1) by lra. subst w.
      rewrite Rmult_1_l in *. rewrite INR_IZR_INZ, Zfloor_IZR in H. lia.
    + assert (Zfloor (w * INR (m - 1)) < Z.of_nat (m - 1))%Z; [|lia]. apply lt_IZR. apply Rle_lt_trans with (w * INR (m - 1)); [apply Zfloor_lb|].
      rewrite <- INR_IZR_INZ. nra.
Qed.
Lemma i32_floor m w : (2 <= m)%nat -> (Z.of_nat m <= 2 ^ 31)%Z -> 0 <= w <= 1 ->
  (as_i32 (N := ENum) (nfloor (n := ENum) (nmul (n := ENum) (Fin w) (nN (m - 1)))) + 1)%Z = Z.of_nat (nband m w).
Proof.
  intros Hm H31 Hw. pose proof (floor_bounds m w Hm Hw) as Hf. rewrite nN_E. unfold as_i32, nband. cbn [nmul nfloor ntrunc ENum ext_mul ext_map].
  rewrite Ztrunc_IZR. lia.
Qed.
Lemma lowpass_new_ok n wp ws lp up sp : (0 < n)%nat -> (Z.of_nat (15 * n) <= 2 ^ 31)%Z -> 0 <= wp -> wp <= ws -> ws <= 1 ->
  exists o p q, lowpass_new (N := ENum) n (Fin wp) (Fin ws) (Fin lp) (Fin up) (Fin sp) = Ok o /\
    (0 < p <= q)%nat /\ band (15 * n) wp p /\ band (15 * n) ws q /\ ((q < 15 * n)%nat <-> ws < 1) /\
    lw_about o (lowpass_problem n p q lp up) /\ lw_sp o = Fin sp.
Proof.
  intros Hn H31 W0 W1 W2. destruct (lowpass_new_any (N := ENum) n (Fin wp) (Fin ws) (Fin lp) (Fin up) (Fin sp) Hn)
    as (o & E & L & Hr & P & Q & H1 & H2 & H3 & I1 & I2 & I3).
  rewrite i32_floor in P, Q by (auto; lia || lra).
  set (m := (15 * n)%nat) in *. set (p := nband m wp) in *. set (q := nband m ws) in *.
  assert (Hpq : (0 < p <= q)%nat).
  { unfold p, q, nband. pose proof (floor_bounds m wp ltac:(lia) ltac:(lra)). pose proof (pos_INR (m - 1)).
    assert (Zfloor (wp * INR (m - 1)) <= Zfloor (ws * INR (m - 1)))%Z by (apply Zfloor_le; nra). lia. }
  destruct (band_ok m wp ltac:(lia) ltac:(lra)) as [Bp _]. destruct (band_ok m ws ltac:(lia) ltac:(lra)) as [Bq Bq2]. fold p in Bp. fold q in Bq, Bq2.
  pose proof (proj1 Bq) as Hq.
  exists o, p, q. split; [exact E|]. split; [exact Hpq|]. split; [exact Bp|]. split; [exact Bq|]. split; [exact Bq2|]. split; [|exact H3].
  split; [|split; [|split; [exact P|split; [exact Q|split; [exact H1|exact H2]]]]].
  - unfold lw_ok. rewrite L, I1, I2, I3, P, Q. cbn [f_n lowpass_problem]. split; [exact Hn|]. split; [lia|]. split; [|lia].
    intros r Hin. apply (In_nth _ _ (a_new 0)) in Hin as (k & Hk & <-). apply Hr. lia.
  - exists (map (fun k => mkArr (N := RNum) (map (fun j => f_A (lowpass_problem n p q lp up) k j) (seq 0 n)) (arows (nth k (lw_spectrum o) (a_new 0))) 0) (seq 0 m)).
    split; [|split; [now rewrite map_length, seq_length|]].
    + apply nth_ext with (a_new 0) (a_new 0); [now rewrite !map_length, seq_length|]. rewrite L. intros k Hk.
      rewrite map_map. rewrite (nth_map_seq _ m k) by exact Hk. destruct (Hr k Hk) as [[V1 V2] Hv].
      apply (fin_arr_vec n); cbn [adata arows acols]; auto; [now rewrite map_length, seq_length|].
      intros j Hj. rewrite Hv by exact Hj. unfold vget. cbn [adata]. rewrite nth_map_seq by exact Hj. unfold row_val, lowpass_problem. cbn [f_A].
      destruct (j =? 0)%nat; [reflexivity|]. unfold n0, n2. rewrite !nN_E. cbn [npi nZ nadd nsub nmul ndiv ncos ENum].
      rewrite ext_sub_fin, ext_div_fin by (apply not_0_INR; lia). cbn [ext_mul ext_add ext_map]. fold m. do 3 f_equal. unfold Rdiv. ring.
    + intros k j Hk Hj. cbn [f_m f_n lowpass_problem] in Hk, Hj. fold m in Hk. rewrite nth_map_seq by exact Hk. unfold xvec. cbn [adata]. rewrite nth_map_seq by exact Hj. reflexivity.
Qed.
