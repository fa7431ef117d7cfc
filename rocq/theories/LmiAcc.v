(** What the LMI oracle's answer means in binary64 (C106). *)
From Coq Require Import ZArith Reals Lra Lia Bool Psatz Arith List.
From Flocq Require Import Core IEEE754.BinarySingleNaN.
From Verif Require Import Num Res Arr CuttingPlane ArrLemmas StableLemmas Spec RealLin EllSpec StableSpec Ldlt LdltLemmas LdltSpec LdltProofs FloatLemmas FloatErr
  LdltErr LdltRej LdltAccSpec LdltAcc Lmi LmiSpec LmiProofs AccSpec StepAccSpec LmiErr LmiAccSpec.
Local Open Scope R_scope.

#[local] Opaque fadd fsub fmul fdiv fsqrt fofZ.
Lemma rnd_le_bpow r e : (e < femax)%Z -> (-1074 <= e)%Z -> Rabs r <= bpow radix2 e -> Rabs (rnd r) <= bpow radix2 e.
Proof. intros He He' Hr. apply abs_round_le_generic; [typeclasses eauto|typeclasses eauto|apply bpow_generic; auto|auto]. Qed.
Section Acc.
Variable lm : Libm.
Notation F := (FNum lm).

(** ** Differences of products *)
Section Sub.
Variables (z : f64) (x y : nat -> f64) (M : R).
Let p k := val (x k) * val (y k).
Lemma subs_ok k : fin z = true -> (forall q, (q < k)%nat -> fin (x q) = true /\ fin (y q) = true) -> (Z.of_nat k <= 2 ^ 20)%Z -> M <= bpow radix2 400 ->
  Rabs (val z) + Rsum k (fun q => Rabs (p q)) <= M ->
  fin (subacc (N := F) z (fun q => fmul (x q) (y q)) k : f64) = true /\
  Rabs (val (subacc (N := F) z (fun q => fmul (x q) (y q)) k : f64) - (val z - Rsum k p)) <=
    3 * INR k * uu * (Rabs (val z) + Rsum k (fun q => Rabs (p q))) + 4 * INR k * ee.
Proof.
  pose proof (bpow_gt_0 radix2 (-53)) as U. pose proof (bpow_gt_0 radix2 (-1075)) as E.
  intros Fz. induction k; intros Fx Hk HM Hb.
  - cbn [subacc Rsum INR]. split; [exact Fz|]. replace (val z - (val z - 0)) with 0 by ring. rewrite Rabs_R0. lra.
  - cbn [Rsum] in Hb. pose proof (Rabs_pos (p k)) as pk0.
    destruct (IHk ltac:(intros; apply Fx; lia) ltac:(lia) HM ltac:(lra)) as [I1 I2]. destruct (Fx k ltac:(lia)) as [X1 X2]. clear IHk.
    set (f := fun q => fmul (x q) (y q)) in *. change (subacc (N := F) z f (S k)) with (fsub (subacc (N := F) z f k) (fmul (x k) (y k))). cbn [Rsum].
    set (S := val (subacc (N := F) z f k : f64)) in *. set (P := val z - Rsum k p) in *. set (Q := Rabs (val z) + Rsum k (fun q => Rabs (p q))) in *.
    assert (HQ : Rabs P <= Q). { unfold P, Q. eapply Rle_trans; [apply Rabs_triang|]. rewrite Rabs_Ropp. pose proof (Rabs_Rsum k p). lra. }
    assert (K8 : 8 * INR k * uu <= 1).
    { assert (INR k <= bpow radix2 20). { rewrite INR_IZR_INZ. change (bpow radix2 20) with (IZR (2 ^ 20)). apply IZR_le. lia. }
      assert (INR k * uu <= bpow radix2 (-33)). { change (-33)%Z with (20 + -53)%Z. rewrite bpow_plus. apply Rmult_le_compat_r; lra. }
      assert (bpow radix2 (-33) <= bpow radix2 (-3)) by (apply bpow_le; lia). change (bpow radix2 (-3)) with (/ 8) in *. lra. }
    pose proof (pos_INR k) as Pk. set (r := rnd (p k)) in *. set (zk := Rabs (p k)) in *. pose proof (Rabs_pos P) as P0. assert (Q0 : 0 <= Q) by lra.
    assert (Hb' : Q + zk <= M) by (unfold Q; lra).
    assert (U1 : uu <= 1 / 8). { replace (1 / 8) with (bpow radix2 (-3)) by (cbn; lra). apply bpow_le; lia. }
    assert (M4 : bpow radix2 403 = 8 * bpow radix2 400) by (change 403%Z with (3 + 400)%Z; rewrite bpow_plus; reflexivity).
    assert (M0 : 1 <= bpow radix2 400) by (apply (bpow_le radix2 0 400); lia).
    pose proof (rnd_err (p k)) as R1. fold r in R1.
    assert (A1 : Rabs r <= zk + uu * zk + ee). { replace r with (p k + (r - p k)) by ring. eapply Rle_trans; [apply Rabs_triang|]. fold zk. fold zk in R1. lra. }
    assert (A2 : Rabs S <= Q + (3 * INR k * uu * Q + 4 * INR k * ee)). { replace S with (P + (S - P)) by ring. eapply Rle_trans; [apply Rabs_triang|]. lra. }
    assert (B1 : 3 * INR k * uu <= 1) by lra.
    assert (B1' : 3 * INR k * uu * Q <= Q). { rewrite <- (Rmult_1_l Q) at 2. apply Rmult_le_compat_r; auto. }
    assert (B2 : uu * (3 * INR k * uu * Q) <= uu * Q) by (apply Rmult_le_compat_l; lra).
    assert (B3 : uu * (uu * zk) <= uu * zk * (1 / 8)). { replace (uu * zk * (1 / 8)) with (uu * (1 / 8 * zk)) by ring. apply Rmult_le_compat_l; [lra|]. apply Rmult_le_compat_r; auto. }
    assert (B3' : uu * zk <= zk) by (rewrite <- (Rmult_1_l zk) at 2; apply Rmult_le_compat_r; lra).
    assert (B4 : uu * (4 * INR k * ee) <= ee). { replace (uu * (4 * INR k * ee)) with (4 * INR k * uu * ee) by ring. rewrite <- (Rmult_1_l ee) at 2. apply Rmult_le_compat_r; lra. }
    assert (B5 : uu * ee <= ee * (1 / 8)) by (rewrite Rmult_comm; apply Rmult_le_compat_l; lra).
    assert (B6 : 4 * INR k * ee <= 1).
    { assert (INR k <= bpow radix2 20). { rewrite INR_IZR_INZ. change (bpow radix2 20) with (IZR (2 ^ 20)). apply IZR_le. lia. }
      assert (INR k * ee <= bpow radix2 (-1055)). { change (-1055)%Z with (20 + -1075)%Z. rewrite bpow_plus. apply Rmult_le_compat_r; lra. }
      assert (bpow radix2 (-1055) <= bpow radix2 (-3)) by (apply bpow_le; lia). change (bpow radix2 (-3)) with (/ 8) in *. lra. }
    assert (B7 : ee <= 1) by (apply (bpow_le radix2 (-1075) 0); lia).
    assert (zM : zk <= bpow radix2 400) by (clear - Hb' HM Q0; lra).
    destruct (fmul_fin (x k) (y k) X1 X2) as [V1 F1]. { fold (p k). fold r. eapply Rle_lt_trans; [apply (rnd_le_bpow _ 400); [reflexivity|lia|exact zM]|apply bpow_lt; reflexivity]. }
    fold (p k) in V1. fold r in V1.
    assert (A3 : Rabs (S - r) <= Rabs S + Rabs r) by (unfold Rminus; eapply Rle_trans; [apply Rabs_triang|]; rewrite Rabs_Ropp; lra).
    assert (A5 : Rabs (S - r) <= bpow radix2 403) by (rewrite M4; clear - A1 A2 A3 B1' B3' B6 B7 M0 Hb' HM Q0 pk0; lra).
    destruct (fsub_fin (subacc (N := F) z f k) (fmul (x k) (y k)) I1 F1) as [V2 F2]. { rewrite V1. fold S. eapply Rle_lt_trans; [apply (rnd_le_bpow _ 403); [reflexivity|lia|exact A5]|apply bpow_lt; reflexivity]. }
    split; [exact F2|]. rewrite V2, V1. fold S. rewrite S_INR.
    pose proof (rnd_err (S - r)) as R2.
    assert (A4 : uu * Rabs (S - r) <= uu * (Q + (3 * INR k * uu * Q + 4 * INR k * ee) + (zk + uu * zk + ee))) by (apply Rmult_le_compat_l; lra).
    replace (rnd (S - r) - (val z - (Rsum k p + p k))) with ((rnd (S - r) - (S - r)) + ((S - P) + - (r - p k))) by (unfold P; ring).
    eapply Rle_trans; [apply Rabs_triang|]. eapply Rle_trans; [apply Rplus_le_compat_l; apply Rabs_triang|]. rewrite Rabs_Ropp.
    assert (C1 : 0 <= INR k * (uu * zk)) by (apply Rmult_le_pos; [lra|apply Rmult_le_pos; lra]).
    assert (C2 : 0 <= uu * Q) by (apply Rmult_le_pos; lra). assert (C3 : 0 <= uu * zk) by (apply Rmult_le_pos; lra).
    fold zk in R1. replace (Rabs (val z) + (Rsum k (fun q => Rabs (p q)) + zk)) with (Q + zk) by (unfold Q; ring).
    clear - I2 R1 R2 A4 B2 B3 B4 B5 C1 C2 C3 E. lra.
Qed.
End Sub.

(** ** The form of a matrix at the witness *)
Lemma for_range_accum lo k (body : nat -> num F -> res (num F)) (f : nat -> num F) z : (forall i s, (i < k)%nat -> body (lo + i)%nat s = Ok (nadd (n := F) s (f i))) ->
  for_range lo (lo + k) body z = Ok (accum (N := F) z f k).
Proof.
  intros H. destruct (for_range_inv (fun i (v : num F) => v = accum (N := F) z f (i - lo)) lo (lo + k) body z) as (v & E & Hv).
  - lia.
  - now rewrite Nat.sub_diag.
  - intros i v Hi Hv. pose proof (H (i - lo)%nat v ltac:(lia)) as Hb. replace (lo + (i - lo))%nat with i in Hb by lia. eexists. split; [exact Hb|]. rewrite Nat.sub_succ_l by lia. cbn [accum]. now rewrite Hv.
  - rewrite E, Hv. do 2 f_equal. lia.
Qed.
Lemma accum_split z (f : nat -> num F) a b : accum (N := F) z f (a + b) = accum (N := F) (accum (N := F) z f a) (fun i => f (a + i)%nat) b.
Proof. induction b; [now rewrite Nat.add_0_r|]. rewrite Nat.add_succ_r. cbn [accum]. now rewrite IHb. Qed.
Lemma accum_nest (f : nat -> nat -> num F) m k : (0 < k)%nat -> forall z,
  accum (N := F) z (fun q => f (q / k)%nat (q mod k)%nat) (m * k) =
  nat_rect (fun _ => num F) z (fun i s => accum (N := F) s (f i) k) m.
Proof.
  intros Hk z. induction m; [reflexivity|]. cbn [nat_rect]. rewrite <- IHm. replace (S m * k)%nat with (m * k + k)%nat by lia. rewrite accum_split.
  apply accum_ext. intros i Hi. rewrite (Nat.add_comm (m * k)). rewrite Nat.div_add, Nat.mod_add, Nat.div_small, Nat.mod_small by lia. reflexivity.
Qed.
Lemma Rsum_split (f : nat -> R) a b : Rsum (a + b) f = Rsum a f + Rsum b (fun i => f (a + i)%nat).
Proof. induction b; [rewrite Nat.add_0_r; cbn; ring|]. rewrite Nat.add_succ_r. cbn [Rsum]. rewrite IHb. ring. Qed.
Lemma Rsum_nest (f : nat -> nat -> R) m k : (0 < k)%nat -> Rsum (m * k) (fun q => f (q / k)%nat (q mod k)%nat) = Rsum m (fun i => Rsum k (f i)).
Proof.
  intros Hk. induction m; [reflexivity|]. cbn [Rsum]. rewrite <- IHm. replace (S m * k)%nat with (m * k + k)%nat by lia. rewrite Rsum_split. f_equal.
  apply Rsum_ext. intros i Hi. rewrite (Nat.add_comm (m * k)). rewrite Nat.div_add, Nat.mod_add, Nat.div_small, Nat.mod_small by lia. reflexivity.
Qed.
Lemma sym_quad_f64 n (l : LDLT F) (A : Arr F) m : square n A -> length (adata (l_wit l)) = n -> l_pos l = (0, m)%nat -> (0 < m <= n)%nat ->
  ldlt_sym_quad (N := F) l A = Ok (accum (N := F) n0 (fun q =>
    fmul (fmul (vget (l_wit l) (q / m)) (nth (q / m * n + q mod m) (adata A) n0)) (vget (l_wit l) (q mod m))) (m * m)).
Proof.
  intros (LA & RA & CA) Lw Hpos Hm. unfold ldlt_sym_quad. rewrite Hpos.
  set (f := fun i j => fmul (fmul (vget (l_wit l) i) (nth (i * n + j) (adata A) n0)) (vget (l_wit l) j)).
  change (accum (N := F) n0 _ (m * m)) with (accum (N := F) n0 (fun q => f (q / m)%nat (q mod m)%nat) (m * m)). rewrite accum_nest by lia.
  match goal with |- for_range 0 m ?body ?z = _ =>
    destruct (for_range_inv (fun i (v : num F) => v = nat_rect (fun _ => num F) z (fun i s => accum (N := F) s (f i) m) i) 0 m body z) as (v & E & Hv) end.
  - lia.
  - reflexivity.
  - intros i v Hi Hv. exists (accum (N := F) v (f i) m). split; [|cbn [nat_rect]; now rewrite Hv]. apply (for_range_accum 0 m). intros j s Hj. cbn [plus].
    unfold a_idx, a_get. rewrite CA. rewrite (rd_nth _ i n0) by (rewrite Lw; lia). cbn [bind].
    rewrite (rd_nth _ _ n0) by (rewrite LA; apply flat_lt; lia). cbn [bind]. rewrite (rd_nth _ j n0) by (rewrite Lw; lia). reflexivity.
  - now rewrite E, Hv.
Qed.
(** ... is accurate *)
Lemma sym_quad_err n (l : LDLT F) (A : Arr F) m (q : num F) : square n A -> length (adata (l_wit l)) = n -> l_pos l = (0, m)%nat -> (0 < m <= n)%nat -> (Z.of_nat n <= 2 ^ 20)%Z ->
  ldlt_sym_quad (N := F) l A = Ok q -> fin (q : f64) = true ->
  (forall i, (i < m)%nat -> fin (vget (l_wit l) i : f64) = true) /\
  let v i := if (i <? m)%nat then val (vget (l_wit l) i : f64) else 0 in
  Rabs (val (q : f64) - quad n (fentry n A) v) <= 5 * (INR n * INR n) * uu * Rsum n (fun i => Rsum n (fun j => Rabs (v i) * Rabs (fentry n A i j) * Rabs (v j))) +
    ee * (4 * (INR n * INR n) + 2 * INR n * Rsum n (fun i => Rabs (v i))).
Proof.
  intros HA Lw Hpos Hm Hn E Fq. rewrite (sym_quad_f64 n l A m HA Lw Hpos Hm) in E. injection E as <-.
  set (wv := fun i => vget (l_wit l) i : f64) in *. set (av := fun i j => nth (i * n + j) (adata A) (n0 (N := F)) : f64).
  set (X := fun q => fmul (wv (q / m)%nat) (av (q / m)%nat (q mod m)%nat)). set (Y := fun q => wv (q mod m)%nat).
  change (fin (accum (N := F) n0 (fun q => fmul (X q) (Y q)) (m * m) : f64) = true) in Fq.
  pose proof (accum_fin lm X Y (m * m) Fq) as FA.
  assert (FX : forall i j, (i < m)%nat -> (j < m)%nat -> fin (fmul (wv i) (av i j)) = true /\ fin (wv j) = true).
  { intros i j Hi Hj. destruct (FA (j + i * m)%nat ltac:(nia)) as (F1 & F2 & _). unfold X, Y in F1, F2. rewrite Nat.div_add, Nat.mod_add, Nat.div_small, Nat.mod_small in F1 by lia.
    rewrite Nat.mod_add, Nat.mod_small in F2 by lia. auto. }
  split. { intros i Hi. apply (FX 0%nat i); lia. }
  intros v. pose proof (bpow_gt_0 radix2 (-53)) as U. pose proof (bpow_gt_0 radix2 (-1075)) as Ep.
  assert (nR : INR m <= INR n /\ 1 <= INR m). { split; [apply le_INR; lia|apply (le_INR 1); lia]. } destruct nR as [mn m1].
  assert (m2 : INR (m * m) <= INR n * INR n). { rewrite mult_INR. apply Rmult_le_compat; lra. }
  assert (n2 : INR n * INR n <= bpow radix2 40).
  { assert (INR n <= bpow radix2 20) by (rewrite INR_IZR_INZ; change (bpow radix2 20) with (IZR (2 ^ 20)); now apply IZR_le). change 40%Z with (20 + 20)%Z. rewrite bpow_plus. apply Rmult_le_compat; lra. }
  assert (n2u : INR n * INR n * uu <= / 8192). { change (/ 8192) with (bpow radix2 (40 + -53)). rewrite bpow_plus. apply Rmult_le_compat_r; lra. }
  assert (m2u : INR (m * m) * uu <= INR n * INR n * uu) by (apply Rmult_le_compat_r; lra).
  pose proof (accum_err lm X Y (m * m) Fq ltac:(lra)) as AE.
  set (S := val (accum (N := F) n0 (fun q => fmul (X q) (Y q)) (m * m) : f64)) in *. change (Rabs (S - quad n (fentry n A) v) <= 5 * (INR n * INR n) * uu * Rsum n (fun i => Rsum n (fun j => Rabs (v i) * Rabs (fentry n A i j) * Rabs (v j))) +
    ee * (4 * (INR n * INR n) + 2 * INR n * Rsum n (fun i => Rabs (v i)))).
  set (h := fun i j => val (fmul (wv i) (av i j)) * val (wv j)).
  assert (E1 : Rsum (m * m) (fun k => val (X k) * val (Y k)) = Rsum m (fun i => Rsum m (h i))) by (rewrite <- (Rsum_nest h) by lia; reflexivity).
  assert (E2 : Rsum (m * m) (fun k => Rabs (val (X k) * val (Y k))) = Rsum m (fun i => Rsum m (fun j => Rabs (h i j)))) by (rewrite <- (Rsum_nest (fun i j => Rabs (h i j))) by lia; reflexivity).
  rewrite E1, E2 in AE.
  set (H := Rsum m (fun i => Rsum m (fun j => Rabs (v i) * Rabs (fentry n A i j) * Rabs (v j)))).
  set (B := Rsum m (fun i => Rabs (v i))).
  assert (vz : forall i, (m <= i < n)%nat -> v i = 0) by (intros i Hi; unfold v; now rewrite (proj2 (Nat.ltb_ge i m)) by lia).
  assert (vw : forall i, (i < m)%nat -> v i = val (wv i)) by (intros i Hi; unfold v; now rewrite (proj2 (Nat.ltb_lt i m)) by lia).
  rewrite (quad_block_zero n m) by (auto; lia).
  rewrite (Rsum_trunc n m (fun i => Rsum n (fun j => Rabs (v i) * Rabs (fentry n A i j) * Rabs (v j)))) by (try lia; intros i Hi; apply Rsum_zero; intros j Hj; rewrite (vz i) by auto; rewrite Rabs_R0; ring).
  rewrite (Rsum_ext m _ (fun i => Rsum m (fun j => Rabs (v i) * Rabs (fentry n A i j) * Rabs (v j)))) by (intros i Hi; apply Rsum_trunc; [lia|]; intros j Hj; rewrite (vz j) by auto; rewrite Rabs_R0; ring).
  rewrite (Rsum_trunc n m (fun i => Rabs (v i))) by (try lia; intros i Hi; rewrite (vz i) by auto; apply Rabs_R0). fold H B.
  (* the products *)
  assert (hd : forall i j, (i < m)%nat -> (j < m)%nat -> Rabs (h i j - v i * fentry n A i j * v j) <= uu * (Rabs (v i) * Rabs (fentry n A i j) * Rabs (v j)) + ee * Rabs (v j)).
  { intros i j Hi Hj. destruct (FX i j Hi Hj) as [F1 F2]. apply fmul_inv in F1. destruct F1 as (_ & _ & V). unfold h. rewrite V. rewrite !vw by auto. change (fentry n A i j) with (val (av i j)).
    pose proof (rnd_err (val (wv i) * val (av i j))) as R. rewrite <- Rmult_minus_distr_r, Rabs_mult.
    apply Rle_trans with ((uu * Rabs (val (wv i) * val (av i j)) + ee) * Rabs (val (wv j))); [apply Rmult_le_compat_r; [apply Rabs_pos|exact R]|]. rewrite Rabs_mult. lra. }
  assert (D1 : Rabs (Rsum m (fun i => Rsum m (h i)) - quad m (fentry n A) v) <= uu * H + ee * (INR n * B)).
  { assert (EQ : quad m (fentry n A) v = Rsum m (fun i => Rsum m (fun j => v i * fentry n A i j * v j))).
    { unfold quad, dot, mulmv. apply Rsum_ext. intros i Hi. rewrite <- Rsum_scal. apply Rsum_ext. intros. ring. }
    rewrite EQ, <- Rsum_minus. eapply Rle_trans; [apply Rabs_Rsum|].
    apply Rle_trans with (Rsum m (fun i => Rsum m (fun j => uu * (Rabs (v i) * Rabs (fentry n A i j) * Rabs (v j)) + ee * Rabs (v j)))).
    - apply Rsum_le. intros i Hi. rewrite <- Rsum_minus. eapply Rle_trans; [apply Rabs_Rsum|]. apply Rsum_le. intros j Hj. auto.
    - rewrite (Rsum_ext m _ (fun i => uu * Rsum m (fun j => Rabs (v i) * Rabs (fentry n A i j) * Rabs (v j)) + ee * B)) by (intros i Hi; rewrite Rsum_plus, !Rsum_scal; reflexivity).
      rewrite Rsum_plus, Rsum_scal, Rsum_const. fold H. apply Rplus_le_compat_l. rewrite <- Rmult_assoc, (Rmult_comm (INR m)), Rmult_assoc. apply Rmult_le_compat_l; [lra|]. apply Rmult_le_compat_r; [apply Rsum_nonneg; intros; apply Rabs_pos|lra]. }
  assert (D2 : Rsum m (fun i => Rsum m (fun j => Rabs (h i j))) <= 5 / 4 * H + ee * (INR n * B)).
  { apply Rle_trans with (Rsum m (fun i => Rsum m (fun j => 5 / 4 * (Rabs (v i) * Rabs (fentry n A i j) * Rabs (v j)) + ee * Rabs (v j)))).
    - apply Rsum_le. intros i Hi. apply Rsum_le. intros j Hj. pose proof (hd i j Hi Hj) as K. replace (h i j) with (v i * fentry n A i j * v j + (h i j - v i * fentry n A i j * v j)) by ring.
      eapply Rle_trans; [apply Rabs_triang|]. rewrite !Rabs_mult. set (t := Rabs (v i) * Rabs (fentry n A i j) * Rabs (v j)) in *. assert (t0 : 0 <= t) by (repeat apply Rmult_le_pos; apply Rabs_pos).
      assert (uu * t <= / 4 * t). { apply Rmult_le_compat_r; auto. apply (bpow_le radix2 (-53) (-2)). lia. } lra.
    - rewrite (Rsum_ext m _ (fun i => 5 / 4 * Rsum m (fun j => Rabs (v i) * Rabs (fentry n A i j) * Rabs (v j)) + ee * B)) by (intros i Hi; rewrite Rsum_plus, !Rsum_scal; reflexivity).
      rewrite Rsum_plus, Rsum_scal, Rsum_const. fold H. apply Rplus_le_compat_l. rewrite <- Rmult_assoc, (Rmult_comm (INR m)), Rmult_assoc. apply Rmult_le_compat_l; [lra|]. apply Rmult_le_compat_r; [apply Rsum_nonneg; intros; apply Rabs_pos|lra]. }
  assert (H0 : 0 <= H) by (apply Rsum_nonneg; intros i Hi; apply Rsum_nonneg; intros j Hj; repeat apply Rmult_le_pos; apply Rabs_pos).
  assert (B0 : 0 <= B) by (apply Rsum_nonneg; intros; apply Rabs_pos).
  replace (S - quad m (fentry n A) v) with ((S - Rsum m (fun i => Rsum m (h i))) + (Rsum m (fun i => Rsum m (h i)) - quad m (fentry n A) v)) by ring.
  eapply Rle_trans; [apply Rabs_triang|]. set (N := INR n * INR n) in *. set (N' := INR (m * m)) in *. assert (N0 : 0 <= N') by apply pos_INR.
  assert (nB : 0 <= ee * (INR n * B)) by (apply Rmult_le_pos; [lra|apply Rmult_le_pos; lra]).
  assert (G1 : 3 * N' * uu * Rsum m (fun i => Rsum m (fun j => Rabs (h i j))) <= 3 * (N * uu) * (5 / 4 * H + ee * (INR n * B))).
  { apply Rmult_le_compat; [apply Rmult_le_pos; lra| |lra|exact D2]. apply Rsum_nonneg; intros i Hi; apply Rsum_nonneg; intros; apply Rabs_pos. }
  assert (G2 : 3 * (N * uu) * (ee * (INR n * B)) <= 1 * (ee * (INR n * B))) by (apply Rmult_le_compat_r; lra).
  assert (G3 : N' * ee <= N * ee) by (apply Rmult_le_compat_r; lra).
  assert (G4 : uu * H <= N * uu * H). { apply Rmult_le_compat_r; auto. rewrite <- (Rmult_1_l uu) at 1. apply Rmult_le_compat_r; [lra|]. unfold N. rewrite <- (Rmult_1_l 1). apply Rmult_le_compat; lra. }
  assert (G5 : 0 <= N * uu * H) by (apply Rmult_le_pos; [apply Rmult_le_pos; [unfold N; apply Rle_0_sqr|lra]|exact H0]). clear - AE D1 G1 G2 G3 G4 G5. lra.
Qed.
End Acc.
