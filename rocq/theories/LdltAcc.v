(** The LDL' factorisation in binary64: the computed decision is right up to a
    relative change of the diagonal (C99). *)
From Coq Require Import ZArith Reals Lra Lia Bool Psatz Arith List.
From Flocq Require Import Core IEEE754.BinarySingleNaN.
From Verif Require Import Num Res Arr ArrLemmas Spec RealLin Ldlt LdltLemmas LdltSpec LdltProofs FloatLemmas FloatErr LdltErr LdltRej LdltAccSpec.
Local Open Scope R_scope.

#[local] Opaque fadd fsub fmul fdiv fsqrt fofZ.
Section Acc.
Variable lm : Libm.
Notation F := (FNum lm).
Variables (n : nat) (G : nat -> nat -> f64) (st : list (num F)).
Hypothesis (Hn : (1 <= n)%nat) (Hz : (Z.of_nat n <= 2 ^ 26)%Z).
Let g a b : f64 := mget (N := F) n st a b.
Let A : mtx := fun i j => val (G i j).
Let L : mtx := fun i j => val (g i j).
Let T : mtx := fun i j => val (g i j).
Let D : vec := fun i => val (g i i).
Lemma zero_val : val (n0 (N := F) : f64) = 0.
Proof. exact (proj1 (fofZ_small 0 ltac:(lia))). Qed.
Lemma zero_fin : fin (n0 (N := F) : f64) = true.
Proof. exact (proj2 (fofZ_small 0 ltac:(lia))). Qed.
Lemma nuu : 8 * INR n * uu <= 1 /\ INR n * uu <= 1 / 1000.
Proof.
  assert (N : INR n <= bpow radix2 26). { rewrite INR_IZR_INZ. change (bpow radix2 26) with (IZR (2 ^ 26)). now apply IZR_le. }
  pose proof (bpow_gt_0 radix2 (-53)) as U. assert (K : INR n * uu <= bpow radix2 (-27)). { change (-27)%Z with (26 + -53)%Z. rewrite bpow_plus. apply Rmult_le_compat_r; lra. }
  assert (bpow radix2 (-27) <= bpow radix2 (-10)) by (apply bpow_le; lia). change (bpow radix2 (-10)) with (/ 1024) in *. lra.
Qed.
Lemma juu j : (j <= n)%nat -> 8 * INR j * uu <= 1.
Proof. intros Hj. pose proof nuu as [H _]. apply le_INR in Hj. pose proof (bpow_gt_0 radix2 (-53)). assert (INR j * uu <= INR n * uu) by (apply Rmult_le_compat_r; lra). lra. Qed.

Lemma piv_fin i j : fin (piv (N := F) n 0 G st i j : f64) = true ->
  fin (G i j) = true /\ (forall k, (k < j)%nat -> fin (g i k) = true /\ fin (g k j) = true).
Proof.
  unfold piv. destruct (Nat.eqb_spec j 0) as [->|Hj]; [intros H; split; [exact H|intros; lia]|].
  intros H. change (fin (fsub (G i j) (accum (N := F) n0 (fun k => fmul (g i (0 + k)) (g (0 + k)%nat j)) (j - 0))) = true) in H.
  apply fsub_inv in H. destruct H as (H1 & H2 & _). split; auto. intros k Hk.
  destruct (accum_fin lm (fun k => g i (0 + k)%nat) (fun k => g (0 + k)%nat j) (j - 0) H2 k ltac:(lia)) as (K1 & K2 & _). auto.
Qed.
Lemma piv_val i j : (j <= n)%nat -> fin (piv (N := F) n 0 G st i j : f64) = true ->
  let v := val (piv (N := F) n 0 G st i j : f64) in
  Rabs (v - (A i j - Rsum j (fun m => L i m * T m j))) <= uu * Rabs v + 3 * INR j * uu * Rsum j (fun m => Rabs (L i m * T m j)) + (4 * INR j + 1) * ee.
Proof.
  intros Hjn H v. pose proof (bpow_gt_0 radix2 (-53)) as U. pose proof (bpow_gt_0 radix2 (-1075)) as E. pose proof (Rabs_pos v) as V0. pose proof (pos_INR j) as J0.
  assert (B0 : 0 <= Rsum j (fun m => Rabs (L i m * T m j))) by (apply Rsum_nonneg; intros; apply Rabs_pos).
  unfold v. unfold piv in *. destruct (Nat.eqb_spec j 0) as [->|Hj].
  - cbn [Rsum INR]. unfold A. replace (val (G i 0%nat) - (val (G i 0%nat) - 0)) with 0 by ring. rewrite Rabs_R0.
    assert (0 <= uu * Rabs (val (G i 0%nat))) by (apply Rmult_le_pos; [lra|apply Rabs_pos]). lra.
  - change (fin (fsub (G i j) (accum (N := F) n0 (fun k => fmul (g i (0 + k)) (g (0 + k)%nat j)) (j - 0))) = true) in H.
    change (nsub (n := F) (G i j) (accum (N := F) n0 (fun k => nmul (n := F) (mget n st i (0 + k)) (mget n st (0 + k) j)) (j - 0)))
      with (fsub (G i j) (accum (N := F) n0 (fun k => fmul (g i (0 + k)) (g (0 + k)%nat j)) (j - 0))) in *.
    apply fsub_inv in H. destruct H as (H1 & H2 & EV).
    pose proof (accum_err lm (fun k => g i (0 + k)%nat) (fun k => g (0 + k)%nat j) (j - 0) H2) as AE. rewrite Nat.sub_0_r in *. cbn [plus] in *.
    specialize (AE (juu j Hjn)).
    change (Rsum j (fun k => val (g i k) * val (g k j))) with (Rsum j (fun m => L i m * T m j)) in AE.
    change (Rsum j (fun k => Rabs (val (g i k) * val (g k j)))) with (Rsum j (fun m => Rabs (L i m * T m j))) in AE.
    rewrite EV. fold (A i j). set (S := val (accum (N := F) n0 (fun k => fmul (g i k) (g k j)) j : f64)) in *.
    pose proof (rnd_err_r (A i j - S)) as R. set (Q := Rsum j (fun m => L i m * T m j)) in *. set (B := Rsum j (fun m => Rabs (L i m * T m j))) in *.
    replace (rnd (A i j - S) - (A i j - Q)) with ((rnd (A i j - S) - (A i j - S)) + - (S - Q)) by ring.
    eapply Rle_trans; [apply Rabs_triang|]. rewrite Rabs_Ropp. lra.
Qed.

(** a row with finite pivot, after rows with positive finite pivots *)
Lemma row_acc i : (i < n)%nat -> row_ok (N := F) n 0 G st i -> fin (g i i) = true -> (forall k, (k < i)%nat -> 0 < D k) ->
  row_err A L T D uu ee i /\ D i <= A i i /\ fin (G i i) = true.
Proof.
  intros Hi [R1 R2] Fd Pd. fold (g i i) in R2.
  assert (Fp : fin (piv (N := F) n 0 G st i i : f64) = true) by (rewrite <- R2; exact Fd).
  destruct (piv_fin i i Fp) as [FG FK].
  assert (RT : forall j, (j < i)%nat -> g j i = piv (N := F) n 0 G st i j /\ g i j = fdiv (g j i) (g j j)).
  { intros j Hj. destruct (R1 j ltac:(lia)) as [H1 H2]. split; auto. }
  pose proof (bpow_gt_0 radix2 (-53)) as U. pose proof (bpow_gt_0 radix2 (-1075)) as E.
  assert (LV : forall j, (j < i)%nat -> L i j = rnd (T j i / D j)).
  { intros j Hj. destruct (FK j Hj) as [F1 F2]. destruct (RT j Hj) as [_ H2]. unfold L. rewrite H2 in *. apply fdiv_inv; [|exact F1]. specialize (Pd j Hj). unfold D in Pd. intro Z0. rewrite Z0 in Pd. exact (Rlt_irrefl _ Pd). }
  split; [split|split].
  - intros j Hj. pose proof (Pd j Hj) as Dj. pose proof (rnd_err_r (T j i / D j)) as R. rewrite <- (LV j Hj) in R.
    replace (L i j * D j - T j i) with ((L i j - T j i / D j) * D j) by (field; lra). rewrite Rabs_mult, (Rabs_pos_eq (D j)) by lra.
    apply Rle_trans with ((uu * Rabs (L i j) + ee) * D j); [apply Rmult_le_compat_r; lra|]. lra.
  - intros j Hj. destruct (Nat.eq_dec j i) as [->|Hne].
    + pose proof (piv_val i i ltac:(lia) Fp) as V. cbv zeta in V. rewrite <- R2 in V. exact V.
    + destruct (FK j ltac:(lia)) as [_ F2]. destruct (RT j ltac:(lia)) as [H1 _]. rewrite H1 in F2. pose proof (piv_val i j ltac:(lia) F2) as V. cbv zeta in V. rewrite <- H1 in V. exact V.
  - unfold D, A. rewrite R2. unfold piv in *. destruct (Nat.eqb_spec i 0) as [->|Hi0]; [lra|].
    change (nsub (n := F) (G i i) (accum (N := F) n0 (fun k => nmul (n := F) (mget n st i (0 + k)) (mget n st (0 + k) i)) (i - 0)))
      with (fsub (G i i) (accum (N := F) n0 (fun k => fmul (g i (0 + k)) (g (0 + k)%nat i)) (i - 0))) in *.
    apply fsub_inv in Fp. destruct Fp as (_ & H2 & EV). rewrite EV. rewrite <- (rnd_val (G i i)) at 2. apply rnd_le.
    assert (P : forall m, (m <= i)%nat -> fin (accum (N := F) n0 (fun k => fmul (g i (0 + k)) (g (0 + k)%nat i)) m : f64) = true ->
      0 <= val (accum (N := F) n0 (fun k => fmul (g i (0 + k)) (g (0 + k)%nat i)) m : f64)).
    { induction m; intros Hm Hf; cbn [accum] in *; [rewrite zero_val; lra|].
      change (fin (fadd (accum (N := F) n0 (fun k => fmul (g i (0 + k)) (g (0 + k)%nat i)) m) (fmul (g i (0 + m)) (g (0 + m)%nat i))) = true) in Hf.
      change (0 <= val (fadd (accum (N := F) n0 (fun k => fmul (g i (0 + k)) (g (0 + k)%nat i)) m) (fmul (g i (0 + m)) (g (0 + m)%nat i)))).
      apply fadd_inv in Hf. destruct Hf as (K1 & K2 & KV). rewrite KV. rewrite <- rnd_0. apply rnd_le. specialize (IHm ltac:(lia) K1).
      apply fmul_inv in K2. destruct K2 as (_ & _ & KM). rewrite KM. cbn [plus]. fold (L i m) (T m i). rewrite (LV m) by lia.
      assert (0 <= rnd (rnd (T m i / D m) * T m i)); [|apply Rplus_le_le_0_compat; [exact IHm|assumption]]. rewrite <- rnd_0. apply rnd_le. specialize (Pd m ltac:(lia)).
      assert (ID : 0 < / D m) by now apply Rinv_0_lt_compat.
      destruct (Rle_lt_dec 0 (T m i)) as [K|K].
      - apply Rmult_le_pos; auto. rewrite <- rnd_0. apply rnd_le. apply Rmult_le_pos; lra.
      - replace (rnd (T m i / D m) * T m i) with (- rnd (T m i / D m) * - T m i) by ring. apply Rmult_le_pos; [|lra].
        assert (rnd (T m i / D m) <= 0); [|lra]. rewrite <- rnd_0. apply rnd_le. assert (0 <= - T m i * / D m) by (apply Rmult_le_pos; lra). unfold Rdiv. lra. }
    specialize (P (i - 0)%nat ltac:(lia) H2). lra.
  - exact FG.
Qed.
Lemma tiny : 100 * INR n * bpow radix2 400 * ee <= uu * bpow radix2 (-400).
Proof.
  assert (N : INR n <= bpow radix2 26). { rewrite INR_IZR_INZ. change (bpow radix2 26) with (IZR (2 ^ 26)). now apply IZR_le. }
  apply Rle_trans with (bpow radix2 7 * bpow radix2 26 * bpow radix2 400 * ee).
  - apply Rmult_le_compat_r; [apply bpow_ge_0|]. apply Rmult_le_compat_r; [apply bpow_ge_0|]. change (bpow radix2 7) with 128. pose proof (pos_INR n). apply Rmult_le_compat; lra.
  - rewrite <- !bpow_plus. apply bpow_le. lia.
Qed.
Lemma ee_uu : ee <= uu. Proof. apply bpow_le. lia. Qed.
Lemma W1 : 1 <= bpow radix2 400. Proof. apply (bpow_le radix2 0 400). lia. Qed.
Hypotheses (Hs : sym n A) (Hd : forall i, (i < n)%nat -> bpow radix2 (-400) <= A i i <= bpow radix2 400).

Lemma accepted_f64 x : (forall i, (i < n)%nat -> row_ok (N := F) n 0 G st i /\ nleb (n := F) (mget n st i i) n0 = false) ->
  (forall i, (i < n)%nat -> fin (g i i) = true) -> (exists i, (i < n)%nat /\ x i <> 0) ->
  0 < quad n A x + 4 * INR n * INR n * uu * Rsum n (fun i => A i i * (x i * x i)).
Proof.
  intros H Hf Hx. assert (Pd : forall i, (i < n)%nat -> 0 < D i).
  { intros i Hi. destruct (H i Hi) as [_ K]. change (Bleb (g i i) (n0 (N := F) : f64) = false) in K. rewrite fleb_fin in K by (auto; apply zero_fin).
    rewrite zero_val in K. revert K. case Rle_bool_spec; [discriminate|]. auto. }
  apply (accepted_pd n A L T D uu ee (bpow radix2 (-400)) (bpow radix2 400)); auto using bpow_gt_0, ee_uu, W1, tiny.
  - apply nuu.
  - intros i Hi. destruct (row_acc i Hi (proj1 (H i Hi)) (Hf i Hi)) as (K1 & K2 & _); [intros; apply Pd; lia|]. split; auto.
Qed.
Lemma rejected_f64 p : (p < n)%nat -> (forall i, (i <= p)%nat -> row_ok (N := F) n 0 G st i) ->
  (forall i, (i < p)%nat -> nleb (n := F) (mget n st i i) n0 = false) -> nleb (n := F) (mget n st p p) n0 = true ->
  (forall i, (i <= p)%nat -> fin (g i i) = true) ->
  exists x : vec, (exists i, (i < n)%nat /\ x i <> 0) /\ quad n A x <= 16 * INR n * INR n * uu * Rsum n (fun i => A i i * (x i * x i)).
Proof.
  intros Hp H1 H2 H3 Hf. assert (Pd : forall i, (i < p)%nat -> 0 < D i).
  { intros i Hi. specialize (H2 i Hi). change (Bleb (g i i) (n0 (N := F) : f64) = false) in H2. rewrite fleb_fin in H2 by (try apply Hf; try lia; apply zero_fin).
    rewrite zero_val in H2. revert H2. case Rle_bool_spec; [discriminate|]. auto. }
  assert (Np : D p <= 0).
  { change (Bleb (g p p) (n0 (N := F) : f64) = true) in H3. rewrite fleb_fin in H3 by (try apply Hf; try lia; apply zero_fin). rewrite zero_val in H3. revert H3. case Rle_bool_spec; [auto|discriminate]. }
  assert (Ra : forall i, (i <= p)%nat -> row_err A L T D uu ee i /\ D i <= A i i).
  { intros i Hi. destruct (row_acc i ltac:(lia) (H1 i Hi) (Hf i Hi)) as (K1 & K2 & _); [intros; apply Pd; lia|]. auto. }
  apply (rejected_not_pd n A L T D uu ee (bpow radix2 (-400)) (bpow radix2 400)) with (p := p); auto using bpow_gt_0, ee_uu, W1, tiny.
  - apply nuu.
  - intros i Hi. apply Ra. auto.
  - intros i Hi. split; [auto|apply Ra; lia].
Qed.
End Acc.
Lemma quad_diag_by n c A x : quad n (diag_by c A) x = quad n A x + c * Rsum n (fun i => A i i * (x i * x i)).
Proof.
  unfold quad, dot, mulmv. rewrite <- Rsum_scal. rewrite <- Rsum_plus. apply Rsum_ext. intros i Hi.
  rewrite (Rsum_ext n _ (fun j => A i j * x j + (if Nat.eqb j i then c * A i i * x i else 0))).
  - rewrite Rsum_plus. rewrite (Rsum_one n i (fun j => if Nat.eqb j i then c * A i i * x i else 0)); [rewrite Nat.eqb_refl; ring|auto|]. intros j Hj Hne. destruct (Nat.eqb_spec j i); [contradiction|reflexivity].
  - intros j Hj. unfold diag_by. rewrite (Nat.eqb_sym i j). destruct (Nat.eqb_spec j i) as [->|]; ring.
Qed.
Section Final.
Context {lm : Libm}.
Notation F := (FNum lm).
Lemma factor_accepts_f64 n get (G : nat -> nat -> f64) (m m' : LDLT F) : (Z.of_nat n <= 2 ^ 26)%Z -> mgr n m -> reads (N := F) n get G ->
  sym n (real_of G) -> moderate_diag n G -> ldlt_factor get m = Ok (m', true) ->
  (forall i, (i < n)%nat -> fin (pivot n m' i) = true) ->
  pd n (diag_by (4 * INR n * INR n * uu) (real_of G)).
Proof.
  intros Hz Hm Hr Hs Hd Hf Hp x Hx. rewrite quad_diag_by. unfold real_of in *. destruct (ldlt_factor_ok n get G m (mgr_wf n m Hm) Hr) as (st & Ls & [(E & H)|(p & Hp' & E & _)]); [|rewrite E in Hf; discriminate].
  rewrite E in Hf. assert (Em : m' = mkLDLT (N := F) (0, 0)%nat (l_wit m) n st) by congruence. subst m'. unfold pivot in Hp. cbn [l_storage] in Hp.
  apply (accepted_f64 lm n G st); auto. destruct Hx as (i & Hi & _). lia.
Qed.
Lemma factor_rejects_f64 n get (G : nat -> nat -> f64) (m m' : LDLT F) : (Z.of_nat n <= 2 ^ 26)%Z -> mgr n m -> reads (N := F) n get G ->
  sym n (real_of G) -> moderate_diag n G -> ldlt_factor get m = Ok (m', false) ->
  (forall i, (i < snd (l_pos m'))%nat -> fin (pivot n m' i) = true) ->
  ~ pd n (diag_by (- (16 * INR n * INR n * uu)) (real_of G)).
Proof.
  intros Hz Hm Hr Hs Hd Hf Hp PD. enough (exists x : vec, (exists i, (i < n)%nat /\ x i <> 0) /\
  quad n (real_of G) x <= 16 * INR n * INR n * uu * Rsum n (fun i => real_of G i i * (x i * x i))) as (x & Hx & Q).
  { specialize (PD x Hx). rewrite quad_diag_by in PD. lra. }
  unfold real_of in *. destruct (ldlt_factor_ok n get G m (mgr_wf n m Hm) Hr) as (st & Ls & [(E & H)|(p & Hp' & E & H1 & H2 & H3)]); [rewrite E in Hf; discriminate|].
  rewrite E in Hf. assert (Em : m' = mkLDLT (N := F) (0, p + 1)%nat (l_wit m) n st) by congruence. subst m'. unfold pivot in Hp. cbn [l_storage l_pos snd] in Hp.
  apply (rejected_f64 lm n G st) with (p := p); auto; [lia|]. intros i Hi. apply Hp. lia.
Qed.
End Final.
