(** Inverses of positive definite matrices, and the inequality between trace and
    determinant: n^n det P <= det Q tr(Q^-1 P)^n. *)
From Coq Require Import Reals Arith Lia Lra Psatz.
From Verif Require Import Spec RealLin Det DetLemmas VolScalar.
Open Scope R_scope.

(** tr(W' X) *)
Definition frob (n : nat) (W X : mtx) : R := Rsum n (fun i => Rsum n (fun j => W i j * X i j)).

Lemma frob_ext n W W' X X' : (forall i j, (i < n)%nat -> (j < n)%nat -> W i j = W' i j) ->
  (forall i j, (i < n)%nat -> (j < n)%nat -> X i j = X' i j) -> frob n W X = frob n W' X'.
Proof. intros H1 H2. apply Rsum_ext; intros i Hi; apply Rsum_ext; intros j Hj. now rewrite H1, H2. Qed.
Lemma frob_lin n W a X b Y : frob n W (fun i j => a * X i j + b * Y i j) = a * frob n W X + b * frob n W Y.
Proof.
  unfold frob. rewrite <- !Rsum_scal, <- Rsum_plus. apply Rsum_ext; intros i Hi.
  rewrite <- !Rsum_scal, <- Rsum_plus. apply Rsum_ext; intros j Hj. ring.
Qed.
Lemma frob_outer n W a : frob n W (fun i j => a i * a j) = quad n W a.
Proof.
  unfold frob, quad, dot, mulmv. apply Rsum_ext; intros i Hi. rewrite <- Rsum_scal. apply Rsum_ext; intros j Hj. ring.
Qed.
Lemma frob_sum n W m (X : nat -> mtx) : frob n W (fun i j => Rsum m (fun k => X k i j)) = Rsum m (fun k => frob n W (X k)).
Proof.
  induction m as [|m IH]; cbn [Rsum].
  - unfold frob. apply Rsum_zero; intros i Hi. apply Rsum_zero; intros j Hj. ring.
  - rewrite <- IH. rewrite (frob_ext n W W _ (fun i j => 1 * Rsum m (fun k => X k i j) + 1 * X m i j)); auto.
    + rewrite frob_lin. ring.
    + intros; ring.
Qed.

Lemma solve_pd n : forall M b, sym n M -> pd n M -> exists y, forall i, (i < n)%nat -> mulmv n M y i = b i.
Proof.
  induction n as [|n IH]; intros M b Hs Hp; [exists (fun _ => 0); intros; lia|].
  pose proof (pd_corner _ _ Hp) as Ha. set (a := M 0%nat 0%nat) in *.
  destruct (IH (schur M) (fun i => b (S i) - M 0%nat (S i) / a * b 0%nat)) as (y & Hy).
  { apply schur_sym; auto. fold a; lra. } { now apply schur_pd. }
  set (v := fun i => M 0%nat (S i)).
  exists (fun i => match i with O => (b 0%nat - dot n v y) / a | S k => y k end).
  intros [|i] Hi.
  - rewrite mv_head. fold a. change (fun i => y i) with y. fold v. field. lra.
  - rewrite (mv_tail n M Hs) by lia. change (fun i => y i) with y.
    pose proof (Hy i ltac:(lia)) as E.
    rewrite (mulmv_ext n (schur M) (rank1 (fun i j => M (S i) (S j)) (/ a) v) y y) in E;
      [|intros l Hl; apply (schur_rank1 n M Hs); auto; try lia; fold a; lra|auto].
    rewrite rank1_mv in E. cbv beta in E. unfold v in *. set (z := mulmv n _ y i) in *. set (d := dot n _ y) in *.
    assert (z = b (S i) - M 0%nat (S i) / a * b 0%nat + / a * d * M 0%nat (S i)) as -> by lra. field. lra.
Qed.
Lemma finite_choice n (P : nat -> vec -> Prop) : (forall j, (j < n)%nat -> exists y, P j y) -> exists W : nat -> vec, forall j, (j < n)%nat -> P j (W j).
Proof.
  induction n as [|n IH]; intros H; [exists (fun _ _ => 0); intros; lia|].
  destruct IH as (W & HW); [intros; apply H; lia|]. destruct (H n ltac:(lia)) as (y & Hy).
  exists (fun j => if Nat.eqb j n then y else W j). intros j Hj. destruct (Nat.eqb_spec j n) as [->|]; auto. apply HW; lia.
Qed.
Lemma dot_one_r n x j : (j < n)%nat -> dot n x (fun i => mtx_one i j) = x j.
Proof.
  intros Hj. unfold dot, mtx_one. rewrite (Rsum_one n j); auto.
  - rewrite Nat.eqb_refl. ring.
  - intros i Hi Hne. destruct (Nat.eqb_spec i j); [lia|ring].
Qed.
Lemma inverse_pd n M : sym n M -> pd n M -> exists W, inverse n M W /\ sym n W /\ psd n W.
Proof.
  intros Hs Hp. destruct (finite_choice n (fun j y => forall i, (i < n)%nat -> mulmv n M y i = mtx_one i j)) as (w & Hw).
  { intros j Hj. now apply solve_pd. }
  exists (fun i j => w j i).
  assert (HW : sym n (fun i j => w j i)).
  { intros i j Hi Hj. cbv beta.
    rewrite <- (dot_one_r n (w j) i), <- (dot_one_r n (w i) j) by auto.
    rewrite (dot_ext n (w j) _ (w j) (mulmv n M (w i))); auto; [|intros k Hk; symmetry; now apply Hw].
    rewrite (dot_ext n (w i) _ (w i) (mulmv n M (w j))); auto; [|intros k Hk; symmetry; now apply Hw].
    now apply sym_dot. }
  assert (H1 : forall i j, (i < n)%nat -> (j < n)%nat -> mulmm n M (fun i j => w j i) i j = mtx_one i j).
  { intros i j Hi Hj. exact (Hw j Hj i Hi). }
  split; [|split; auto].
  - intros i j Hi Hj. split; [now apply H1|].
    transitivity (mulmm n M (fun i j => w j i) j i).
    + unfold mulmm. apply Rsum_ext. intros k Hk. rewrite (Hs k j) by auto. pose proof (HW i k Hi Hk) as E. cbv beta in E. rewrite E. ring.
    + rewrite H1 by auto. unfold mtx_one. now rewrite Nat.eqb_sym.
  - intros x. assert (E : quad n (fun i j => w j i) x = quad n M (mulmv n (fun i j => w j i) x)).
    { unfold quad. rewrite dot_comm. apply dot_ext; auto. intros i Hi. rewrite mulmv_mulmm.
      rewrite (mulmv_ext n _ mtx_one x x) by auto. symmetry; now apply mulmv_one. }
    rewrite E. now apply pd_psd.
Qed.

(** M as a sum of n squares *)
Lemma squares_pd n : forall M, sym n M -> pd n M -> exists L : nat -> vec,
  forall i j, (i < n)%nat -> (j < n)%nat -> M i j = Rsum n (fun k => L k i * L k j).
Proof.
  induction n as [|n IH]; intros M Hs Hp; [exists (fun _ _ => 0); intros; lia|].
  pose proof (pd_corner _ _ Hp) as Ha. set (a := M 0%nat 0%nat) in *.
  destruct (IH (schur M)) as (L & HL).
  { apply schur_sym; auto. fold a; lra. } { now apply schur_pd. }
  assert (Hq : sqrt a * sqrt a = a) by (apply sqrt_sqrt; lra). pose proof (sqrt_lt_R0 _ Ha) as Hq0.
  exists (fun k i => match k with O => M 0%nat i / sqrt a | S k => match i with O => 0 | S i => L k i end end).
  intros i j Hi Hj. rewrite Rsum_first.
  assert (E : M 0%nat i / sqrt a * (M 0%nat j / sqrt a) = M 0%nat i * M 0%nat j / a) by (rewrite <- Hq at 3; field; lra).
  rewrite E. destruct i as [|i].
  - rewrite Rsum_zero by (intros; ring). fold a. field. lra.
  - destruct j as [|j].
    + rewrite Rsum_zero by (intros; ring). fold a. rewrite (Hs (S i) 0%nat) by lia. field. lra.
    + rewrite <- HL by lia. unfold schur. fold a. rewrite (Hs (S i) 0%nat) by lia. field. lra.
Qed.
Lemma frob_nonneg n W M : psd n W -> sym n M -> pd n M -> 0 <= frob n W M.
Proof.
  intros HW Hs Hp. destruct (squares_pd n M Hs Hp) as (L & HL).
  rewrite (frob_ext n W W M _ (fun _ _ _ _ => eq_refl) HL), frob_sum. apply Rsum_nonneg. intros k Hk. rewrite frob_outer. apply HW.
Qed.

Lemma amgm k x y : 0 <= x -> 0 <= y -> INR (S k) ^ S k * (x * y ^ k) <= INR k ^ k * (x + y) ^ S k.
Proof.
  intros Hx Hy. destruct k as [|k0]; [simpl; lra|]. set (k := S k0).
  assert (Hk : 0 < INR k) by (apply lt_0_INR; unfold k; lia). rewrite S_INR.
  destruct (Req_dec (x + y) 0) as [E|E].
  { assert (x = 0) by lra. subst x. rewrite Rmult_0_l, Rmult_0_r. apply Rmult_le_pos; apply pow_le; lra. }
  set (u := (x + y) / (INR k + 1)). assert (Hu : 0 < u) by (apply Rdiv_lt_0_compat; lra).
  assert (Exy : x + y = (INR k + 1) * u) by (unfold u; field; lra).
  set (r := y / (INR k * u)). assert (Hku : 0 < INR k * u) by (apply Rmult_lt_0_compat; lra).
  assert (Er : y = INR k * u * r) by (unfold r; field; lra).
  assert (Hr : 0 <= r) by (apply Rmult_le_pos; [lra|left; apply Rinv_0_lt_compat; lra]).
  assert (Ex : x = u * ((INR k + 1) - INR k * r)) by (rewrite Er in Exy; lra).
  assert (K : ((INR k + 1) - INR k * r) * r ^ k <= 1).
  { destruct (Req_dec r 0) as [->|Hr0]; [unfold k; simpl; lra|].
    pose proof (bernoulli (/ r - 1) (S k)) as Hb. assert (0 < r) by lra. assert (0 < / r) by (now apply Rinv_0_lt_compat).
    specialize (Hb ltac:(lra)). replace (1 + (/ r - 1)) with (/ r) in Hb by ring. rewrite S_INR in Hb.
    assert (Hp : 0 < r ^ S k) by (apply pow_lt; lra).
    apply Rmult_le_compat_r with (r := r ^ S k) in Hb; [|lra].
    rewrite pow_inv in Hb. rewrite Rinv_l in Hb by lra.
    replace ((1 + (INR k + 1) * (/ r - 1)) * r ^ S k) with (((INR k + 1) - INR k * r) * r ^ k) in Hb by (cbn [pow]; field; lra). exact Hb. }
  clearbody r u k. rewrite Exy, Ex, Er. rewrite !Rpow_mult_distr. cbn [pow].
  replace ((INR k + 1) * (INR k + 1) ^ k * (u * (INR k + 1 - INR k * r) * (INR k ^ k * u ^ k * r ^ k)))
    with ((INR k + 1) * (INR k + 1) ^ k * (INR k ^ k * (u * u ^ k)) * ((INR k + 1 - INR k * r) * r ^ k)) by ring.
  replace (INR k ^ k * ((INR k + 1) * (INR k + 1) ^ k * (u * u ^ k)))
    with ((INR k + 1) * (INR k + 1) ^ k * (INR k ^ k * (u * u ^ k)) * 1) by ring.
  apply Rmult_le_compat_l; auto.
  assert (0 <= (INR k + 1) ^ k) by (apply pow_le; lra). assert (0 <= INR k ^ k) by (apply pow_le; lra). assert (0 <= u ^ k) by (apply pow_le; lra).
  repeat apply Rmult_le_pos; lra.
Qed.

Lemma trace_det n : forall Q W P, sym n Q -> pd n Q -> inverse n Q W -> sym n W -> sym n P -> pd n P ->
  INR n ^ n * det n P <= det n Q * frob n W P ^ n.
Proof.
  induction n as [|n IH]; intros Q W P Qs Qp HI Ws Ps Pp; [simpl; lra|].
  pose proof (pd_corner _ _ Qp) as Hq. pose proof (pd_corner _ _ Pp) as Hp.
  set (q := Q 0%nat 0%nat) in *. set (p := P 0%nat 0%nat) in *.
  set (B := fun i j => W (S i) (S j)).
  assert (QsS := schur_sym n Q Qs ltac:(fold q; lra)). assert (QpS := schur_pd n Q Qs Qp).
  assert (PsS := schur_sym n P Ps ltac:(fold p; lra)). assert (PpS := schur_pd n P Ps Pp).
  assert (Bs : sym n B) by (intros i j Hi Hj; apply Ws; lia).
  assert (HQW : forall i j, (i < n)%nat -> (j < n)%nat -> mulmm n (schur Q) B i j = mtx_one i j).
  { intros i j Hi Hj. destruct (HI (S i) (S j) ltac:(lia) ltac:(lia)) as [H1 _]. destruct (HI 0%nat (S j) ltac:(lia) ltac:(lia)) as [H0 _].
    unfold mulmm in H1, H0. rewrite Rsum_first in H1, H0. fold q in H0. unfold mtx_one in H0; cbn [Nat.eqb] in H0.
    change (mtx_one (S i) (S j)) with (mtx_one i j) in H1. rewrite <- H1.
    unfold mulmm, schur. fold q.
    transitivity (Rsum n (fun k => Q (S i) (S k) * B k j) - Q (S i) 0%nat / q * Rsum n (fun k => Q 0%nat (S k) * W (S k) (S j))).
    { rewrite <- Rsum_scal, <- Rsum_minus. apply Rsum_ext. intros k Hk. unfold B. field. lra. }
    unfold B. set (T := Rsum n (fun i0 => Q 0%nat (S i0) * W (S i0) (S j))) in *.
    assert (T = - (q * W 0%nat (S j))) as -> by lra. field. lra. }
  assert (HIS : inverse n (schur Q) B).
  { intros i j Hi Hj. split; [now apply HQW|]. transitivity (mulmm n (schur Q) B j i).
    - unfold mulmm. apply Rsum_ext. intros k Hk. rewrite (QsS k j), (Bs i k) by auto. ring.
    - rewrite HQW by auto. unfold mtx_one. now rewrite Nat.eqb_sym. }
  specialize (IH (schur Q) B (schur P) QsS QpS HIS Bs PsS PpS).
  assert (Bp : psd n B).
  { intros x. assert (E : quad n B x = quad n (schur Q) (mulmv n B x)).
    { unfold quad. rewrite dot_comm. apply dot_ext; auto. intros i Hi. rewrite mulmv_mulmm.
      rewrite (mulmv_ext n _ mtx_one x x) by auto. symmetry; now apply mulmv_one. }
    rewrite E. now apply pd_psd. }
  assert (Hy : 0 <= frob n B (schur P)) by (now apply frob_nonneg). set (y := frob n B (schur P)) in *.
  (* the trace splits *)
  assert (Esplit : frob (S n) W P = quad (S n) W (fun i => P 0%nat i) / p + y).
  { transitivity (/ p * frob (S n) W (fun i j => P 0%nat i * P 0%nat j) +
      1 * frob (S n) W (fun i j => match i, j with S i, S j => schur P i j | _, _ => 0 end)).
    - rewrite <- frob_lin. apply frob_ext; auto. intros [|i] [|j] Hi Hj; fold p; try (field; lra).
      + rewrite (Ps (S i) 0%nat) by lia. field. lra.
      + unfold schur. fold p. rewrite (Ps (S i) 0%nat) by lia. field. lra.
    - rewrite (frob_outer (S n) W (fun i => P 0%nat i)). unfold y, B.
      replace (frob (S n) W (fun i j => match i, j with S i, S j => schur P i j | _, _ => 0 end)) with (frob n (fun i j => W (S i) (S j)) (schur P)); [field; lra|].
      unfold frob. rewrite Rsum_first. rewrite (Rsum_zero (S n)) by (intros; ring). rewrite Rplus_0_l.
      apply Rsum_ext; intros i Hi. rewrite Rsum_first. ring. }
  assert (Hx : p / q <= quad (S n) W (fun i => P 0%nat i) / p).
  { set (x := fun i => P 0%nat i). set (z := mulmv (S n) W x).
    assert (HQz : forall i, (i < S n)%nat -> mulmv (S n) Q z i = x i).
    { intros i Hi. unfold z. rewrite mulmv_mulmm. rewrite (mulmv_ext _ _ mtx_one x x); auto; [now apply mulmv_one|].
      intros j Hj. apply (HI i j Hi Hj). }
    assert (Ez : quad (S n) W x = quad (S n) Q z).
    { unfold quad. fold z. rewrite dot_comm. apply dot_ext; auto. intros i Hi. symmetry. now apply HQz. }
    rewrite Ez. rewrite (quad_schur n Q Qs) by (fold q; lra). rewrite HQz by lia. fold q. change (x 0%nat) with p.
    assert (Hs0 : 0 <= quad n (schur Q) (fun i => z (S i))) by (apply pd_psd; auto).
    apply Rmult_le_reg_r with p; auto. replace ((p * p / q + quad n (schur Q) (fun i => z (S i))) / p * p) with (p * p / q + quad n (schur Q) (fun i => z (S i))) by (field; lra).
    unfold Rdiv in *. lra. }
  rewrite Esplit. set (x' := quad (S n) W (fun i => P 0%nat i) / p) in *.
  assert (Hpq : 0 < p / q) by (now apply Rdiv_lt_0_compat).
  rewrite !det_schur by (try fold p; try fold q; lra). fold p q.
  assert (HdQ := det_pos n _ QsS QpS). assert (HdP := det_pos n _ PsS PpS).
  set (dQ := det n (schur Q)) in *. set (dP := det n (schur P)) in *.
  pose proof (amgm n (p / q) y ltac:(lra) Hy) as HA.
  assert (HB : (p / q + y) ^ S n <= (x' + y) ^ S n) by (apply pow_incr; lra).
  destruct (Nat.eq_dec n 0) as [->|Hn0].
  - cbn [pow INR] in *. rewrite !Rmult_1_r in *. unfold dQ, dP in *. cbn [det] in *.
    apply Rmult_le_compat_l with (r := q) in Hx; [|lra]. replace (q * (p / q)) with p in Hx by (field; lra).
    assert (0 <= q * y) by (apply Rmult_le_pos; lra). lra.
  - assert (Hnn : 0 < INR n ^ n) by (apply pow_lt, lt_0_INR; lia).
    apply Rmult_le_reg_l with (INR n ^ n); auto.
    apply Rle_trans with (INR (S n) ^ S n * p * (dQ * y ^ n)).
    + replace (INR n ^ n * (INR (S n) ^ S n * (p * dP))) with (INR (S n) ^ S n * p * (INR n ^ n * dP)) by ring.
      apply Rmult_le_compat_l; auto. apply Rmult_le_pos; [apply pow_le, pos_INR|lra].
    + replace (INR (S n) ^ S n * p * (dQ * y ^ n)) with (q * dQ * (INR (S n) ^ S n * (p / q * y ^ n))) by (field; lra).
      replace (INR n ^ n * (q * dQ * (x' + y) ^ S n)) with (q * dQ * (INR n ^ n * (x' + y) ^ S n)) by ring.
      apply Rmult_le_compat_l; [apply Rmult_le_pos; lra|].
      eapply Rle_trans; [exact HA|]. apply Rmult_le_compat_l; lra.
Qed.

(** ** The case of equality *)
Lemma bernoulli_strict x N : -1 < x -> x <> 0 -> (2 <= N)%nat -> 1 + INR N * x < (1 + x) ^ N.
Proof.
  intros Hx H0 HN. destruct N as [|[|k]]; try lia. clear HN. induction k as [|k IH].
  - simpl. assert (0 < x * x) by nra. lra.
  - apply Rlt_trans with ((1 + INR (S (S k)) * x) * (1 + x)).
    + rewrite (S_INR (S (S k))). pose proof (pos_INR (S (S k))) as H. assert (0 < INR (S (S k))) by (apply lt_0_INR; lia).
      assert (0 < INR (S (S k)) * (x * x)) by (apply Rmult_lt_0_compat; nra). lra.
    + replace ((1 + x) ^ S (S (S k))) with ((1 + x) ^ S (S k) * (1 + x)) by (cbn [pow]; ring).
      apply Rmult_lt_compat_r; lra.
Qed.
Lemma amgm_eq k x y : (1 <= k)%nat -> 0 <= x -> 0 <= y -> 0 < x + y ->
  INR k ^ k * (x + y) ^ S k <= INR (S k) ^ S k * (x * y ^ k) -> y = INR k * x.
Proof.
  intros Hk1 Hx Hy E. assert (Hk : 0 < INR k) by (apply lt_0_INR; lia). rewrite S_INR.
  set (u := (x + y) / (INR k + 1)). assert (Hu : 0 < u) by (apply Rdiv_lt_0_compat; lra).
  assert (Exy : x + y = (INR k + 1) * u) by (unfold u; field; lra).
  set (r := y / (INR k * u)). assert (Hku : 0 < INR k * u) by (apply Rmult_lt_0_compat; lra).
  assert (Er : y = INR k * u * r) by (unfold r; field; lra).
  assert (Hr : 0 <= r) by (apply Rmult_le_pos; [lra|left; apply Rinv_0_lt_compat; lra]).
  assert (Ex : x = u * ((INR k + 1) - INR k * r)) by (rewrite Er in Exy; lra).
  clearbody r u. intros H. rewrite Exy, Ex, Er in H. rewrite !Rpow_mult_distr in H. cbn [pow] in H.
  replace ((INR k + 1) * (INR k + 1) ^ k * (u * (INR k + 1 - INR k * r) * (INR k ^ k * u ^ k * r ^ k)))
    with ((INR k + 1) * (INR k + 1) ^ k * (INR k ^ k * (u * u ^ k)) * ((INR k + 1 - INR k * r) * r ^ k)) in H by ring.
  replace (INR k ^ k * ((INR k + 1) * (INR k + 1) ^ k * (u * u ^ k)))
    with ((INR k + 1) * (INR k + 1) ^ k * (INR k ^ k * (u * u ^ k)) * 1) in H by ring.
  apply Rmult_le_reg_l in H.
  2:{ assert (0 < (INR k + 1) ^ k) by (apply pow_lt; lra). assert (0 < INR k ^ k) by (apply pow_lt; lra). assert (0 < u ^ k) by (apply pow_lt; lra).
      repeat apply Rmult_lt_0_compat; lra. }
  destruct (Req_dec r 1) as [->|H1]; [rewrite Er, Ex; ring|exfalso].
  destruct (Req_dec r 0) as [->|Hr0]; [destruct k; [lia|]; simpl in H; lra|].
  assert (0 < r) by lra. assert (0 < / r) by (now apply Rinv_0_lt_compat).
  pose proof (bernoulli_strict (/ r - 1) (S k) ltac:(lra)) as Hb.
  assert (Hne : / r - 1 <> 0).
  { intros Z. apply H1. assert (/ r = 1) by lra. rewrite <- (Rinv_inv r), H3. apply Rinv_1. }
  specialize (Hb Hne ltac:(lia)). replace (1 + (/ r - 1)) with (/ r) in Hb by ring. rewrite S_INR in Hb.
  assert (Hp : 0 < r ^ S k) by (apply pow_lt; lra).
  apply Rmult_lt_compat_r with (r := r ^ S k) in Hb; [|lra].
  rewrite pow_inv in Hb. rewrite Rinv_l in Hb by lra.
  replace ((1 + (INR k + 1) * (/ r - 1)) * r ^ S k) with (((INR k + 1) - INR k * r) * r ^ k) in Hb by (cbn [pow]; field; lra). lra.
Qed.

Lemma trace_split n Q W P : sym (S n) Q -> pd (S n) Q -> inverse (S n) Q W -> sym (S n) W -> sym (S n) P -> pd (S n) P ->
  let z := mulmv (S n) W (fun i => P 0%nat i) in
  frob (S n) W P = P 0%nat 0%nat / Q 0%nat 0%nat + quad n (schur Q) (fun i => z (S i)) / P 0%nat 0%nat + frob n (fun i j => W (S i) (S j)) (schur P) /\
  inverse n (schur Q) (fun i j => W (S i) (S j)) /\ sym n (fun i j => W (S i) (S j)) /\ psd n (fun i j => W (S i) (S j)) /\
  (forall i, (i < S n)%nat -> mulmv (S n) Q z i = P 0%nat i).
Proof.
  intros Qs Qp HI Ws Ps Pp z.
  pose proof (pd_corner _ _ Qp) as Hq. pose proof (pd_corner _ _ Pp) as Hp.
  set (q := Q 0%nat 0%nat) in *. set (p := P 0%nat 0%nat) in *.
  set (B := fun i j => W (S i) (S j)).
  assert (QsS := schur_sym n Q Qs ltac:(fold q; lra)). assert (QpS := schur_pd n Q Qs Qp).
  assert (Bs : sym n B) by (intros i j Hi Hj; apply Ws; lia).
  assert (HQW : forall i j, (i < n)%nat -> (j < n)%nat -> mulmm n (schur Q) B i j = mtx_one i j).
  { intros i j Hi Hj. destruct (HI (S i) (S j) ltac:(lia) ltac:(lia)) as [H1 _]. destruct (HI 0%nat (S j) ltac:(lia) ltac:(lia)) as [H0 _].
    unfold mulmm in H1, H0. rewrite Rsum_first in H1, H0. fold q in H0. unfold mtx_one in H0; cbn [Nat.eqb] in H0.
    change (mtx_one (S i) (S j)) with (mtx_one i j) in H1. rewrite <- H1.
    unfold mulmm, schur. fold q.
    transitivity (Rsum n (fun k => Q (S i) (S k) * B k j) - Q (S i) 0%nat / q * Rsum n (fun k => Q 0%nat (S k) * W (S k) (S j))).
    { rewrite <- Rsum_scal, <- Rsum_minus. apply Rsum_ext. intros k Hk. unfold B. field. lra. }
    unfold B. set (T := Rsum n (fun i0 => Q 0%nat (S i0) * W (S i0) (S j))) in *.
    assert (T = - (q * W 0%nat (S j))) as -> by lra. field. lra. }
  assert (HIS : inverse n (schur Q) B).
  { intros i j Hi Hj. split; [now apply HQW|]. transitivity (mulmm n (schur Q) B j i).
    - unfold mulmm. apply Rsum_ext. intros k Hk. rewrite (QsS k j), (Bs i k) by auto. ring.
    - rewrite HQW by auto. unfold mtx_one. now rewrite Nat.eqb_sym. }
  assert (Bp : psd n B).
  { intros x. assert (E : quad n B x = quad n (schur Q) (mulmv n B x)).
    { unfold quad. rewrite dot_comm. apply dot_ext; auto. intros i Hi. rewrite mulmv_mulmm.
      rewrite (mulmv_ext n _ mtx_one x x) by auto. symmetry; now apply mulmv_one. }
    rewrite E. now apply pd_psd. }
  assert (HQz : forall i, (i < S n)%nat -> mulmv (S n) Q z i = P 0%nat i).
  { intros i Hi. unfold z. rewrite mulmv_mulmm. rewrite (mulmv_ext _ _ mtx_one (fun i => P 0%nat i) (fun i => P 0%nat i)); auto; [now apply mulmv_one|].
    intros j Hj. apply (HI i j Hi Hj). }
  split; [|auto].
  assert (Esplit : frob (S n) W P = quad (S n) W (fun i => P 0%nat i) / p + frob n B (schur P)).
  { transitivity (/ p * frob (S n) W (fun i j => P 0%nat i * P 0%nat j) +
      1 * frob (S n) W (fun i j => match i, j with S i, S j => schur P i j | _, _ => 0 end)).
    - rewrite <- frob_lin. apply frob_ext; auto. intros [|i] [|j] Hi Hj; fold p; try (field; lra).
      + rewrite (Ps (S i) 0%nat) by lia. field. lra.
      + unfold schur. fold p. rewrite (Ps (S i) 0%nat) by lia. field. lra.
    - rewrite (frob_outer (S n) W (fun i => P 0%nat i)). unfold B.
      replace (frob (S n) W (fun i j => match i, j with S i, S j => schur P i j | _, _ => 0 end)) with (frob n (fun i j => W (S i) (S j)) (schur P)); [field; lra|].
      unfold frob. rewrite Rsum_first. rewrite (Rsum_zero (S n)) by (intros; ring). rewrite Rplus_0_l.
      apply Rsum_ext; intros i Hi. rewrite Rsum_first. ring. }
  rewrite Esplit. f_equal.
  assert (Ez : quad (S n) W (fun i => P 0%nat i) = quad (S n) Q z).
  { unfold quad. fold z. rewrite dot_comm. apply dot_ext; auto. intros i Hi. symmetry. now apply HQz. }
  rewrite Ez. rewrite (quad_schur n Q Qs) by (fold q; lra). rewrite HQz by lia. fold q p. field. lra.
Qed.

Lemma trace_det_eq n : forall Q W P, sym n Q -> pd n Q -> inverse n Q W -> sym n W -> sym n P -> pd n P ->
  frob n W P <= INR n -> det n Q <= det n P -> forall i j, (i < n)%nat -> (j < n)%nat -> P i j = Q i j.
Proof.
  induction n as [|n IH]; intros Q W P Qs Qp HI Ws Ps Pp HT Hdet; [intros; lia|].
  destruct (trace_split n Q W P Qs Qp HI Ws Ps Pp) as (Esp & HIS & Bs & Bp & HQz).
  set (z := mulmv (S n) W (fun i => P 0%nat i)) in *.
  pose proof (pd_corner _ _ Qp) as Hq. pose proof (pd_corner _ _ Pp) as Hp.
  assert (QsS := schur_sym n Q Qs ltac:(lra)). assert (QpS := schur_pd n Q Qs Qp).
  assert (PsS := schur_sym n P Ps ltac:(lra)). assert (PpS := schur_pd n P Ps Pp).
  set (B := fun i j => W (S i) (S j)) in *.
  pose proof (trace_det n (schur Q) B (schur P) QsS QpS HIS Bs PsS PpS) as HD.
  assert (Hy : 0 <= frob n B (schur P)) by (now apply frob_nonneg).
  specialize (IH (schur Q) B (schur P) QsS QpS HIS Bs PsS PpS).
  rewrite Esp in HT. rewrite !det_schur in Hdet by lra.
  set (q := Q 0%nat 0%nat) in *. set (p := P 0%nat 0%nat) in *. set (y := frob n B (schur P)) in *.
  assert (Hz0 : 0 <= quad n (schur Q) (fun i => z (S i))) by (apply pd_psd; auto).
  set (qz := quad n (schur Q) (fun i => z (S i))) in *.
  assert (Hqz : 0 <= qz / p) by (apply Rmult_le_pos; [auto|left; now apply Rinv_0_lt_compat]).
  assert (HdQ := det_pos n _ QsS QpS). assert (HdP := det_pos n _ PsS PpS).
  set (dQ := det n (schur Q)) in *. set (dP := det n (schur P)) in *.
  assert (Hpq : 0 < p / q) by (now apply Rdiv_lt_0_compat).
  assert (Hpqq : p / q * q = p) by (field; lra).
  assert (K : p = q /\ y <= INR n /\ qz = 0 /\ dQ <= dP).
  { rewrite S_INR in HT. destruct (Nat.eq_dec n 0) as [->|Hn0].
    - unfold dQ, dP in *. cbn [det INR] in *. assert (p / q <= 1) by lra. assert (q <= p) by lra.
      assert (p <= q) by (apply Rmult_le_compat_r with (r := q) in H; lra). assert (p = q) by lra.
      split; auto. assert (p / q = 1) by (rewrite H2; field; lra).
      assert (qz / p = 0) by lra. split; [lra|]. split; [|lra].
      replace qz with (qz / p * p) by (field; lra). rewrite H4. ring.
    - assert (Hn : 0 < INR n) by (apply lt_0_INR; lia).
      assert (Hnn : 0 < INR n ^ n) by (now apply pow_lt).
      assert (HSn : 0 < INR (S n) ^ S n) by (apply pow_lt, lt_0_INR; lia).
      (* k^k <= (p/q) y^k *)
      assert (A : INR n ^ n <= p / q * y ^ n).
      { apply Rmult_le_reg_r with dQ; auto.
        apply Rle_trans with (INR n ^ n * (p / q * dP)).
        - apply Rmult_le_compat_l; [lra|]. apply Rmult_le_reg_r with q; auto. replace (p / q * dP * q) with (p / q * q * dP) by ring. rewrite Hpqq. lra.
        - replace (INR n ^ n * (p / q * dP)) with (p / q * (INR n ^ n * dP)) by ring.
          replace (p / q * y ^ n * dQ) with (p / q * (dQ * y ^ n)) by ring. apply Rmult_le_compat_l; lra. }
      assert (Bd : (p / q + y) ^ S n <= INR (S n) ^ S n).
      { apply pow_incr. rewrite S_INR. lra. }
      assert (Eq : y = INR n * (p / q)).
      { apply amgm_eq; try lra; try lia.
        apply Rle_trans with (INR n ^ n * INR (S n) ^ S n); [apply Rmult_le_compat_l; lra|].
        rewrite Rmult_comm. apply Rmult_le_compat_l; lra. }
      assert (p / q <= 1).
      { rewrite Eq in HT. apply Rnot_lt_le. intros Hc. assert (INR n * 1 < INR n * (p / q)) by (apply Rmult_lt_compat_l; lra). lra. }
      assert (1 <= p / q).
      { apply Rnot_lt_le. intros Hc. assert (y < INR n) by (rewrite Eq; rewrite <- (Rmult_1_r (INR n)) at 2; apply Rmult_lt_compat_l; lra).
        assert (y ^ n <= INR n ^ n) by (apply pow_incr; lra).
        assert (p / q * y ^ n <= p / q * INR n ^ n) by (apply Rmult_le_compat_l; lra).
        assert (p / q * INR n ^ n < 1 * INR n ^ n) by (apply Rmult_lt_compat_r; lra). lra. }
      assert (E1 : p / q = 1) by lra. assert (Epq : p = q) by (rewrite E1 in Hpqq; lra).
      assert (Ey : y = INR n) by (rewrite Eq, E1; ring).
      split; auto. split; [lra|]. split.
      + assert (Eqz : qz / p = 0) by lra. replace qz with (qz / p * p) by (field; lra). rewrite Eqz. ring.
      + rewrite Epq in Hdet. apply Rmult_le_reg_l with q; auto. }
  destruct K as (Epq & Hyn & Eqz & Hdd). specialize (IH Hyn Hdd).
  assert (Hzt : forall i, (i < n)%nat -> z (S i) = 0).
  { intros i Hi. destruct (Req_dec (z (S i)) 0); auto. exfalso.
    pose proof (QpS (fun i => z (S i)) (ex_intro _ i (conj Hi H))) as Hpos. fold qz in Hpos. lra. }
  assert (Hrow : forall i, (i < S n)%nat -> P 0%nat i = Q i 0%nat * z 0%nat).
  { intros i Hi. rewrite <- HQz by auto. unfold mulmv. rewrite Rsum_first, Rsum_zero; [ring|]. intros k Hk. rewrite Hzt by auto. ring. }
  assert (z0 : z 0%nat = 1).
  { pose proof (Hrow 0%nat ltac:(lia)) as H. fold p q in H. rewrite Epq in H. apply Rmult_eq_reg_l with q; lra. }
  assert (Hr0 : forall i, (i < S n)%nat -> P 0%nat i = Q 0%nat i).
  { intros i Hi. rewrite Hrow, z0, (Qs 0%nat i) by (auto; lia). ring. }
  intros [|i] [|j] Hi Hj; try (apply Hr0; lia).
  - rewrite (Ps (S i) 0%nat), (Qs (S i) 0%nat) by lia. apply Hr0; lia.
  - specialize (IH i j ltac:(lia) ltac:(lia)). unfold schur in IH. fold p q in IH.
    rewrite (Ps (S i) 0%nat), (Qs (S i) 0%nat), !Hr0, Epq in IH by lia. lra.
Qed.
