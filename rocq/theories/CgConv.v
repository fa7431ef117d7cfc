(** The conjugate gradient method in exact arithmetic: orthogonality, finite
    termination, energy. *)
From Coq Require Import Reals List Arith Lia Lra.
From Verif Require Import Spec RealLin PowerSpec PowerOps CgSpec.
Open Scope R_scope.

(** ** No more than n nonzero mutually orthogonal vectors *)
Section Bessel.
Variables (n : nat) (V : nat -> vec) (j : nat).
Hypothesis Hj : (j < n)%nat.
Definition unitv : vec := fun i => if Nat.eqb i j then 1 else 0.
Fixpoint rest (m : nat) : vec :=
  match m with O => unitv | S k => fun i => rest k i - (V k j / dot n (V k) (V k)) * V k i end.
Lemma dot_unitv x : dot n unitv x = x j.
Proof.
  unfold dot. rewrite (Rsum_one n j); auto; [|intros i Hi Hne; unfold unitv; destruct (Nat.eqb_spec i j); [lia|ring]].
  unfold unitv. rewrite Nat.eqb_refl. ring.
Qed.
Lemma rest_dot m : (forall i k, (i < k <= m)%nat -> dot n (V i) (V k) = 0) ->
  forall k, (m <= k)%nat -> (forall i, (i < m)%nat -> dot n (V i) (V k) = 0) -> dot n (rest m) (V k) = V k j.
Proof.
  induction m as [|m IH]; intros Ho k Hk Hz; cbn [rest].
  - apply dot_unitv.
  - rewrite dot_minus_l, dot_scal_l, Hz by lia. rewrite IH; [ring| |lia|]; intros; [apply Ho|apply Hz]; lia.
Qed.
Lemma rest_self m : (forall k, (k < m)%nat -> dot n (V k) (V k) <> 0) -> (forall i k, (i < k < m)%nat -> dot n (V i) (V k) = 0) ->
  dot n (rest m) (rest m) = 1 - Rsum m (fun k => V k j * V k j / dot n (V k) (V k)).
Proof.
  induction m as [|m IH]; intros Hv Ho; cbn [rest Rsum].
  - rewrite dot_unitv. unfold unitv. rewrite Nat.eqb_refl. ring.
  - rewrite dot_minus_l, !dot_minus_r, !dot_scal_l, !dot_scal_r, (dot_comm n (V m) (rest m)).
    rewrite (rest_dot m) by (try lia; intros; apply Ho; lia). rewrite IH by (intros; try apply Hv; try apply Ho; lia).
    field. apply Hv. lia.
Qed.
End Bessel.
Lemma Rsum_const m c : Rsum m (fun _ => c) = INR m * c.
Proof. induction m as [|m IH]; [simpl; ring|]. rewrite S_INR. cbn [Rsum]. rewrite IH. ring. Qed.
Lemma orthogonal_at_most n V m : (forall k, (k < m)%nat -> dot n (V k) (V k) <> 0) ->
  (forall i k, (i < k < m)%nat -> dot n (V i) (V k) = 0) -> (m <= n)%nat.
Proof.
  intros Hv Ho. apply INR_le.
  assert (H : Rsum n (fun j => Rsum m (fun k => V k j * V k j / dot n (V k) (V k))) <= Rsum n (fun _ => 1)).
  { apply Rsum_le. intros j Hj. pose proof (dot_self_nonneg n (rest n V j m)) as H. rewrite (rest_self n V j Hj m Hv Ho) in H. lra. }
  rewrite Rsum_swap in H. rewrite (Rsum_ext m _ (fun _ => 1)) in H.
  - rewrite !Rsum_const in H. lra.
  - intros k Hk. unfold Rdiv. rewrite Rsum_scal_r. change (Rsum n (fun i => V k i * V k i)) with (dot n (V k) (V k)).
    apply Rinv_r. auto.
Qed.

(** ** The sequence *)
Section Seq.
Variables (n : nat) (M : mtx) (b x0 : vec).
Hypothesis Hs : sym n M.
Notation sq := (cg_seq n M b x0).
Notation r k := (cr (sq k)).
Notation p k := (cp (sq k)).
Notation x k := (cx (sq k)).
Notation al k := (dot n (r k) (r k) / quad n M (p k)).
Notation be k := (dot n (r (S k)) (r (S k)) / dot n (r k) (r k)).
(** neither division of round k is by zero *)
Definition alive (k : nat) : Prop := quad n M (p k) <> 0 /\ dot n (r k) (r k) <> 0.

Lemma r_S k : r (S k) = fun i => r k i - al k * mulmv n M (p k) i. Proof. reflexivity. Qed.
Lemma p_S k : p (S k) = fun i => r (S k) i + be k * p k i. Proof. reflexivity. Qed.
Lemma x_S k : x (S k) = fun i => x k i + al k * p k i. Proof. reflexivity. Qed.
Lemma r_is_resid k i : r k i = b i - mulmv n M (x k) i.
Proof.
  induction k as [|k IH]; [reflexivity|]. rewrite r_S, x_S, mulmv_plus, mulmv_scal, IH. ring.
Qed.
Lemma dot_r_S k y : dot n y (r (S k)) = dot n y (r k) - al k * dot n y (mulmv n M (p k)).
Proof. rewrite r_S, dot_minus_r, dot_scal_r. reflexivity. Qed.
Lemma dot_p_S k y : dot n y (p (S k)) = dot n y (r (S k)) + be k * dot n y (p k).
Proof. rewrite p_S, dot_plus_r, dot_scal_r. reflexivity. Qed.
Lemma Mdot_p_S k y : dot n y (mulmv n M (p (S k))) = dot n y (mulmv n M (r (S k))) + be k * dot n y (mulmv n M (p k)).
Proof.
  rewrite <- dot_scal_r, <- dot_plus_r. apply dot_ext; auto. intros i Hi. rewrite p_S, mulmv_plus, mulmv_scal. reflexivity.
Qed.

(** [p_k . r_k = r_k . r_k] and [p_k . r_(k+1) = 0] *)
Lemma p_r k : (forall j, (j < k)%nat -> alive j) -> dot n (p k) (r k) = dot n (r k) (r k).
Proof.
  induction k as [|k IH]; intros H; [reflexivity|]. rewrite (dot_comm n (p (S k))), dot_p_S.
  assert (Z : dot n (r (S k)) (p k) = 0); [|rewrite Z; ring].
  rewrite (dot_comm n (r (S k))), dot_r_S, IH by (intros; apply H; lia).
  change (dot n (p k) (mulmv n M (p k))) with (quad n M (p k)). field. apply H. lia.
Qed.
Lemma p_r_next k : (forall j, (j <= k)%nat -> alive j) -> dot n (p k) (r (S k)) = 0.
Proof.
  intros H. rewrite dot_r_S, p_r by (intros; apply H; lia).
  change (dot n (p k) (mulmv n M (p k))) with (quad n M (p k)). field. apply H. lia.
Qed.
Lemma p_nonzero k : (forall j, (j < k)%nat -> alive j) -> dot n (r k) (r k) <> 0 -> nonzero n (p k).
Proof.
  intros H Hr. destruct (nonzero_dec n (p k)) as [|Hn]; auto. exfalso. apply Hr. rewrite <- p_r by auto.
  unfold dot. apply Rsum_zero. intros i Hi. rewrite (not_nonzero _ _ Hn i Hi). ring.
Qed.

(** a functional vanishing on p_0 .. p_k vanishes on r_0 .. r_k *)
Lemma r_from_p k y : (forall j, (j <= k)%nat -> dot n (p j) y = 0) -> forall j, (j <= k)%nat -> dot n (r j) y = 0.
Proof.
  intros H j Hj. destruct j as [|j]; [exact (H 0%nat Hj)|].
  pose proof (H (S j) Hj) as H1. rewrite (dot_comm n (p (S j))), dot_p_S, (dot_comm n y (p j)), (H j) in H1 by lia.
  rewrite dot_comm. lra.
Qed.
Lemma Mp_dot k y : alive k -> dot n (p k) (mulmv n M y) = (dot n (r k) y - dot n (r (S k)) y) / al k.
Proof.
  intros [A B]. rewrite (sym_dot n M _ _ Hs), (dot_comm n (r k)), (dot_comm n (r (S k))), dot_r_S.
  field. split; auto.
Qed.

Lemma conjugate k : (forall j, (j < k)%nat -> alive j) ->
  (forall i, (i < k)%nat -> dot n (p i) (r k) = 0) /\
  (forall i, (i < k)%nat -> dot n (r i) (r k) = 0) /\
  (forall i, (i < k)%nat -> dot n (p i) (mulmv n M (p k)) = 0).
Proof.
  induction k as [|k IH]; intros H; [split; [|split]; intros; lia|].
  destruct IH as (I1 & I2 & I3); [intros; apply H; lia|].
  assert (A1 : forall i, (i < S k)%nat -> dot n (p i) (r (S k)) = 0).
  { intros i Hi. destruct (Nat.eq_dec i k) as [->|Hne]; [apply p_r_next; intros; apply H; lia|].
    rewrite dot_r_S, I1, I3 by lia. ring. }
  assert (A2 : forall i, (i < S k)%nat -> dot n (r i) (r (S k)) = 0).
  { intros i Hi. apply (r_from_p k); [|lia]. intros j Hj. apply A1. lia. }
  split; [|split]; auto. intros i Hi. rewrite Mdot_p_S, Mp_dot by (apply H; lia). rewrite (A2 i) by lia.
  destruct (Nat.eq_dec i k) as [->|Hne].
  - change (dot n (p k) (mulmv n M (p k))) with (quad n M (p k)). destruct (H k ltac:(lia)) as [B1 B2]. field. split; auto.
  - rewrite (A2 (S i)), I3 by lia. unfold Rdiv. ring.
Qed.
(** within n rounds a residual vanishes or a division by zero occurs *)
Lemma runs_out : exists k, (k <= n)%nat /\ (forall j, (j < k)%nat -> alive j) /\ ~ alive k.
Proof.
  assert (D : forall k, alive k \/ ~ alive k) by (intros k; unfold alive; destruct (Req_dec (quad n M (p k)) 0), (Req_dec (dot n (r k) (r k)) 0); tauto).
  assert (G : forall m, (forall j, (j < m)%nat -> alive j) \/ exists k, (k < m)%nat /\ (forall j, (j < k)%nat -> alive j) /\ ~ alive k).
  { induction m as [|m [IH|(k & Hk & IH)]]; [left; intros; lia| |right; exists k; split; [lia|exact IH]].
    destruct (D m) as [Hm|Hm]; [left|right].
    - intros j Hj. destruct (Nat.eq_dec j m) as [->|]; auto. apply IH. lia.
    - exists m. split; auto. }
  destruct (G (S n)) as [H|(k & Hk & H)]; [|exists k; split; [lia|exact H]]. exfalso.
  assert (S n <= n)%nat; [|lia]. apply (orthogonal_at_most n (fun k => r k)).
  - intros k Hk. now apply H.
  - intros i k Hk. apply conjugate; [|lia]. intros j Hj. apply H. lia.
Qed.

(** ** Termination, when p'Mp > 0 for the directions met *)
Lemma finishes : (forall k, (forall j, (j < k)%nat -> alive j) -> nonzero n (p k) -> quad n M (p k) <> 0) ->
  exists k, (k <= n)%nat /\ (forall j, (j < k)%nat -> alive j) /\ dot n (r k) (r k) = 0.
Proof.
  intros Hq. destruct runs_out as (k & Hk & Hl & Hd). exists k. split; auto. split; auto.
  destruct (Req_dec (dot n (r k) (r k)) 0) as [|Hr]; auto. elim Hd. split; auto. apply Hq; auto. now apply p_nonzero.
Qed.

(** ** Range of the directions *)
Lemma in_range z : (forall i, (i < n)%nat -> mulmv n M z i = b i) -> forall k,
  (exists w, forall i, (i < n)%nat -> r k i = mulmv n M w i) /\ (exists w, forall i, (i < n)%nat -> p k i = mulmv n M w i).
Proof.
  intros Hz k.
  assert (R : forall k, exists w, forall i, (i < n)%nat -> r k i = mulmv n M w i).
  { intros k0. exists (fun i => z i - x k0 i). intros i Hi. rewrite mulmv_minus, Hz, r_is_resid by auto. reflexivity. }
  split; auto. induction k as [|k (w & Hw)]; [apply (R 0%nat)|].
  destruct (R (S k)) as (u & Hu). exists (fun i => u i + be k * w i). intros i Hi.
  rewrite mulmv_plus, mulmv_scal, <- Hu, <- Hw by auto. reflexivity.
Qed.
Lemma psd_direction z k : psd n M -> (forall i, (i < n)%nat -> mulmv n M z i = b i) -> nonzero n (p k) -> 0 < quad n M (p k).
Proof.
  intros Hp Hz Hn. pose proof (Hp (p k)) as H. destruct (Req_dec (quad n M (p k)) 0) as [E|]; [|lra]. exfalso.
  pose proof (psd_kernel n M (p k) Hs Hp E) as K. destruct (in_range z Hz k) as [_ (w & Hw)].
  apply nonzero_dot in Hn. rewrite (dot_ext n _ _ (p k) (mulmv n M w)) in Hn by auto. rewrite (sym_dot n M _ _ Hs) in Hn.
  unfold dot in Hn. rewrite Rsum_zero in Hn; [lra|]. intros i Hi. rewrite K by auto. ring.
Qed.

(** ** Energy *)
Lemma energy_step z k : (forall i, (i < n)%nat -> mulmv n M z i = b i) -> (forall j, (j <= k)%nat -> alive j) ->
  energy n M z (x (S k)) = energy n M z (x k) - dot n (r k) (r k) * dot n (r k) (r k) / quad n M (p k).
Proof.
  intros Hz H. unfold energy.
  set (e := fun i => x k i - z i).
  rewrite (quad_ext n M M (fun i => x (S k) i - z i) (fun i => e i + al k * p k i)) by (auto; intros; unfold e; rewrite x_S; ring).
  assert (A : quad n M (fun i => e i + al k * p k i) =
    quad n M e + 2 * al k * dot n (p k) (mulmv n M e) + al k * al k * quad n M (p k)).
  { change (quad n M (fun i => e i + al k * p k i)) with (dot n (fun i => e i + al k * p k i) (mulmv n M (fun i => e i + al k * p k i))).
    rewrite (dot_ext n _ (mulmv n M (fun i => e i + al k * p k i)) (fun i => e i + al k * p k i) (fun i => mulmv n M e i + al k * mulmv n M (p k) i)) by (auto; intros; now rewrite mulmv_plus, mulmv_scal).
    rewrite dot_plus_l, !dot_plus_r, !dot_scal_l, !dot_scal_r, (sym_dot n M e (p k) Hs). unfold quad. ring. }
  rewrite A. assert (B : dot n (p k) (mulmv n M e) = - dot n (r k) (r k)).
  { rewrite (dot_ext n (p k) _ (p k) (fun i => (-1) * r k i)).
    - rewrite dot_scal_r, p_r by (intros; apply H; lia). ring.
    - auto.
    - intros i Hi. unfold e. rewrite mulmv_minus, Hz, r_is_resid by auto. ring. }
  rewrite B. destruct (H k (le_n k)) as [B1 B2]. field. auto.
Qed.

(** ** Krylov spaces *)
Notation krylov := (CgSpec.krylov n M b x0).
Lemma kry_zero k : krylov k (fun _ => 0).
Proof. exists (fun _ => 0). intros. symmetry. apply Rsum_zero. intros. ring. Qed.
Lemma kry_ext k y w : krylov k y -> (forall i, (i < n)%nat -> w i = y i) -> krylov k w.
Proof. intros (c & H) Hw. exists c. intros. rewrite Hw; auto. Qed.
Lemma kry_up k y : krylov k y -> krylov (S k) y.
Proof.
  intros (c & H). exists (fun j => if Nat.eqb j k then 0 else c j). intros i Hi. cbn [Rsum]. rewrite Nat.eqb_refl, H by auto.
  rewrite Rmult_0_l, Rplus_0_r. apply Rsum_ext. intros j Hj. destruct (Nat.eqb_spec j k); [lia|reflexivity].
Qed.
Lemma kry_lin k y w t : krylov k y -> krylov k w -> krylov k (fun i => y i + t * w i).
Proof.
  intros (c & Hc) (d & Hd). exists (fun j => c j + t * d j). intros i Hi. rewrite Hc, Hd, <- Rsum_scal, <- Rsum_plus by auto.
  apply Rsum_ext. intros. ring.
Qed.
Lemma mulmv_sum k (V : nat -> vec) c i : mulmv n M (fun i => Rsum k (fun j => c j * V j i)) i = Rsum k (fun j => c j * mulmv n M (V j) i).
Proof.
  induction k as [|k IH]; cbn [Rsum].
  - unfold mulmv. apply Rsum_zero. intros. ring.
  - rewrite mulmv_plus, mulmv_scal, IH. reflexivity.
Qed.
Lemma Rsum_head k f : Rsum (S k) f = f 0%nat + Rsum k (fun j => f (S j)).
Proof. induction k as [|k IH]; [simpl; ring|]. cbn [Rsum] in *. rewrite IH. ring. Qed.
Lemma kry_mul k y : krylov k y -> krylov (S k) (mulmv n M y).
Proof.
  intros (c & H). exists (fun j => match j with O => 0 | S j => c j end). intros i Hi.
  rewrite (mulmv_ext n M M y (fun i => Rsum k (fun j => c j * pow_mv n M (resid n M b x0) j i))) by auto.
  rewrite mulmv_sum, Rsum_head. cbn [pow_mv]. ring.
Qed.
Lemma in_krylov k : krylov k (fun i => x k i - x0 i) /\ krylov (S k) (r k) /\ krylov (S k) (p k).
Proof.
  assert (K1 : krylov 1 (r 0%nat)).
  { exists (fun _ => 1). intros i Hi. cbn [Rsum pow_mv]. unfold resid. cbn [cg_seq cr]. ring. }
  induction k as [|k (I1 & I2 & I3)].
  - split; [|split]; auto. apply (kry_ext 0 (fun _ => 0)); [apply kry_zero|]. intros. cbn [cg_seq cx]. ring.
  - assert (Hr : krylov (S (S k)) (r (S k))).
    { apply (kry_ext _ (fun i => r k i + (- al k) * mulmv n M (p k) i)).
      - apply kry_lin; [now apply kry_up|now apply kry_mul].
      - intros i Hi. rewrite r_S. ring. }
    split; [|split]; auto.
    + apply (kry_ext _ (fun i => (x k i - x0 i) + al k * p k i)); [apply kry_lin; auto; now apply kry_up|]. intros i Hi. rewrite x_S. ring.
    + rewrite p_S. apply kry_lin; auto. now apply kry_up.
Qed.
Lemma kry_orth i : forall k w, (i < k)%nat -> (forall j, (j < k)%nat -> alive j) -> (forall j, (j < k)%nat -> dot n (p j) w = 0) ->
  dot n (pow_mv n M (resid n M b x0) i) w = 0.
Proof.
  induction i as [|i IH]; intros k w Hi Ha H.
  - cbn [pow_mv]. exact (H 0%nat Hi).
  - cbn [pow_mv]. rewrite dot_comm, (sym_dot n M _ _ Hs). destruct k as [|k]; [lia|]. apply (IH k); [lia|intros; apply Ha; lia|].
    intros j Hj. rewrite Mp_dot by (apply Ha; lia).
    assert (R : forall l, (l <= k)%nat -> dot n (r l) w = 0) by (apply r_from_p; intros; apply H; lia).
    rewrite !R by lia. unfold Rdiv. ring.
Qed.
Lemma dot_sum k (V : nat -> vec) c w : dot n (fun i => Rsum k (fun j => c j * V j i)) w = Rsum k (fun j => c j * dot n (V j) w).
Proof.
  induction k as [|k IH]; cbn [Rsum].
  - unfold dot. apply Rsum_zero. intros. ring.
  - rewrite dot_plus_l, dot_scal_l, IH. reflexivity.
Qed.
Lemma kry_perp k y : (forall j, (j < k)%nat -> alive j) -> krylov k y -> dot n y (r k) = 0.
Proof.
  intros Ha (c & Hc). rewrite (dot_ext n y (r k) _ (r k) Hc) by auto. rewrite dot_sum. apply Rsum_zero. intros j Hj.
  rewrite (kry_orth j k); auto; [ring|]. intros l Hl. now apply conjugate.
Qed.
Lemma optimal z k y : psd n M -> (forall i, (i < n)%nat -> mulmv n M z i = b i) -> (forall j, (j < k)%nat -> alive j) ->
  krylov k (fun i => y i - x0 i) -> energy n M z (x k) <= energy n M z y.
Proof.
  intros Hp Hz Ha Hy. unfold energy. set (e := fun i => x k i - z i). set (d := fun i => y i - x k i).
  rewrite (quad_ext n M M (fun i => y i - z i) (fun i => e i + d i)) by (auto; intros; unfold e, d; ring).
  assert (A : quad n M (fun i => e i + d i) = quad n M e + 2 * dot n d (mulmv n M e) + quad n M d).
  { unfold quad at 1. rewrite (dot_ext n _ (mulmv n M (fun i => e i + d i)) (fun i => e i + d i) (fun i => mulmv n M e i + mulmv n M d i)) by (auto; intros; now rewrite mulmv_plus).
    rewrite dot_plus_l, !dot_plus_r, (sym_dot n M e d Hs). unfold quad. ring. }
  rewrite A. assert (B : dot n d (mulmv n M e) = 0).
  { rewrite (dot_ext n d _ d (fun i => (-1) * r k i)).
    - rewrite dot_scal_r, (kry_perp k d); [ring|auto|].
      destruct (in_krylov k) as [I _].
      apply (kry_ext _ (fun i => (y i - x0 i) + (-1) * (x k i - x0 i))); [now apply kry_lin|]. intros. unfold d. ring.
    - auto.
    - intros i Hi. unfold e. rewrite mulmv_minus, Hz, r_is_resid by auto. ring. }
  rewrite B. pose proof (Hp d). lra.
Qed.
End Seq.
