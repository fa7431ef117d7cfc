(** What the four power iterations return (C62-C64, C72, C73). *)
From Coq Require Import Reals List Arith Lia Lra ZArith Bool.
From Flocq Require Import Core.
From Verif Require Import Num Res Arr ArrLemmas Spec RealLin ExtDefined PowerIter PowerSpec PowerOps.
Import ListNotations.
Open Scope R_scope.

(** ** Scaling *)
Lemma dot_scale n c x : dot n (fun i => c * x i) (fun i => c * x i) = c * c * dot n x x.
Proof. rewrite dot_scal_l, dot_scal_r. ring. Qed.
Lemma norm2_scale n c x : 0 < c -> norm2 n (fun i => c * x i) = c * norm2 n x.
Proof.
  intros Hc. unfold norm2. rewrite dot_scale. rewrite sqrt_mult by (try apply dot_self_nonneg; nra).
  rewrite sqrt_square by lra. reflexivity.
Qed.
Lemma norm1_scale n c x : 0 < c -> norm1 n (fun i => c * x i) = c * norm1 n x.
Proof.
  intros Hc. unfold norm1. rewrite <- Rsum_scal. apply Rsum_ext. intros. rewrite Rabs_mult, (Rabs_pos_eq c) by lra. reflexivity.
Qed.
Lemma norm2_ext n x y : (forall i, (i < n)%nat -> x i = y i) -> norm2 n x = norm2 n y.
Proof. intros H. unfold norm2. f_equal. now apply dot_ext. Qed.
Lemma nonzero_scale n c x : 0 < c -> nonzero n (fun i => c * x i) <-> nonzero n x.
Proof. intros Hc. rewrite !norm2_pos, norm2_scale by auto. split; intros H; [|nra]. apply Rmult_lt_reg_l with c; lra. Qed.
Lemma nonzero_ext n x y : (forall i, (i < n)%nat -> x i = y i) -> nonzero n x <-> nonzero n y.
Proof. intros H. rewrite !norm2_pos. now rewrite (norm2_ext n x y). Qed.
Lemma along2_scale n c x i : 0 < c -> nonzero n x -> along2 n (fun i => c * x i) i = along2 n x i.
Proof. intros Hc Hx. apply norm2_pos in Hx. unfold along2. rewrite norm2_scale by auto. field. lra. Qed.
Lemma along1_scale n c x i : 0 < c -> nonzero n x -> along1 n (fun i => c * x i) i = along1 n x i.
Proof. intros Hc Hx. apply nonzero_norm1 in Hx. unfold along1. rewrite norm1_scale by auto. field. lra. Qed.
Lemma along2_ext n x y i : (forall i, (i < n)%nat -> x i = y i) -> (i < n)%nat -> along2 n x i = along2 n y i.
Proof. intros H Hi. unfold along2. rewrite (norm2_ext n x y), H; auto. Qed.
Lemma along1_ext n x y i : (forall i, (i < n)%nat -> x i = y i) -> (i < n)%nat -> along1 n x i = along1 n y i.
Proof. intros H Hi. unfold along1. rewrite (norm1_ext n x y), H; auto. Qed.
Lemma along2_mult n x : nonzero n x -> forall i, along2 n x i = / norm2 n x * x i.
Proof. intros Hx i. apply norm2_pos in Hx. unfold along2. field. lra. Qed.
Lemma along1_mult n x : nonzero n x -> forall i, along1 n x i = / norm1 n x * x i.
Proof. intros Hx i. apply nonzero_norm1 in Hx. unfold along1. field. lra. Qed.
Lemma mulmv_mult n M c x y i : (forall i, (i < n)%nat -> y i = c * x i) -> mulmv n M y i = c * mulmv n M x i.
Proof. intros H. rewrite <- mulmv_scal. apply mulmv_ext; auto. Qed.
Lemma unit_dot n x : nonzero n x -> dot n (along2 n x) (along2 n x) = 1.
Proof.
  intros Hx. pose proof Hx as Hd. apply norm2_pos in Hx. apply nonzero_dot in Hd.
  rewrite (dot_ext n _ _ (fun i => / norm2 n x * x i) (fun i => / norm2 n x * x i)) by (intros; unfold along2; field; lra).
  rewrite dot_scale. assert (norm2 n x * norm2 n x = dot n x x) as H by (apply sqrt_def; lra). rewrite <- H. field. lra.
Qed.
Lemma quad_unit n M x : nonzero n x -> quad n M (along2 n x) = rayleigh n M x.
Proof.
  intros Hx. pose proof Hx as Hd. apply norm2_pos in Hx. apply nonzero_dot in Hd.
  rewrite (quad_ext n M M _ (fun i => / norm2 n x * x i)) by (intros; unfold along2; auto; field; lra).
  rewrite quad_scal. unfold rayleigh. assert (norm2 n x * norm2 n x = dot n x x) as H by (apply sqrt_def; lra). rewrite <- H. field. lra.
Qed.
Lemma rayleigh_scale n M c x : 0 < c -> nonzero n x -> rayleigh n M (fun i => c * x i) = rayleigh n M x.
Proof.
  intros Hc Hx. apply nonzero_dot in Hx. unfold rayleigh. rewrite quad_scal, dot_scale. field. split; nra.
Qed.
Lemma rayleigh_ext n M x y : (forall i, (i < n)%nat -> x i = y i) -> rayleigh n M x = rayleigh n M y.
Proof. intros H. unfold rayleigh. rewrite (quad_ext n M M x y), (dot_ext n x x y y); auto. Qed.

Section Pow.
Variables (n : nat) (a : Arr ENum) (M : mtx).
Hypothesis Hn : (0 < n)%nat.
Hypothesis Ha : holds_mat n a M.
Variable v : vec.
Notation p := (pow_mv n M v).

Lemma pow_dead k : ~ nonzero n (p k) -> ~ nonzero n (p (S k)).
Proof.
  intros H (i & Hi & Hx). apply Hx. cbn [pow_mv]. unfold mulmv. apply Rsum_zero. intros j Hj.
  rewrite (not_nonzero n _ H j Hj). ring.
Qed.
Lemma pow_alive k : nonzero n (p (S k)) -> nonzero n (p k).
Proof. intros H. destruct (nonzero_dec n (p k)) as [|Hd]; auto. exfalso. now apply (pow_dead k Hd). Qed.

(** a state: the direction of M^k v, or NaN *)
Definition st2 k (x : Arr ENum) : Prop :=
  (nonzero n (p k) /\ holds n x (along2 n (p k))) \/ (~ nonzero n (p k) /\ undefined n x).
Definition st1 k (x : Arr ENum) : Prop :=
  (nonzero n (p k) /\ holds n x (along1 n (p k))) \/ (~ nonzero n (p k) /\ undefined n x).

Lemma step2 k x : st2 k x -> exists y z, a_dot_mv (N := ENum) a x = Ok y /\ p_unit (N := ENum) y = Ok z /\ st2 (S k) z /\ is_vec (N := ENum) n x.
Proof.
  intros [(Hk & Hx)|(Hk & Hx)].
  - destruct (mv_fin n a x M _ Hn Ha Hx) as (y & Ey & Hy). exists y.
    assert (Hc : 0 < / norm2 n (p k)) by (apply Rinv_0_lt_compat; now apply norm2_pos).
    assert (Hy' : holds n y (fun i => / norm2 n (p k) * p (S k) i)).
    { apply holds_ext with (1 := Hy). intros i Hi. cbn [pow_mv]. apply mulmv_mult. intros. now apply along2_mult. }
    destruct (nonzero_dec n (p (S k))) as [Hs|Hs].
    + destruct (unit_fin n y _ Hy') as (z & Ez & Hz); [now apply nonzero_scale|].
      exists z. split; [|split; [|split]]; eauto using holds_vec. left. split; auto. apply holds_ext with (1 := Hz).
      intros i Hi. now apply along2_scale.
    + destruct (unit_zero n y _ Hy') as (z & Ez & Hz); [now rewrite nonzero_scale|].
      exists z. split; [|split; [|split]]; eauto using holds_vec. right. auto.
  - destruct (mv_nan n a x M Hn Ha Hx) as (y & Ey & Hy). destruct (unit_nan n y Hn Hy) as (z & Ez & Hz).
    exists y, z. split; [|split; [|split]]; eauto using undef_vec. right. split; auto. now apply pow_dead.
Qed.
Lemma init2 x : holds n x v -> exists z, p_unit (N := ENum) x = Ok z /\ st2 0 z.
Proof.
  intros Hx. destruct (nonzero_dec n v) as [Hs|Hs].
  - destruct (unit_fin n x _ Hx) as (z & Ez & Hz); auto. exists z. split; auto. left. auto.
  - destruct (unit_zero n x _ Hx) as (z & Ez & Hz); auto. exists z. split; auto. right. auto.
Qed.
Lemma init1 x : holds n x v -> st1 0 (a_divs (N := ENum) x (norm_l1 (N := ENum) x)).
Proof.
  intros Hx. rewrite (l1_fin n x v) by auto. destruct (nonzero_dec n v) as [Hs|Hs].
  - left. split; auto. apply (divs_fin n x v (norm1 n v)); auto. apply nonzero_norm1 in Hs. lra.
  - right. split; auto. rewrite zero_norm1 by auto. apply divs_bad; eauto using holds_vec.
Qed.
Lemma step1 k x : st1 k x -> exists y, a_dot_mv (N := ENum) a x = Ok y /\ st1 (S k) (a_divs (N := ENum) y (norm_l1 (N := ENum) y)) /\ is_vec (N := ENum) n x.
Proof.
  intros [(Hk & Hx)|(Hk & Hx)].
  - destruct (mv_fin n a x M _ Hn Ha Hx) as (y & Ey & Hy). exists y. split; auto. split; eauto using holds_vec.
    assert (Hc : 0 < / norm1 n (p k)) by (apply Rinv_0_lt_compat; now apply nonzero_norm1).
    assert (Hy' : holds n y (fun i => / norm1 n (p k) * p (S k) i)).
    { apply holds_ext with (1 := Hy). intros i Hi. cbn [pow_mv]. apply mulmv_mult. intros. now apply along1_mult. }
    rewrite (l1_fin n y _ Hy'). rewrite norm1_scale by auto.
    destruct (nonzero_dec n (p (S k))) as [Hs|Hs].
    + left. split; auto. pose proof Hs as Hs'. apply nonzero_norm1 in Hs'.
      assert (Hd : holds n (a_divs (N := ENum) y (Fin (/ norm1 n (p k) * norm1 n (p (S k)))))
                     (fun i => / norm1 n (p k) * p (S k) i / (/ norm1 n (p k) * norm1 n (p (S k))))).
      { apply (divs_fin n y _ _ Hy'). assert (0 < / norm1 n (p k) * norm1 n (p (S k))) by (apply Rmult_lt_0_compat; auto). lra. }
      apply holds_ext with (1 := Hd). intros i Hi. unfold along1. apply nonzero_norm1 in Hk. field. split; lra.
    + right. split; auto. rewrite (zero_norm1 n (p (S k))) by auto. rewrite Rmult_0_r. apply divs_bad; eauto using holds_vec.
  - destruct (mv_nan n a x M Hn Ha Hx) as (y & Ey & Hy). exists y. split; auto. split; eauto using undef_vec.
    right. split; [now apply pow_dead|]. rewrite (l1_nan n y) by auto. apply divs_bad; eauto using undef_vec.
Qed.
Lemma st1_unit k x : st1 k x -> exists z, p_unit (N := ENum) x = Ok z /\ st2 k z.
Proof.
  intros [(Hk & Hx)|(Hk & Hx)].
  - assert (Hc : 0 < / norm1 n (p k)) by (apply Rinv_0_lt_compat; now apply nonzero_norm1).
    assert (Hx' : holds n x (fun i => / norm1 n (p k) * p k i)).
    { apply holds_ext with (1 := Hx). intros i Hi. now apply along1_mult. }
    destruct (unit_fin n x _ Hx') as (z & Ez & Hz); [now apply nonzero_scale|]. exists z. split; auto. left. split; auto.
    apply holds_ext with (1 := Hz). intros i Hi. now apply along2_scale.
  - destruct (unit_nan n x Hn Hx) as (z & Ez & Hz). exists z. split; auto. right. auto.
Qed.

(** the value that goes with a state *)
Definition val k (q : ext) : Prop :=
  (nonzero n (p k) /\ q = Fin (rayleigh n M (p k))) \/ (~ nonzero n (p k) /\ q = Nan).
Lemma st2_quot k x : st2 k x -> exists q, p_quot (N := ENum) a x = Ok q /\ val k q.
Proof.
  intros [(Hk & Hx)|(Hk & Hx)].
  - rewrite (quot_fin n a x M _ Hn Ha Hx). eexists. split; [reflexivity|]. left. split; auto. now rewrite quad_unit.
  - rewrite (quot_nan n a x M) by auto. eexists. split; [reflexivity|]. right. auto.
Qed.
Lemma st2_val k x : st2 k x -> exists y q, a_dot_mv (N := ENum) a x = Ok y /\ a_dot (N := ENum) x y = Ok q /\ val k q /\
  (nonzero n (p k) -> holds n y (fun i => / norm2 n (p k) * p (S k) i)) /\ (~ nonzero n (p k) -> undefined n y).
Proof.
  intros [(Hk & Hx)|(Hk & Hx)].
  - destruct (mv_fin n a x M _ Hn Ha Hx) as (y & Ey & Hy). exists y. eexists. split; auto.
    rewrite (dot_fin n x y _ _ Hx Hy). split; [reflexivity|]. split; [|split; [|tauto]].
    + left. split; auto. f_equal. now apply quad_unit.
    + intros _. apply holds_ext with (1 := Hy). intros i Hi. cbn [pow_mv]. apply mulmv_mult. intros. now apply along2_mult.
  - destruct (mv_nan n a x M Hn Ha Hx) as (y & Ey & Hy). exists y, Nan. split; auto.
    rewrite (dot_nan n x y) by eauto using undef_vec. split; [reflexivity|]. split; [|split; [tauto|auto]].
    right. auto.
Qed.

Variables (x0 : Arr ENum) (tol : R) (m : nat).
Hypothesis Hx0 : holds n x0 v.
Notation opt := (mkPOptions (N := ENum) m (Fin tol)).

(** iteration k passes its test *)
Definition agree2 k : Prop := nonzero n (p (S k)) /\ agree n tol (along2 n (p (S k))) (along2 n (p k)).
Definition agree1 k : Prop := nonzero n (p (S k)) /\ agree n tol (along1 n (p (S k))) (along1 n (p k)).
Definition level k : Prop := nonzero n (p (S k)) /\ Rabs (rayleigh n M (p k) - rayleigh n M (p (S k))) <= tol.

(** vector and value that belong to M^k v *)
Definition answer k (x : Arr ENum) (q : ext) : Prop := st2 k x /\ val k q.
Definition result (run : res (Arr ENum * (num ENum * nat))) (stop : nat -> Prop) : Prop :=
  (forall k, first_below m stop k -> exists x q, run = Ok (x, (q, k)) /\ answer (S k) x q) /\
  (none_below m stop -> exists x q, run = Ok (x, (q, m)) /\ answer m x q).

Lemma test2 k x z : st2 k x -> is_vec (N := ENum) n x -> st2 (S k) z ->
  exists t, p_close (N := ENum) (Fin tol) z x = Ok t /\ (t = true <-> agree2 k).
Proof.
  intros Hx Hv Hz. destruct Hz as [(Hs & Hz)|(Hs & Hz)].
  - destruct Hx as [(Hk & Hx)|(Hk & Hx)]; [|exfalso; apply Hk; now apply pow_alive].
    destruct (close_fin n tol z x _ _ Hz Hx) as (t & Et & Ht). exists t. split; auto. rewrite Ht. unfold agree2. tauto.
  - exists false. split; [now apply close_nan with n|]. split; [discriminate|]. intros [H _]. now elim Hs.
Qed.
Lemma test1 k x z : st1 k x -> is_vec (N := ENum) n x -> st1 (S k) z ->
  exists t, p_close (N := ENum) (Fin tol) z x = Ok t /\ (t = true <-> agree1 k).
Proof.
  intros Hx Hv Hz. destruct Hz as [(Hs & Hz)|(Hs & Hz)].
  - destruct Hx as [(Hk & Hx)|(Hk & Hx)]; [|exfalso; apply Hk; now apply pow_alive].
    destruct (close_fin n tol z x _ _ Hz Hx) as (t & Et & Ht). exists t. split; auto. rewrite Ht. unfold agree1. tauto.
  - exists false. split; [now apply close_nan with n|]. split; [discriminate|]. intros [H _]. now elim Hs.
Qed.

Lemma power1_result : result (power_iteration (N := ENum) a x0 opt) agree2.
Proof.
  unfold power_iteration. destruct (init2 x0 Hx0) as (z & -> & Hz). cbn [bind p_max_iters p_tolerance].
  match goal with |- result (bind (loop_range 0 m ?b z) _) _ => set (body := b) end.
  destruct (loop_first agree2 st2 (fun k (r : Arr ENum * (num ENum * nat)) => answer (S k) (fst r) (fst (snd r)) /\ snd (snd r) = k) body) with (m := m) (s := z) as [H1 H2]; auto.
  - intros k x Hk Hs. unfold body. destruct (step2 k x Hk) as (y & w & -> & E2 & Hw & Hv). cbn [bind]. rewrite E2. cbn [bind].
    destruct (test2 k x w Hk Hv Hw) as (t & -> & Ht). cbn [bind]. rewrite (proj2 Ht) by auto.
    destruct (st2_quot (S k) w Hw) as (q & -> & Hq). cbn [bind]. eexists. split; [reflexivity|]. cbn [fst snd]. split; auto. split; auto.
  - intros k x Hk Hs. unfold body. destruct (step2 k x Hk) as (y & w & -> & E2 & Hw & Hv). cbn [bind]. rewrite E2. cbn [bind].
    destruct (test2 k x w Hk Hv Hw) as (t & -> & Ht). cbn [bind]. destruct t; [exfalso; tauto|]. eauto.
  - split.
    + intros k Hk. destruct (H1 k Hk) as ([x [q j]] & -> & Hr & Hj). cbn [fst snd] in *. subst j. cbn [bind]. eauto.
    + intros Hk. destruct (H2 Hk) as (x & -> & Hr). cbn [bind]. destruct (st2_quot m x Hr) as (q & -> & Hq). cbn [bind].
      exists x, q. split; auto. split; auto.
Qed.
Lemma power4_result : result (power_iteration4 (N := ENum) a x0 opt) agree1.
Proof.
  unfold power_iteration4. pose proof (init1 x0 Hx0) as Hz. cbv zeta. cbn [p_max_iters p_tolerance].
  set (z := a_divs (N := ENum) x0 (norm_l1 (N := ENum) x0)) in *.
  match goal with |- result (bind (loop_range 0 m ?b z) _) _ => set (body := b) end.
  destruct (loop_first agree1 st1 (fun k (r : Arr ENum * (num ENum * nat)) => answer (S k) (fst r) (fst (snd r)) /\ snd (snd r) = k) body) with (m := m) (s := z) as [H1 H2]; auto.
  - intros k x Hk Hs. unfold body. destruct (step1 k x Hk) as (y & -> & Hw & Hv). cbn [bind].
    destruct (test1 k x _ Hk Hv Hw) as (t & -> & Ht). cbn [bind]. rewrite (proj2 Ht) by auto.
    destruct (st1_unit (S k) _ Hw) as (u & -> & Hu). cbn [bind].
    destruct (st2_quot (S k) u Hu) as (q & -> & Hq). cbn [bind]. eexists. split; [reflexivity|]. cbn [fst snd]. split; auto. split; auto.
  - intros k x Hk Hs. unfold body. destruct (step1 k x Hk) as (y & -> & Hw & Hv). cbn [bind].
    destruct (test1 k x _ Hk Hv Hw) as (t & -> & Ht). cbn [bind]. destruct t; [exfalso; tauto|]. eauto.
  - split.
    + intros k Hk. destruct (H1 k Hk) as ([x [q j]] & -> & Hr & Hj). cbn [fst snd] in *. subst j. cbn [bind]. eauto.
    + intros Hk. destruct (H2 Hk) as (x & -> & Hr). cbn [bind]. destruct (st1_unit m x Hr) as (u & -> & Hu). cbn [bind].
      destruct (st2_quot m u Hu) as (q & -> & Hq). cbn [bind].
      exists u, q. split; auto. split; auto.
Qed.

Lemma level_test k q q' : val k q -> val (S k) q' -> (nleb (n := ENum) (nabs (n := ENum) (nsub (n := ENum) q q')) (Fin tol) = true <-> level k).
Proof.
  intros Hq Hq'. destruct Hq' as [(Hs & ->)|(Hs & ->)].
  - destruct Hq as [(Hk & ->)|(Hk & ->)]; [|exfalso; apply Hk; now apply pow_alive].
    cbn [nleb nabs nsub ENum]. rewrite ext_sub_fin. cbn [ext_map ext_leb]. unfold level.
    destruct (Rle_bool_spec (Rabs (rayleigh n M (p k) - rayleigh n M (p (S k)))) tol); split; auto; try tauto; try discriminate. intros [_ H']. lra.
  - cbn [nsub ENum]. replace (ext_sub q Nan) with Nan by now destruct q. cbn. split; [discriminate|]. intros [H _]. now elim Hs.
Qed.

Definition st2v k (s : Arr ENum * Arr ENum * num ENum) : Prop :=
  let '(x, y, q) := s in st2 k x /\ val k q /\
  ((nonzero n (p k) /\ holds n y (fun i => / norm2 n (p k) * p (S k) i)) \/ (~ nonzero n (p k) /\ undefined n y)).
Lemma next2 k s : st2v k s -> exists z w q, p_unit (N := ENum) (snd (fst s)) = Ok z /\ a_dot_mv (N := ENum) a z = Ok w /\ a_dot (N := ENum) z w = Ok q /\ st2v (S k) (z, w, q).
Proof.
  destruct s as [[x y] e]. intros (Hx & He & Hy). cbn [fst snd].
  assert (Hz : exists z, p_unit (N := ENum) y = Ok z /\ st2 (S k) z).
  { destruct Hy as [(Hk & Hy)|(Hk & Hy)].
    - assert (Hc : 0 < / norm2 n (p k)) by (apply Rinv_0_lt_compat; now apply norm2_pos).
      destruct (nonzero_dec n (p (S k))) as [Hs|Hs].
      + destruct (unit_fin n y _ Hy) as (z & Ez & Hz); [now apply nonzero_scale|].
        exists z. split; auto. left. split; auto. apply holds_ext with (1 := Hz).
        intros i Hi. now apply along2_scale.
      + destruct (unit_zero n y _ Hy) as (z & Ez & Hz); [now rewrite nonzero_scale|]. exists z. split; auto. right. auto.
    - destruct (unit_nan n y Hn Hy) as (z & Ez & Hz). exists z. split; auto. right. split; auto. now apply pow_dead. }
  destruct Hz as (z & -> & Hz). destruct (st2_val (S k) z Hz) as (w & q & E1 & E2 & Hq & H1 & H2).
  exists z, w, q. split; auto. split; auto. split; auto. split; auto. split; auto.
  destruct (nonzero_dec n (p (S k))); auto.
Qed.
Lemma power2_result : result (power_iteration2 (N := ENum) a x0 opt) level.
Proof.
  unfold power_iteration2. destruct (init2 x0 Hx0) as (z & -> & Hz). cbn [bind p_max_iters p_tolerance].
  destruct (st2_val 0 z Hz) as (w & q & -> & E2 & Hq & Hw1 & Hw2). cbn [bind]. rewrite E2. cbn [bind].
  match goal with |- result (bind (loop_range 0 m ?b _) _) _ => set (body := b) end.
  destruct (loop_first level st2v (fun k (r : Arr ENum * (num ENum * nat)) => answer (S k) (fst r) (fst (snd r)) /\ snd (snd r) = k) body) with (m := m) (s := (z, w, q)) as [H1 H2]; auto.
  - intros k [[x y] e] Hk Hs. unfold body. destruct (next2 k _ Hk) as (z' & w' & q' & E3 & E4 & E5 & Hx'). cbn [fst snd] in E3. rewrite E3. cbn [bind]. rewrite E4. cbn [bind]. rewrite E5. cbn [bind].
    destruct Hk as (Hx & He & Hy). destruct Hx' as (Hz' & Hq' & Hw').
    rewrite (proj2 (level_test k e q' He Hq')) by auto. eexists. split; [reflexivity|]. cbn [fst snd]. split; auto. split; auto.
  - intros k [[x y] e] Hk Hs. unfold body. destruct (next2 k _ Hk) as (z' & w' & q' & E3 & E4 & E5 & Hx'). cbn [fst snd] in E3. rewrite E3. cbn [bind]. rewrite E4. cbn [bind]. rewrite E5. cbn [bind].
    destruct Hk as (Hx & He & Hy). pose proof (level_test k e q' He (proj1 (proj2 Hx'))) as Ht.
    destruct (nleb (n := ENum) (nabs (n := ENum) (nsub (n := ENum) e q')) (Fin tol)); [exfalso; tauto|]. eauto.
  - split; auto. split; auto. destruct (nonzero_dec n (p 0)); auto.
  - split.
    + intros k Hk. destruct (H1 k Hk) as ([x [q1 j]] & -> & Hr & Hj). cbn [fst snd] in *. subst j. cbn [bind]. eauto.
    + intros Hk. destruct (H2 Hk) as ([[x y] e] & -> & Hr). cbn [bind].
      destruct Hr as (Hx & He & Hy). exists x, e. split; auto. split; auto.
Qed.

(** Variant 3 keeps a positive multiple of M^k v. *)
Definition big : R := powerRZ 10 150.
Definition small_to k : Prop := forall j, (1 <= j <= k)%nat -> dot n (p j) (p j) < big.
Definition st3 k (s : Arr ENum * Arr ENum * num ENum) : Prop :=
  let '(x, y, q) := s in exists c, 0 < c /\ (small_to k -> c = 1) /\
  holds n x (fun i => c * p k i) /\ holds n y (fun i => c * p (S k) i) /\ val k q.
Lemma mul_one_big : IZR 1 * powerRZ 10 150 = big. Proof. unfold big. ring. Qed.
Lemma ratio_val k c q d : 0 < c -> q = Fin (c * c * quad n M (p k)) -> d = Fin (c * c * dot n (p k) (p k)) ->
  val k (ndiv (n := ENum) q d).
Proof.
  intros Hc -> ->. cbn [ndiv ENum]. destruct (nonzero_dec n (p k)) as [Hk|Hk].
  - left. split; auto. apply nonzero_dot in Hk. rewrite ext_div_fin by (apply Rgt_not_eq, Rmult_lt_0_compat; nra).
    f_equal. unfold rayleigh. field. split; nra.
  - right. split; auto. rewrite zero_dot by auto. rewrite Rmult_0_r. cbn [ext_div]. now rewrite Req_bool_true.
Qed.
Lemma scaled_next c y k : holds n y (fun i => c * p k i) -> exists w q, a_dot_mv (N := ENum) a y = Ok w /\ a_dot (N := ENum) y w = Ok q /\
  holds n w (fun i => c * p (S k) i) /\ q = Fin (c * c * quad n M (p k)).
Proof.
  intros Hy. destruct (mv_fin n a y M _ Hn Ha Hy) as (w & Ew & Hw). exists w. eexists. split; auto.
  rewrite (dot_fin n y w _ _ Hy Hw). split; [reflexivity|]. split.
  - apply holds_ext with (1 := Hw). intros i Hi. apply mulmv_scal.
  - f_equal. rewrite <- quad_scal. reflexivity.
Qed.
Definition answer3 k (x : Arr ENum) (q : ext) : Prop := val k q /\
  exists c, 0 < c /\ (small_to k -> c = 1) /\ holds n x (fun i => c * p k i).
Lemma power3_result :
  (forall k, first_below m level k -> exists x q, power_iteration3 (N := ENum) a x0 opt = Ok (x, (q, k)) /\ answer (S k) x q) /\
  (none_below m level -> exists x q, power_iteration3 (N := ENum) a x0 opt = Ok (x, (q, m)) /\ answer3 m x q).
Proof.
  unfold power_iteration3.
  assert (Hx1 : holds n x0 (fun i => 1 * p 0 i)) by (apply holds_ext with (1 := Hx0); intros; cbn [pow_mv]; ring).
  destruct (scaled_next 1 x0 0 Hx1) as (w & q & -> & Eq & Hw & Hq). cbn [bind].
  rewrite (dot_fin n x0 x0 v v) by auto. cbn [bind]. rewrite Eq. cbn [bind p_max_iters p_tolerance]. cbv zeta.
  match goal with |- context [loop_range 0 m ?b ?z] => set (body := b); set (s0 := z) end.
  assert (G : forall k s, st3 k s ->
      exists x' y' q', st3 (S k) (x', y', q') /\
       ((level k -> exists u, body k s = Ok (Done (u, (q', k))) /\ answer (S k) u q') /\
        (~ level k -> body k s = Ok (Next (x', y', q'))))).
  { intros k [[x y] e] (c & Hc & H1 & Hx & Hy & He). unfold body.
    rewrite (dot_fin n y y _ _ Hy Hy). cbn [bind]. rewrite dot_scale.
    change (nleb (n := ENum) (nlit (n := ENum) 1 150) (Fin (c * c * dot n (p (S k)) (p (S k))))) with (Rle_bool (IZR 1 * powerRZ 10 150) (c * c * dot n (p (S k)) (p (S k)))).
    rewrite mul_one_big.
    destruct (Rle_bool_spec big (c * c * dot n (p (S k)) (p (S k)))) as [Hb|Hb].
    - assert (Hbig : 0 < big) by (apply powerRZ_lt; lra).
      assert (Hs : nonzero n (p (S k))).
      { apply nonzero_dot. pose proof (dot_self_nonneg n (p (S k))). destruct (Req_dec (dot n (p (S k)) (p (S k))) 0) as [E0|]; [|lra]. rewrite E0 in Hb. lra. }
      destruct (unit_fin n y _ Hy) as (u & -> & Hu); [now apply nonzero_scale|]. cbn [bind].
      assert (Hu' : st2 (S k) u). { left. split; auto. apply holds_ext with (1 := Hu). intros i Hi. now apply along2_scale. }
      assert (Hc' : 0 < / norm2 n (p (S k))) by (apply Rinv_0_lt_compat; now apply norm2_pos).
      destruct (scaled_next (/ norm2 n (p (S k))) u (S k)) as (w' & q' & -> & Eq' & Hw' & Hq').
      { apply holds_ext with (1 := Hu). intros i Hi. rewrite along2_scale by auto. now apply along2_mult. }
      cbn [bind]. rewrite Eq'. cbn [bind].
      assert (Hv : val (S k) q').
      { left. split; auto. rewrite Hq'. f_equal. rewrite <- quad_unit by auto. symmetry. rewrite <- quad_scal. apply quad_ext; auto. intros. now apply along2_mult. }
      exists u, w', q'. pose proof (level_test k e q' He Hv) as Ht. split; [|split].
      + exists (/ norm2 n (p (S k))). split; auto. split; [|split; [|split]]; auto.
        * intros Hsm. exfalso. assert (c = 1) as -> by (apply H1; intros j Hj; apply Hsm; lia).
          specialize (Hsm (S k) ltac:(lia)). lra.
        * apply holds_ext with (1 := Hu). intros i Hi. rewrite along2_scale by auto. now apply along2_mult.
      + intros Hl. rewrite (proj2 Ht) by auto. exists u. split; auto. split; auto.
      + intros Hl. destruct (nleb (n := ENum) (nabs (n := ENum) (nsub (n := ENum) e q')) (Fin tol)); [exfalso; tauto|]. auto.
    - destruct (scaled_next c y (S k) Hy) as (w' & q' & -> & Eq' & Hw' & Hq'). cbn [bind]. rewrite Eq'. cbn [bind].
      set (r := ndiv (n := ENum) q' (Fin (c * c * dot n (p (S k)) (p (S k))))).
      assert (Hv : val (S k) r) by (apply ratio_val with c; auto).
      exists y, w', r. pose proof (level_test k e r He Hv) as Ht. split; [|split].
      + exists c. split; auto. split; [|split; [|split]]; auto. intros Hsm. apply H1. intros j Hj. apply Hsm. lia.
      + intros Hl. rewrite (proj2 Ht) by auto. destruct Hl as [Hs _].
        destruct (unit_fin n y _ Hy) as (u & -> & Hu); [now apply nonzero_scale|]. cbn [bind]. exists u. split; auto.
        split; auto. left. split; auto. apply holds_ext with (1 := Hu). intros i Hi. now apply along2_scale.
      + intros Hl. destruct (nleb (n := ENum) (nabs (n := ENum) (nsub (n := ENum) e r)) (Fin tol)); [exfalso; tauto|]. auto. }
  destruct (loop_first level st3 (fun k (r : Arr ENum * (num ENum * nat)) => answer (S k) (fst r) (fst (snd r)) /\ snd (snd r) = k) body) with (m := m) (s := s0) as [H1 H2].
  - intros k s Hk Hl. destruct (G k s Hk) as (x' & y' & q' & _ & G1 & _). destruct (G1 Hl) as (u & -> & Hu).
    eexists. split; [reflexivity|]. auto.
  - intros k s Hk Hl. destruct (G k s Hk) as (x' & y' & q' & Hs & _ & G2). rewrite (G2 Hl). eauto.
  - exists 1. split; [lra|]. split; auto. split; [|split]; auto.
    apply ratio_val with 1; auto; [lra|]. cbn [pow_mv]. f_equal. ring.
  - split.
    + intros k Hk. destruct (H1 k Hk) as ([x [q1 j]] & -> & Hr & Hj). cbn [fst snd] in *. subst j. cbn [bind]. eauto.
    + intros Hk. destruct (H2 Hk) as ([[x y] e] & -> & Hr). cbn [bind].
      destruct Hr as (c & Hc & Hc1 & Hx & Hy & He). exists x, e. split; auto. split; auto. exists c. auto.
Qed.
End Pow.
