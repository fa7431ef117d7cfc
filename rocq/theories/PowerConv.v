(** Convergence of the power iterations towards a dominant eigenpair. *)
From Coq Require Import Reals List Arith Lia Lra ZArith Bool.
From Coquelicot Require Import Coquelicot.
From Flocq Require Import Core.
From Verif Require Import Num Res Arr ArrLemmas Spec RealLin ExtDefined PowerIter PowerSpec PowerOps PowerProofs PowerMore.
Import ListNotations.
Open Scope R_scope.

Lemma lim_Rsum n (f : nat -> nat -> R) (g : nat -> R) : (forall i, (i < n)%nat -> is_lim_seq (fun k => f k i) (g i)) ->
  is_lim_seq (fun k => Rsum n (f k)) (Rsum n g).
Proof.
  induction n as [|n IH]; intros H; cbn [Rsum].
  - apply is_lim_seq_const.
  - apply is_lim_seq_plus'; [apply IH; intros; apply H; lia|apply H; lia].
Qed.
Lemma lim_dot n (f h : nat -> vec) (g l : vec) : (forall i, (i < n)%nat -> is_lim_seq (fun k => f k i) (g i)) ->
  (forall i, (i < n)%nat -> is_lim_seq (fun k => h k i) (l i)) -> is_lim_seq (fun k => dot n (f k) (h k)) (dot n g l).
Proof.
  intros H1 H2. apply lim_Rsum with (f := fun k i => f k i * h k i). intros i Hi. apply is_lim_seq_mult'; auto.
Qed.
Lemma lim_mulmv n M (f : nat -> vec) (g : vec) i : (forall i, (i < n)%nat -> is_lim_seq (fun k => f k i) (g i)) ->
  is_lim_seq (fun k => mulmv n M (f k) i) (mulmv n M g i).
Proof.
  intros H. apply lim_Rsum with (f := fun k j => M i j * f k j). intros j Hj. apply is_lim_seq_mult'; auto. apply is_lim_seq_const.
Qed.
Lemma lim_eventually (f : nat -> R) (l e : R) : is_lim_seq f l -> 0 < e -> exists K, forall k, (K <= k)%nat -> Rabs (f k - l) < e.
Proof. intros H He. apply is_lim_seq_spec in H. destruct (H (mkposreal e He)) as [K HK]. exists K. exact HK. Qed.
Lemma lim_sqrt (f : nat -> R) (l : R) : is_lim_seq f l -> is_lim_seq (fun k => sqrt (f k)) (sqrt l).
Proof. intros H. apply is_lim_seq_continuous with (f := sqrt); auto. apply continuity_pt_filterlim. apply continuous_sqrt. Qed.
Lemma lim_abs (f : nat -> R) (l : R) : is_lim_seq f l -> is_lim_seq (fun k => Rabs (f k)) (Rabs l).
Proof. intros H. apply (is_lim_seq_abs f l H). Qed.

Section Conv.
Variables (n : nat) (M : mtx) (v d w : vec) (lam rho C : R).
Hypothesis Hvdw : forall i, (i < n)%nat -> v i = d i + w i.
Hypothesis Hd : nonzero n d.
Hypothesis He : forall i, (i < n)%nat -> mulmv n M d i = lam * d i.
Hypothesis Hr : 0 <= rho < Rabs lam.
Hypothesis Hw : forall k i, (i < n)%nat -> Rabs (pow_mv n M w k i) <= C * rho ^ k.
Notation p := (pow_mv n M v).
Definition qd k : vec := fun i => p k i / lam ^ k.

Lemma lam0 : lam <> 0. Proof. intros H. rewrite H, Rabs_R0 in Hr. lra. Qed.
Lemma pow_split k i : (i < n)%nat -> p k i = lam ^ k * d i + pow_mv n M w k i.
Proof.
  revert i. induction k as [|k IH]; intros i Hi.
  - cbn [pow_mv pow]. rewrite Hvdw by auto. ring.
  - cbn [pow_mv]. rewrite (mulmv_ext n M M (p k) (fun j => lam ^ k * d j + pow_mv n M w k j)) by auto.
    rewrite mulmv_plus, mulmv_scal, He by auto. cbn [pow]. ring.
Qed.
Lemma qd_lim i : (i < n)%nat -> is_lim_seq (fun k => qd k i) (d i).
Proof.
  intros Hi. pose proof lam0 as L0. assert (La : 0 < Rabs lam) by lra.
  apply is_lim_seq_ext with (fun k => d i + pow_mv n M w k i / lam ^ k).
  { intros k. unfold qd. rewrite pow_split by auto. field. now apply pow_nonzero. }
  replace (Finite (d i)) with (Finite (d i + 0)) by (f_equal; ring). apply is_lim_seq_plus'; [apply is_lim_seq_const|].
  apply is_lim_seq_abs_0. apply is_lim_seq_le_le with (u := fun _ => 0) (w := fun k => C * (rho / Rabs lam) ^ k).
  - intros k. split; [apply Rabs_pos|]. unfold Rdiv. rewrite Rabs_mult, Rabs_inv, <- RPow_abs.
    rewrite Rpow_mult_distr, <- Rinv_pow by lra. rewrite <- Rmult_assoc. apply Rmult_le_compat_r.
    + apply Rlt_le, Rinv_0_lt_compat, pow_lt. auto.
    + auto.
  - apply is_lim_seq_const.
  - replace (Finite 0) with (Rbar_mult (Finite C) (Finite 0)) by (cbn; f_equal; ring). apply is_lim_seq_scal_l.
    apply is_lim_seq_geom. rewrite Rabs_pos_eq. 
    + apply Rmult_lt_reg_r with (Rabs lam); auto. unfold Rdiv. rewrite Rmult_assoc, Rinv_l by lra. lra.
    + apply Rmult_le_pos; [lra|]. apply Rlt_le, Rinv_0_lt_compat. auto.
Qed.
Lemma pow_q k i : p k i = lam ^ k * qd k i.
Proof. unfold qd. field. apply pow_nonzero, lam0. Qed.
Lemma dot_lim : is_lim_seq (fun k => dot n (qd k) (qd k)) (dot n d d).
Proof. apply lim_dot; intros; now apply qd_lim. Qed.
Lemma alive_from : exists K, forall k, (K <= k)%nat -> 0 < dot n (qd k) (qd k) /\ nonzero n (p k).
Proof.
  apply nonzero_dot in Hd. destruct (lim_eventually _ _ _ dot_lim Hd) as (K & HK). exists K. intros k Hk. specialize (HK k Hk).
  apply Rabs_def2 in HK. assert (0 < dot n (qd k) (qd k)) by lra. split; auto.
  apply nonzero_dot. rewrite (dot_ext n (p k) (p k) (fun i => lam ^ k * qd k i) (fun i => lam ^ k * qd k i)) by (intros; apply pow_q).
  rewrite dot_scale. apply Rmult_lt_0_compat; auto. pose proof (pow_nonzero lam k lam0). nra.
Qed.
Lemma alive_all k : nonzero n (p k).
Proof.
  destruct alive_from as (K & HK). destruct (HK (k + K)%nat ltac:(lia)) as [_ H]. clear HK.
  induction K as [|K IH]; [now rewrite Nat.add_0_r in H|]. apply IH. rewrite Nat.add_succ_r in H. now apply pow_alive in H.
Qed.
Lemma rayleigh_any c x : c <> 0 -> dot n x x <> 0 -> rayleigh n M (fun i => c * x i) = rayleigh n M x.
Proof. intros Hc Hx. unfold rayleigh. rewrite quad_scal, dot_scale. field. split; auto. Qed.
Lemma rayleigh_lim : is_lim_seq (fun k => rayleigh n M (p k)) lam.
Proof.
  pose proof (proj1 (nonzero_dot n d) Hd) as Hdd.
  assert (E : rayleigh n M d = lam). { apply (rayleigh_eig n M d lam 1); auto; try lra; intros; ring. }
  rewrite <- E.
  assert (Hq : is_lim_seq (fun k => rayleigh n M (qd k)) (rayleigh n M d)).
  { unfold rayleigh. apply is_lim_seq_div'; [|apply dot_lim|lra].
    unfold quad. apply lim_dot; [apply qd_lim|]. intros. apply lim_mulmv. apply qd_lim. }
  destruct alive_from as (K & HK). apply is_lim_seq_ext_loc with (2 := Hq). exists K. intros k Hk. destruct (HK k Hk) as [Hp _].
  rewrite (rayleigh_ext n M (p k) (fun i => lam ^ k * qd k i)) by (intros; apply pow_q). symmetry. apply rayleigh_any; [|lra].
  apply pow_nonzero, lam0.
Qed.

(** directions, with the sign removed *)
Definition sg : R := lam / Rabs lam.
Lemma sg_abs : Rabs sg = 1.
Proof. unfold sg, Rdiv. rewrite Rabs_mult, Rabs_inv, Rabs_Rabsolu. field. apply Rabs_no_R0, lam0. Qed.
Lemma sg_cases : sg = 1 \/ sg = -1.
Proof. pose proof sg_abs as H. unfold Rabs in H. destruct (Rcase_abs sg); lra. Qed.
Lemma dir2_q k i : 0 < dot n (qd k) (qd k) -> (i < n)%nat -> along2 n (p k) i = sg ^ k * along2 n (qd k) i.
Proof.
  intros Hp Hi. rewrite (along2_ext n (p k) (fun i => lam ^ k * qd k i)) by (auto; intros; apply pow_q).
  unfold along2. rewrite norm2_any, <- RPow_abs. unfold sg, Rdiv. rewrite Rpow_mult_distr, <- Rinv_pow by (apply Rabs_no_R0, lam0).
  apply nonzero_dot, norm2_pos in Hp. field. split; [lra|]. apply pow_nonzero, Rabs_no_R0, lam0.
Qed.
Lemma dir1_q k i : 0 < dot n (qd k) (qd k) -> (i < n)%nat -> along1 n (p k) i = sg ^ k * along1 n (qd k) i.
Proof.
  intros Hp Hi. rewrite (along1_ext n (p k) (fun i => lam ^ k * qd k i)) by (auto; intros; apply pow_q).
  unfold along1. rewrite norm1_any, <- RPow_abs. unfold sg, Rdiv. rewrite Rpow_mult_distr, <- Rinv_pow by (apply Rabs_no_R0, lam0).
  apply nonzero_dot, nonzero_norm1 in Hp. field. split; [lra|]. apply pow_nonzero, Rabs_no_R0, lam0.
Qed.
Lemma agree_signed tol x y x' y' k : (forall i, (i < n)%nat -> x' i = sg ^ S k * x i) -> (forall i, (i < n)%nat -> y' i = sg ^ k * y i) ->
  norm1 n (fun i => x i - y i) <= tol -> agree n tol x' y'.
Proof.
  intros Hx Hy H.
  assert (E : norm1 n (fun i => x' i - sg * y' i) = norm1 n (fun i => x i - y i)).
  { apply Rsum_ext. intros i Hi. rewrite Hx, Hy by auto. cbn [pow].
    replace (sg * sg ^ k * x i - sg * (sg ^ k * y i)) with (sg ^ S k * (x i - y i)) by (cbn [pow]; ring).
    rewrite Rabs_mult, <- RPow_abs, sg_abs, pow1. ring. }
  destruct sg_cases as [S1|S1]; rewrite S1 in E.
  - left. rewrite <- E in H. rewrite (norm1_ext n _ (fun i => x' i - 1 * y' i)); auto. intros; ring.
  - right. rewrite <- E in H. rewrite (norm1_ext n _ (fun i => x' i - -1 * y' i)); auto. intros; ring.
Qed.
Lemma steps_small (f : nat -> vec) (g : vec) tol : 0 < tol -> (forall i, (i < n)%nat -> is_lim_seq (fun k => f k i) (g i)) ->
  exists K, forall k, (K <= k)%nat -> norm1 n (fun i => f (S k) i - f k i) <= tol.
Proof.
  intros Ht H. assert (L : is_lim_seq (fun k => norm1 n (fun i => f (S k) i - f k i)) (Rsum n (fun i => Rabs (g i - g i)))).
  { apply lim_Rsum with (f := fun k i => Rabs (f (S k) i - f k i)). intros i Hi. apply lim_abs. apply is_lim_seq_minus'; auto.
    apply (is_lim_seq_incr_1 (fun k => f k i)). auto. }
  rewrite Rsum_zero in L by (intros; rewrite Rminus_eq_0; apply Rabs_R0).
  destruct (lim_eventually _ _ _ L Ht) as (K & HK). exists K. intros k Hk. specialize (HK k Hk). apply Rabs_def2 in HK. lra.
Qed.
Lemma dirs2_eventually tol : 0 < tol -> exists K, forall k, (K <= k)%nat -> dirs_agree2 n M v tol k.
Proof.
  intros Ht. destruct alive_from as (K1 & H1).
  destruct (steps_small (fun k => along2 n (qd k)) (along2 n d) tol Ht) as (K2 & H2).
  { intros i Hi. unfold along2. apply is_lim_seq_div'; [now apply qd_lim| |].
    - apply lim_sqrt. apply dot_lim.
    - apply norm2_pos in Hd. lra. }
  exists (max K1 K2). intros k Hk. split; [apply alive_all|].
  apply agree_signed with (x := along2 n (qd (S k))) (y := along2 n (qd k)) (k := k).
  - intros. apply dir2_q; auto. apply H1. lia.
  - intros. apply dir2_q; auto. apply H1. lia.
  - apply H2. lia.
Qed.
Lemma dirs1_eventually tol : 0 < tol -> exists K, forall k, (K <= k)%nat -> dirs_agree1 n M v tol k.
Proof.
  intros Ht. destruct alive_from as (K1 & H1).
  destruct (steps_small (fun k => along1 n (qd k)) (along1 n d) tol Ht) as (K2 & H2).
  { intros i Hi. unfold along1. apply is_lim_seq_div'; [now apply qd_lim| |].
    - apply lim_Rsum with (f := fun k i => Rabs (qd k i)). intros j Hj. apply lim_abs. now apply qd_lim.
    - apply nonzero_norm1 in Hd. lra. }
  exists (max K1 K2). intros k Hk. split; [apply alive_all|].
  apply agree_signed with (x := along1 n (qd (S k))) (y := along1 n (qd k)) (k := k).
  - intros. apply dir1_q; auto. apply H1. lia.
  - intros. apply dir1_q; auto. apply H1. lia.
  - apply H2. lia.
Qed.
Lemma levels_eventually tol : 0 < tol -> exists K, forall k, (K <= k)%nat -> levels_agree n M v tol k.
Proof.
  intros Ht. assert (L : is_lim_seq (fun k => rayleigh n M (p k) - rayleigh n M (p (S k))) (lam - lam)).
  { apply is_lim_seq_minus'; [apply rayleigh_lim|]. apply (is_lim_seq_incr_1 (fun k => rayleigh n M (p k))). apply rayleigh_lim. }
  destruct (lim_eventually _ _ _ L Ht) as (K & HK). exists K. intros k Hk. split; [apply alive_all|]. specialize (HK k Hk).
  replace (rayleigh n M (p k) - rayleigh n M (p (S k)) - (lam - lam)) with (rayleigh n M (p k) - rayleigh n M (p (S k))) in HK by ring. lra.
Qed.

(** the runs *)
Variables (a x0 : Arr ENum).
Hypothesis Hn : (0 < n)%nat.
Hypothesis Ha : holds_mat n a M.
Hypothesis Hx : holds n x0 v.
Lemma stop_first (stop : nat -> Prop) m K : (forall k, {stop k} + {~ stop k}) -> stop K -> (K < m)%nat ->
  exists k, (k <= K)%nat /\ first_below m stop k.
Proof.
  intros D HK Hm. destruct (first_or_none stop D (S K)) as [(k & Hk & Hs & Hb)|Hk].
  - exists k. split; [lia|]. split; [lia|]. auto.
  - exfalso. apply (Hk K); auto.
Qed.
Theorem power_terminates tol : 0 < tol -> exists K, forall m, (K < m)%nat ->
  forall run, variants a x0 (mkPOptions (N := ENum) m (Fin tol)) run -> exists x q k, run = Ok (x, (q, k)) /\ (k <= K)%nat.
Proof.
  intros Ht. destruct (dirs2_eventually tol Ht) as (K2 & H2). destruct (dirs1_eventually tol Ht) as (K1 & H1). destruct (levels_eventually tol Ht) as (K3 & H3).
  exists (max K1 (max K2 K3)). intros m Hm run [->|[->|[->| ->]]].
  - destruct (stop_first _ m (max K1 (max K2 K3)) (dirs2_dec n M v tol)) as (k & Hk & Hf); [apply H2; lia|auto|].
    destruct (power1_outcome n a x0 M v tol m Hn Ha Hx) as (P & _). destruct (P k Hf) as (_ & x & E & _). eauto 10.
  - destruct (stop_first _ m (max K1 (max K2 K3)) (levels_dec n M v tol)) as (k & Hk & Hf); [apply H3; lia|auto|].
    destruct (power2_outcome n a x0 M v tol m Hn Ha Hx) as (P & _). destruct (P k Hf) as (_ & x & E & _). eauto 10.
  - destruct (stop_first _ m (max K1 (max K2 K3)) (levels_dec n M v tol)) as (k & Hk & Hf); [apply H3; lia|auto|].
    destruct (power3_outcome n a x0 M v tol m Hn Ha Hx) as (P & _). destruct (P k Hf) as (_ & x & E & _). eauto 10.
  - destruct (stop_first _ m (max K1 (max K2 K3)) (dirs1_dec n M v tol)) as (k & Hk & Hf); [apply H1; lia|auto|].
    destruct (power4_outcome n a x0 M v tol m Hn Ha Hx) as (P & _). destruct (P k Hf) as (_ & x & E & _). eauto 10.
Qed.
Theorem power_converges eps : 0 < eps -> exists K, forall m tol run x q k,
  variants a x0 (mkPOptions (N := ENum) m (Fin tol)) run -> run = Ok (x, (q, k)) -> (K <= k)%nat ->
  exists l, q = Fin l /\ Rabs (l - lam) < eps.
Proof.
  intros Heps. destruct (lim_eventually _ _ _ rayleigh_lim Heps) as (K & HK). exists K. intros m tol run x q k Hv Er Hk.
  assert (G : exists j, (k <= j)%nat /\ q = Fin (rayleigh n M (p j))); [|destruct G as (j & Hj & ->); eexists; split; [reflexivity|]; apply HK; lia].
  assert (G : forall stop, (forall k, {stop k} + {~ stop k}) -> power_outcome n M v m stop run -> exists j, (k <= j)%nat /\ q = Fin (rayleigh n M (p j))).
  { intros stop D (P1 & P2 & P3). destruct (first_or_none _ D m) as [(j & Hj)|Hj].
    - destruct (P1 j Hj) as (Hz & y & E & _). rewrite E in Er. injection Er as _ <- <-. exists (S j). split; auto.
    - destruct (P2 Hj (alive_all m)) as (y & E & _). rewrite E in Er. injection Er as _ <- <-. exists m. auto. }
  destruct Hv as [->|[->|[->| ->]]].
  - apply (G _ (dirs2_dec n M v tol)). now apply power1_outcome.
  - apply (G _ (levels_dec n M v tol)). now apply power2_outcome.
  - destruct (power_2_3_agree n a x0 M v tol m Hn Ha Hx) as (x2 & x3 & q' & j & E2 & E3). rewrite E3 in Er. injection Er as _ -> ->.
    destruct (power2_outcome n a x0 M v tol m Hn Ha Hx) as (P1 & P2 & P3). destruct (first_or_none _ (levels_dec n M v tol) m) as [(i & Hj)|Hj].
    + destruct (P1 i Hj) as (Hz & y & E & _). rewrite E in E2. injection E2 as _ <- <-. exists (S i). auto.
    + destruct (P2 Hj (alive_all m)) as (y & E & _). rewrite E in E2. injection E2 as _ <- <-. exists m. auto.
  - apply (G _ (dirs1_dec n M v tol)). now apply power4_outcome.
Qed.
End Conv.
