(** Consequences of what the power iterations return. *)
From Coq Require Import Reals List Arith Lia Lra ZArith Bool.
From Flocq Require Import Core.
From Verif Require Import Num Res Arr ArrLemmas Spec RealLin ExtDefined PowerIter PowerSpec PowerOps PowerProofs.
Import ListNotations.
Open Scope R_scope.

Lemma first_or_none (P : nat -> Prop) : (forall k, {P k} + {~ P k}) -> forall m, (exists k, first_below m P k) \/ none_below m P.
Proof.
  intros D. induction m as [|m IH].
  - right. intros j Hj. lia.
  - destruct IH as [(k & Hk & HP & Hb)|Hn].
    + left. exists k. split; auto.
    + destruct (D m) as [H|H].
      * left. exists m. split; auto.
      * right. intros j Hj. destruct (Nat.eq_dec j m) as [->|]; auto. apply Hn. lia.
Qed.
Lemma agree_dec n tol x y : {agree n tol x y} + {~ agree n tol x y}.
Proof.
  unfold agree. destruct (Rle_dec (norm1 n (fun i => x i - y i)) tol); [left; auto|].
  destruct (Rle_dec (norm1 n (fun i => x i + y i)) tol); [left; auto|]. right. tauto.
Qed.
Lemma dirs2_dec n M v tol k : {dirs_agree2 n M v tol k} + {~ dirs_agree2 n M v tol k}.
Proof.
  unfold dirs_agree2. destruct (nonzero_dec n (pow_mv n M v (S k))); [|right; tauto].
  destruct (agree_dec n tol (along2 n (pow_mv n M v (S k))) (along2 n (pow_mv n M v k))); [left|right]; tauto.
Qed.
Lemma dirs1_dec n M v tol k : {dirs_agree1 n M v tol k} + {~ dirs_agree1 n M v tol k}.
Proof.
  unfold dirs_agree1. destruct (nonzero_dec n (pow_mv n M v (S k))); [|right; tauto].
  destruct (agree_dec n tol (along1 n (pow_mv n M v (S k))) (along1 n (pow_mv n M v k))); [left|right]; tauto.
Qed.
Lemma levels_dec n M v tol k : {levels_agree n M v tol k} + {~ levels_agree n M v tol k}.
Proof.
  unfold levels_agree. destruct (nonzero_dec n (pow_mv n M v (S k))); [|right; tauto].
  destruct (Rle_dec (Rabs (rayleigh n M (pow_mv n M v k) - rayleigh n M (pow_mv n M v (S k)))) tol); [left|right]; tauto.
Qed.

Lemma result_outcome n M v m (stop : nat -> Prop) run : (forall k, stop k -> nonzero n (pow_mv n M v (S k))) ->
  result n M v m run stop -> power_outcome n M v m stop run.
Proof.
  intros Hs [H1 H2]. split; [|split].
  - intros k Hk. assert (Hz : nonzero n (pow_mv n M v (S k))) by (apply Hs; apply Hk). split; auto.
    destruct (H1 k Hk) as (x & q & E & [(_ & Hx)|(Hz' & _)] & [(_ & Hq)|(Hz'' & _)]); try (exfalso; tauto).
    exists x. subst q. auto.
  - intros Hk Hz. destruct (H2 Hk) as (x & q & E & [(_ & Hx)|(Hz' & _)] & [(_ & Hq)|(Hz'' & _)]); try (exfalso; tauto).
    exists x. subst q. auto.
  - intros Hk Hz. destruct (H2 Hk) as (x & q & E & [(Hz' & _)|(_ & Hx)] & [(Hz'' & _)|(_ & Hq)]); try (exfalso; tauto).
    exists x. subst q. auto.
Qed.

Section One.
Variables (n : nat) (a x0 : Arr ENum) (M : mtx) (v : vec) (tol : R) (m : nat).
Hypothesis Hn : (0 < n)%nat.
Hypothesis Ha : holds_mat n a M.
Hypothesis Hx : holds n x0 v.
Notation opt := (mkPOptions (N := ENum) m (Fin tol)).
Notation p := (pow_mv n M v).

Theorem power1_outcome : power_outcome n M v m (dirs_agree2 n M v tol) (power_iteration (N := ENum) a x0 opt).
Proof. apply result_outcome; [intros k H; apply H|]. now apply (power1_result n a M Hn Ha v x0 tol m Hx). Qed.
Theorem power4_outcome : power_outcome n M v m (dirs_agree1 n M v tol) (power_iteration4 (N := ENum) a x0 opt).
Proof. apply result_outcome; [intros k H; apply H|]. now apply (power4_result n a M Hn Ha v x0 tol m Hx). Qed.
Theorem power2_outcome : power_outcome n M v m (levels_agree n M v tol) (power_iteration2 (N := ENum) a x0 opt).
Proof. apply result_outcome; [intros k H; apply H|]. now apply (power2_result n a M Hn Ha v x0 tol m Hx). Qed.

(** variant 3 *)
Theorem power3_outcome :
  (forall k, first_below m (levels_agree n M v tol) k -> nonzero n (p (S k)) /\
     exists x, power_iteration3 (N := ENum) a x0 opt = Ok (x, (Fin (rayleigh n M (p (S k))), k)) /\ holds n x (along2 n (p (S k)))) /\
  (none_below m (levels_agree n M v tol) ->
     exists x q c, power_iteration3 (N := ENum) a x0 opt = Ok (x, (q, m)) /\
       (nonzero n (p m) -> q = Fin (rayleigh n M (p m))) /\ (~ nonzero n (p m) -> q = Nan) /\
       holds n x (fun i => c * p m i) /\ 0 < c /\
       ((forall j, (1 <= j <= m)%nat -> dot n (p j) (p j) < powerRZ 10 150) -> c = 1)).
Proof.
  destruct (power3_result n a M Hn Ha v x0 tol m Hx) as [H1 H2]. split.
  - intros k Hk. assert (Hz : nonzero n (pow_mv n M v (S k))) by (apply Hk). split; auto.
    destruct (H1 k Hk) as (x & q & E & [(_ & Hx')|(Hz' & _)] & [(_ & Hq)|(Hz'' & _)]); try (exfalso; tauto).
    exists x. subst q. auto.
  - intros Hk. destruct (H2 Hk) as (x & q & E & Hq & c & Hc & Hc1 & Hx'). exists x, q, c.
    split; auto. split; [|split]; auto.
    + intros Hz. destruct Hq as [(_ & ->)|(Hz' & _)]; tauto.
    + intros Hz. destruct Hq as [(Hz' & _)|(_ & ->)]; tauto.
Qed.

(** every run returns; what the caller can rely on *)
Definition caller (stop : nat -> Prop) (run : res (Arr ENum * (num ENum * nat))) : Prop :=
  exists x q k, run = Ok (x, (q, k)) /\ (k <= m)%nat /\ ((k < m)%nat -> stop k) /\
  ((exists u, holds n x u /\ dot n u u = 1 /\ q = Fin (quad n M u)) \/
   (undefined n x /\ q = Nan /\ k = m /\ forall i, (i < n)%nat -> p m i = 0)).
Lemma outcome_caller (stop : nat -> Prop) run : (forall k, {stop k} + {~ stop k}) -> power_outcome n M v m stop run -> caller stop run.
Proof.
  intros D (H1 & H2 & H3). destruct (first_or_none stop D m) as [(k & Hk)|Hk].
  - destruct (H1 k Hk) as (Hz & x & E & Hx'). destruct Hk as (Hk & Hs & _). exists x. eexists. exists k. split; [exact E|].
    split; [lia|]. split; auto. left. exists (along2 n (p (S k))). split; auto. split; [now apply unit_dot|]. now rewrite quad_unit.
  - destruct (nonzero_dec n (p m)) as [Hz|Hz].
    + destruct (H2 Hk Hz) as (x & E & Hx'). exists x. eexists. exists m. split; [exact E|]. split; auto. split; [lia|].
      left. exists (along2 n (p m)). split; auto. split; [now apply unit_dot|]. now rewrite quad_unit.
    + destruct (H3 Hk Hz) as (x & E & Hx'). exists x. eexists. exists m. split; [exact E|]. split; auto. split; [lia|].
      right. split; auto. split; auto. split; auto. now apply not_nonzero.
Qed.
Theorem power_caller :
  caller (dirs_agree2 n M v tol) (power_iteration (N := ENum) a x0 opt) /\
  caller (dirs_agree1 n M v tol) (power_iteration4 (N := ENum) a x0 opt) /\
  caller (levels_agree n M v tol) (power_iteration2 (N := ENum) a x0 opt).
Proof.
  split; [|split].
  - apply outcome_caller; [apply dirs2_dec|apply power1_outcome].
  - apply outcome_caller; [apply dirs1_dec|apply power4_outcome].
  - apply outcome_caller; [apply levels_dec|apply power2_outcome].
Qed.

(** variants 2 and 3 report the same value and count *)
Theorem power_2_3_agree : exists x2 x3 q k,
  power_iteration2 (N := ENum) a x0 opt = Ok (x2, (q, k)) /\ power_iteration3 (N := ENum) a x0 opt = Ok (x3, (q, k)).
Proof.
  pose proof power2_outcome as (A1 & A2 & A3). pose proof power3_outcome as (B1 & B2).
  destruct (first_or_none _ (levels_dec n M v tol) m) as [(k & Hk)|Hk].
  - destruct (A1 k Hk) as (_ & x2 & E2 & _). destruct (B1 k Hk) as (_ & x3 & E3 & _). eauto 10.
  - destruct (B2 Hk) as (x3 & q & c & E3 & Q1 & Q2 & _). destruct (nonzero_dec n (p m)) as [Hz|Hz].
    + destruct (A2 Hk Hz) as (x2 & E2 & _). rewrite (Q1 Hz) in E3. eauto 10.
    + destruct (A3 Hk Hz) as (x2 & E2 & _). rewrite (Q2 Hz) in E3. eauto 10.
Qed.

(** ** Eigenvectors *)
Lemma mulmv_eig lam : (forall i, (i < n)%nat -> mulmv n M v i = lam * v i) -> forall i, (i < n)%nat -> p 1 i = lam * v i.
Proof. intros H i Hi. now apply H. Qed.
Lemma rayleigh_eig lam c y : c <> 0 -> nonzero n v -> (forall i, (i < n)%nat -> mulmv n M v i = lam * v i) ->
  (forall i, (i < n)%nat -> y i = c * v i) -> rayleigh n M y = lam.
Proof.
  intros Hc Hv He Hy. apply nonzero_dot in Hv. unfold rayleigh, quad.
  rewrite (dot_ext n y (mulmv n M y) (fun i => c * v i) (fun i => (c * lam) * v i)).
  - rewrite (dot_ext n y y (fun i => c * v i) (fun i => c * v i)) by auto. rewrite !dot_scal_l, !dot_scal_r. field. split; lra.
  - auto.
  - intros i Hi. rewrite (mulmv_mult n M c v) by auto. rewrite He by auto. ring.
Qed.

Lemma norm2_any c x : norm2 n (fun i => c * x i) = Rabs c * norm2 n x.
Proof.
  unfold norm2. rewrite dot_scale. rewrite sqrt_mult by (try apply dot_self_nonneg; nra). f_equal. apply sqrt_Rsqr_abs.
Qed.
Lemma norm1_any c x : norm1 n (fun i => c * x i) = Rabs c * norm1 n x.
Proof. unfold norm1. rewrite <- Rsum_scal. apply Rsum_ext. intros. apply Rabs_mult. Qed.
Lemma agree_of_sign lam x y : 0 <= tol -> lam <> 0 -> (forall i, (i < n)%nat -> x i = lam / Rabs lam * y i) -> agree n tol x y.
Proof.
  intros Ht Hl H. destruct (Rlt_dec 0 lam) as [Hp|Hp]; [left|right].
  - unfold norm1. rewrite Rsum_zero; auto. intros i Hi. rewrite H by auto. rewrite (Rabs_pos_eq lam) by lra.
    replace (lam / lam * y i - y i) with 0 by (field; lra). apply Rabs_R0.
  - unfold norm1. rewrite Rsum_zero; auto. intros i Hi. rewrite H by auto. rewrite (Rabs_left lam) by lra.
    replace (lam / - lam * y i + y i) with 0 by (field; lra). apply Rabs_R0.
Qed.
Section Eig.
Variable lam : R.
Hypothesis Hl : lam <> 0.
Hypothesis Hv : nonzero n v.
Hypothesis He : forall i, (i < n)%nat -> mulmv n M v i = lam * v i.
Lemma eig_nonzero : nonzero n (p 1).
Proof. destruct Hv as (i & Hi & Hne). exists i. split; auto. cbn [pow_mv]. rewrite He by auto. now apply Rmult_integral_contrapositive. Qed.
Lemma eig_along2 i : (i < n)%nat -> along2 n (p 1) i = lam / Rabs lam * along2 n v i.
Proof.
  intros Hi. rewrite (along2_ext n (p 1) (fun i => lam * v i) i) by (auto; intros; apply He; auto).
  unfold along2. rewrite norm2_any. apply norm2_pos in Hv. field. split; [lra|]. now apply Rabs_no_R0.
Qed.
Lemma eig_along1 i : (i < n)%nat -> along1 n (p 1) i = lam / Rabs lam * along1 n v i.
Proof.
  intros Hi. rewrite (along1_ext n (p 1) (fun i => lam * v i) i) by (auto; intros; apply He; auto).
  unfold along1. rewrite norm1_any. pose proof (proj1 (nonzero_norm1 n v) Hv). field. split; [lra|]. now apply Rabs_no_R0.
Qed.
Lemma eig_val0 : rayleigh n M (p 0) = lam.
Proof. apply (rayleigh_eig lam 1); auto; try lra. intros. cbn [pow_mv]. ring. Qed.
Lemma eig_val1 : rayleigh n M (p 1) = lam.
Proof. apply (rayleigh_eig lam lam); auto. Qed.
Lemma first_zero (stop : nat -> Prop) : (0 < m)%nat -> stop 0%nat -> first_below m stop 0.
Proof. intros H1 H2. split; auto. split; auto. intros; lia. Qed.
(** all four variants stop in round 0 with the eigenvalue *)
Theorem power_eigen : 0 <= tol -> (0 < m)%nat ->
  forall run, run = power_iteration (N := ENum) a x0 opt \/ run = power_iteration2 (N := ENum) a x0 opt \/
              run = power_iteration3 (N := ENum) a x0 opt \/ run = power_iteration4 (N := ENum) a x0 opt ->
  exists x, run = Ok (x, (Fin lam, 0%nat)) /\ holds n x (fun i => lam / Rabs lam * (v i / norm2 n v)).
Proof.
  intros Ht Hm run Hr. pose proof eig_nonzero as Hz.
  assert (L : levels_agree n M v tol 0). { split; auto. rewrite eig_val0, eig_val1. replace (lam - lam) with 0 by ring. now rewrite Rabs_R0. }
  assert (A2 : dirs_agree2 n M v tol 0). { split; auto. apply agree_of_sign with lam; auto. apply eig_along2. }
  assert (A1 : dirs_agree1 n M v tol 0). { split; auto. apply agree_of_sign with lam; auto. apply eig_along1. }
  destruct power1_outcome as (P1 & _). destruct power2_outcome as (P2 & _). destruct power3_outcome as (P3 & _). destruct power4_outcome as (P4 & _).
  destruct Hr as [->|[->|[->| ->]]]; [destruct (P1 0%nat) as (_ & x & E & Hh)|destruct (P2 0%nat) as (_ & x & E & Hh)|
    destruct (P3 0%nat) as (_ & x & E & Hh)|destruct (P4 0%nat) as (_ & x & E & Hh)]; try (apply first_zero; auto; fail);
  exists x; rewrite eig_val1 in E; (split; [exact E|]); apply holds_ext with (1 := Hh); exact eig_along2.
Qed.
End Eig.

(** ** The residual when the directions agree *)
Lemma norm2_sq x : norm2 n x * norm2 n x = dot n x x.
Proof. apply sqrt_def. apply dot_self_nonneg. Qed.
Lemma norm2_nonneg x : 0 <= norm2 n x. Proof. apply sqrt_pos. Qed.
Lemma le_sq x y : 0 <= y -> x * x <= y * y -> x <= y.
Proof. intros Hy H. apply Rnot_lt_le. intros Hlt. nra. Qed.
End One.

Lemma cauchy n x y : dot n x y * dot n x y <= dot n x x * dot n y y.
Proof.
  induction n as [|k IH]; unfold dot in *; cbn [Rsum]; [nra|].
  set (a := Rsum k (fun i => x i * x i)) in *. set (b := Rsum k (fun i => y i * y i)) in *. set (c := Rsum k (fun i => x i * y i)) in *.
  assert (0 <= a) by (apply dot_self_nonneg). assert (0 <= b) by (apply dot_self_nonneg).
  assert (2 * c * (x k * y k) <= a * (y k * y k) + b * (x k * x k)); [|nra].
  assert (c * c * ((x k * y k) * (x k * y k)) <= (a * (y k * y k)) * (b * (x k * x k))).
  { replace ((a * (y k * y k)) * (b * (x k * x k))) with ((a * b) * ((x k * y k) * (x k * y k))) by ring.
    apply Rmult_le_compat_r; auto. nra. }
  set (P := a * (y k * y k)) in *. set (Q := b * (x k * x k)) in *. set (w := c * (x k * y k)).
  assert (w * w <= P * Q) by (unfold w; nra).
  assert (0 <= P) by (unfold P; nra). assert (0 <= Q) by (unfold Q; nra).
  replace (2 * c * (x k * y k)) with (2 * w) by (unfold w; ring).
  apply le_sq; [lra|]. pose proof (Rle_0_sqr (P - Q)) as Hsq. unfold Rsqr in Hsq. nra.
Qed.
Lemma frob_bound n M x : norm2 n (mulmv n M x) <= frob n M * norm2 n x.
Proof.
  apply le_sq. { apply Rmult_le_pos; apply sqrt_pos. }
  rewrite norm2_sq. replace (frob n M * norm2 n x * (frob n M * norm2 n x)) with ((frob n M * frob n M) * (norm2 n x * norm2 n x)) by ring.
  rewrite norm2_sq. unfold frob. rewrite sqrt_def.
  2:{ apply Rsum_nonneg. intros. apply Rsum_nonneg. intros. nra. }
  rewrite <- Rsum_scal_r. unfold dot at 1. apply Rsum_le. intros i Hi.
  pose proof (cauchy n (fun j => M i j) x) as H. unfold mulmv. exact H.
Qed.
Lemma norm2_le_norm1 n x : norm2 n x <= norm1 n x.
Proof.
  apply le_sq; [apply norm1_nonneg|]. rewrite norm2_sq. unfold dot, norm1.
  induction n as [|k IH]; cbn [Rsum]; [lra|].
  pose proof (Rsum_nonneg k (fun i => Rabs (x i)) ltac:(intros; apply Rabs_pos)). pose proof (Rabs_pos (x k)).
  assert (x k * x k = Rabs (x k) * Rabs (x k)) by (destruct (Rcase_abs (x k)); [rewrite Rabs_left|rewrite Rabs_right]; auto; ring).
  nra.
Qed.
(** of all multiples of [x], the Rayleigh quotient's is nearest to [M x] *)
Lemma rayleigh_best n M x t : nonzero n x ->
  norm2 n (fun i => mulmv n M x i - rayleigh n M x * x i) <= norm2 n (fun i => mulmv n M x i - t * x i).
Proof.
  intros Hx. apply nonzero_dot in Hx. apply le_sq; [apply sqrt_pos|]. rewrite !norm2_sq.
  assert (E : forall s, dot n (fun i => mulmv n M x i - s * x i) (fun i => mulmv n M x i - s * x i) =
     dot n (mulmv n M x) (mulmv n M x) - 2 * s * quad n M x + s * s * dot n x x).
  { intros s. rewrite dot_minus_l, !dot_minus_r, !dot_scal_l, !dot_scal_r. unfold quad. rewrite (dot_comm n (mulmv n M x) x). ring. }
  rewrite !E. set (r := rayleigh n M x). assert (Hr : quad n M x = r * dot n x x) by (unfold r, rayleigh; field; lra).
  rewrite Hr. set (D := dot n x x) in *. assert (0 <= D * ((t - r) * (t - r))) by (apply Rmult_le_pos; [lra|apply Rle_0_sqr]). nra.
Qed.
Lemma agree_residual n M tol x y mu : nonzero n x -> (forall i, (i < n)%nat -> mulmv n M y i = mu * x i) -> agree n tol x y ->
  norm2 n (fun i => mulmv n M x i - rayleigh n M x * x i) <= frob n M * tol.
Proof.
  intros Hx Hy Ha.
  assert (G : forall s, (s = 1 \/ s = -1) -> norm1 n (fun i => x i - s * y i) <= tol ->
    norm2 n (fun i => mulmv n M x i - rayleigh n M x * x i) <= frob n M * tol).
  { intros s Hs Hb. apply Rle_trans with (norm2 n (fun i => mulmv n M x i - (s * mu) * x i)); [now apply rayleigh_best|].
    rewrite (norm2_ext n _ (mulmv n M (fun i => x i - s * y i))).
    - apply Rle_trans with (frob n M * norm2 n (fun i => x i - s * y i)); [apply frob_bound|].
      apply Rmult_le_compat_l; [apply sqrt_pos|]. apply Rle_trans with (2 := Hb). apply norm2_le_norm1.
    - intros i Hi. rewrite mulmv_minus, mulmv_scal, Hy by auto. ring. }
  destruct Ha as [H|H].
  - apply (G 1); auto. rewrite (norm1_ext n _ (fun i => x i - y i)); auto. intros; ring.
  - apply (G (-1)); auto. rewrite (norm1_ext n _ (fun i => x i + y i)); auto. intros; ring.
Qed.

(** a direction that stopped variant 1 or 4 is an approximate eigenvector *)
Lemma stop_inv n M v m (stop : nat -> Prop) run x q k : (forall k, {stop k} + {~ stop k}) -> power_outcome n M v m stop run ->
  run = Ok (x, (q, k)) -> (k < m)%nat ->
  stop k /\ nonzero n (pow_mv n M v (S k)) /\ q = Fin (rayleigh n M (pow_mv n M v (S k))) /\ holds n x (along2 n (pow_mv n M v (S k))).
Proof.
  intros D (P1 & P2 & P3) Er Hk. destruct (first_or_none _ D m) as [(j & Hj)|Hj].
  - destruct (P1 j Hj) as (Hz & y & E & Hy). rewrite E in Er. injection Er as -> <- ->. split; auto. apply Hj.
  - exfalso. destruct (nonzero_dec n (pow_mv n M v m)) as [Hz|Hz].
    + destruct (P2 Hj Hz) as (y & E & _). rewrite E in Er. injection Er as _ _ E3. lia.
    + destruct (P3 Hj Hz) as (y & E & _). rewrite E in Er. injection Er as _ _ E3. lia.
Qed.
Theorem power1_residual n a x0 M v tol m x q k : (0 < n)%nat -> holds_mat n a M -> holds n x0 v ->
  power_iteration (N := ENum) a x0 (mkPOptions (N := ENum) m (Fin tol)) = Ok (x, (q, k)) -> (k < m)%nat ->
  exists u lam, holds n x u /\ q = Fin lam /\ dot n u u = 1 /\ norm2 n (fun i => mulmv n M u i - lam * u i) <= frob n M * tol.
Proof.
  intros Hn Ha Hx Er Hk. pose proof (power1_outcome n a x0 M v tol m Hn Ha Hx) as P.
  destruct (stop_inv _ _ _ _ _ _ _ _ _ (dirs2_dec n M v tol) P Er Hk) as ((_ & Hag) & Hz & -> & Hy). clear P Er.
  set (p := pow_mv n M v) in *.
  exists (along2 n (p (S k))). eexists. split; auto. split; [reflexivity|]. split; [now apply unit_dot|].
  assert (Hzk : nonzero n (p k)) by (apply pow_alive; auto).
  rewrite <- quad_unit by auto.
  replace (quad n M (along2 n (p (S k)))) with (rayleigh n M (along2 n (p (S k)))) by (unfold rayleigh; rewrite unit_dot by auto; field).
  apply (agree_residual n M tol (along2 n (p (S k))) (along2 n (p k)) (norm2 n (p (S k)) / norm2 n (p k))); auto.
  - apply nonzero_dot. rewrite unit_dot by auto. lra.
  - intros i Hi. rewrite (mulmv_mult n M (/ norm2 n (p k)) (p k)) by (intros; now apply along2_mult).
    rewrite (along2_mult n (p (S k))) by auto. change (mulmv n M (p k) i) with (p (S k) i).
    apply norm2_pos in Hz. apply norm2_pos in Hzk. field. split; lra.
Qed.
Lemma norm1_le_norm2 n x : norm1 n x <= sqrt (INR n) * norm2 n x.
Proof.
  apply le_sq. { apply Rmult_le_pos; apply sqrt_pos. }
  replace (sqrt (INR n) * norm2 n x * (sqrt (INR n) * norm2 n x)) with ((sqrt (INR n) * sqrt (INR n)) * (norm2 n x * norm2 n x)) by ring.
  rewrite norm2_sq, sqrt_def by apply pos_INR.
  pose proof (cauchy n (fun _ => 1) (fun i => Rabs (x i))) as H.
  assert (E1 : dot n (fun _ => 1) (fun i => Rabs (x i)) = norm1 n x) by (apply Rsum_ext; intros; ring).
  assert (E2 : dot n (fun _ => 1) (fun _ => 1) = INR n).
  { clear. unfold dot. induction n as [|j IH]; [reflexivity|]. cbn [Rsum]. rewrite IH, S_INR. ring. }
  assert (E3 : dot n (fun i => Rabs (x i)) (fun i => Rabs (x i)) = dot n x x).
  { apply Rsum_ext. intros. rewrite <- Rabs_mult. apply Rabs_pos_eq. apply Rle_0_sqr. }
  rewrite E1, E2, E3 in H. exact H.
Qed.
Lemma norm1_along1 n x : nonzero n x -> norm1 n (along1 n x) = 1.
Proof.
  intros Hx. rewrite (norm1_ext n _ (fun i => / norm1 n x * x i)) by (intros; now apply along1_mult).
  apply nonzero_norm1 in Hx. rewrite norm1_scale by now apply Rinv_0_lt_compat. field. lra.
Qed.
Theorem power4_residual n a x0 M v tol m x q k : (0 < n)%nat -> holds_mat n a M -> holds n x0 v ->
  power_iteration4 (N := ENum) a x0 (mkPOptions (N := ENum) m (Fin tol)) = Ok (x, (q, k)) -> (k < m)%nat ->
  exists u lam, holds n x u /\ q = Fin lam /\ dot n u u = 1 /\
    norm2 n (fun i => mulmv n M u i - lam * u i) <= sqrt (INR n) * (frob n M * tol).
Proof.
  intros Hn Ha Hx Er Hk. pose proof (power4_outcome n a x0 M v tol m Hn Ha Hx) as P.
  destruct (stop_inv _ _ _ _ _ _ _ _ _ (dirs1_dec n M v tol) P Er Hk) as ((_ & Hag) & Hz & -> & Hy). clear P Er.
  set (p := pow_mv n M v) in *.
  exists (along2 n (p (S k))). eexists. split; auto. split; [reflexivity|]. split; [now apply unit_dot|].
  assert (Hzk : nonzero n (p k)) by (apply pow_alive; auto).
  set (w := along1 n (p (S k))) in *.
  pose proof Hz as Hz1. apply nonzero_norm1 in Hz1. pose proof Hzk as Hk1. apply nonzero_norm1 in Hk1.
  assert (Hw : nonzero n w). { apply nonzero_norm1. unfold w. rewrite norm1_along1 by auto. lra. }
  assert (R : norm2 n (fun i => mulmv n M w i - rayleigh n M w * w i) <= frob n M * tol).
  { apply (agree_residual n M tol w (along1 n (p k)) (norm1 n (p (S k)) / norm1 n (p k))); auto.
    intros i Hi. rewrite (mulmv_mult n M (/ norm1 n (p k)) (p k)) by (intros; now apply along1_mult).
    unfold w. rewrite (along1_mult n (p (S k))) by auto. change (mulmv n M (p k) i) with (p (S k) i). field. split; lra. }
  assert (Hc : 0 < norm2 n w) by now apply norm2_pos.
  assert (Ew : forall i, (i < n)%nat -> along2 n (p (S k)) i = / norm2 n w * w i).
  { intros i Hi. rewrite <- along2_mult by auto. unfold w. rewrite (along2_ext n (along1 n (p (S k))) (fun i => / norm1 n (p (S k)) * p (S k) i)); auto.
    - symmetry. apply along2_scale; auto. now apply Rinv_0_lt_compat.
    - intros. now apply along1_mult. }
  assert (Er : rayleigh n M (p (S k)) = rayleigh n M w).
  { unfold w. rewrite (rayleigh_ext n M (along1 n (p (S k))) (fun i => / norm1 n (p (S k)) * p (S k) i)) by (intros; now apply along1_mult).
    symmetry. apply rayleigh_scale; auto. now apply Rinv_0_lt_compat. }
  rewrite Er. rewrite (norm2_ext n _ (fun i => / norm2 n w * (mulmv n M w i - rayleigh n M w * w i))).
  - rewrite norm2_scale by now apply Rinv_0_lt_compat.
    pose proof (norm1_le_norm2 n w) as Hle. unfold w in Hle at 1. rewrite norm1_along1 in Hle by auto.
    pose proof (norm2_nonneg n (fun i => mulmv n M w i - rayleigh n M w * w i)) as H0.
    apply Rle_trans with (sqrt (INR n) * norm2 n (fun i => mulmv n M w i - rayleigh n M w * w i)).
    + apply Rmult_le_compat_r; auto. apply Rmult_le_reg_r with (norm2 n w); auto. rewrite Rinv_l by lra. exact Hle.
    + apply Rmult_le_compat_l; auto. apply sqrt_pos.
  - intros i Hi. rewrite (mulmv_mult n M (/ norm2 n w) w) by auto. rewrite Ew by auto. ring.
Qed.

(** ** On symmetric positive semidefinite matrices the quotient grows *)
Lemma rayleigh_grows n M x : sym n M -> psd n M -> nonzero n (mulmv n M x) -> rayleigh n M x <= rayleigh n M (mulmv n M x).
Proof.
  intros Hs Hp Hx. set (y := mulmv n M x) in *.
  assert (Hx0 : nonzero n x).
  { destruct (nonzero_dec n x) as [|Hd]; auto. exfalso. destruct Hx as (i & Hi & H). apply H. unfold y, mulmv. apply Rsum_zero.
    intros j Hj. rewrite (not_nonzero n x Hd j Hj). ring. }
  apply nonzero_dot in Hx. apply nonzero_dot in Hx0. unfold rayleigh.
  pose proof (psd_cauchy n M x y Hs Hp) as H3. rewrite (sym_dot n M x y Hs) in H3. fold y in H3.
  pose proof (cauchy n x y) as H1. unfold y in H1 at 1 2. fold (quad n M x) in H1. 
  pose proof (Hp x) as Q0. pose proof (Hp y) as Q1.
  set (m0 := dot n x x) in *. set (m1 := quad n M x) in *. set (m2 := dot n y y) in *. set (m3 := quad n M y) in *.
  apply Rmult_le_reg_r with (m0 * m2); [nra|].
  replace (m1 / m0 * (m0 * m2)) with (m1 * m2) by (field; lra). replace (m3 / m2 * (m0 * m2)) with (m3 * m0) by (field; lra).
  destruct (Req_dec m1 0) as [E|E]; [rewrite E; nra|]. assert (0 < m1) by lra.
  apply Rmult_le_reg_l with m1; auto.
  apply Rle_trans with (m2 * (m0 * m2)); [nra|]. nra.
Qed.
Lemma rayleigh_chain n M v k : sym n M -> psd n M -> nonzero n (pow_mv n M v k) -> rayleigh n M v <= rayleigh n M (pow_mv n M v k).
Proof.
  intros Hs Hp. induction k as [|k IH]; intros Hk; [apply Rle_refl|].
  apply Rle_trans with (rayleigh n M (pow_mv n M v k)).
  - apply IH. now apply pow_alive.
  - now apply rayleigh_grows.
Qed.
Definition variants (a x0 : Arr ENum) (o : POptions ENum) run : Prop :=
  run = power_iteration (N := ENum) a x0 o \/ run = power_iteration2 (N := ENum) a x0 o \/
  run = power_iteration3 (N := ENum) a x0 o \/ run = power_iteration4 (N := ENum) a x0 o.
Theorem power_grows n a x0 M v tol m run x lam k : (0 < n)%nat -> holds_mat n a M -> holds n x0 v -> sym n M -> psd n M ->
  variants a x0 (mkPOptions (N := ENum) m (Fin tol)) run -> run = Ok (x, (Fin lam, k)) -> rayleigh n M v <= lam.
Proof.
  intros Hn Ha Hx Hs Hp Hv Er.
  assert (G : forall stop, (forall k, {stop k} + {~ stop k}) -> power_outcome n M v m stop run -> rayleigh n M v <= lam).
  { intros stop D (P1 & P2 & P3). destruct (first_or_none _ D m) as [(j & Hj)|Hj].
    - destruct (P1 j Hj) as (Hz & y & E & _). rewrite E in Er. injection Er as _ <- _. exact (rayleigh_chain n M v _ Hs Hp Hz).
    - destruct (nonzero_dec n (pow_mv n M v m)) as [Hz|Hz].
      + destruct (P2 Hj Hz) as (y & E & _). rewrite E in Er. injection Er as _ <- _. exact (rayleigh_chain n M v _ Hs Hp Hz).
      + destruct (P3 Hj Hz) as (y & E & _). rewrite E in Er. discriminate. }
  destruct Hv as [->|[->|[->| ->]]].
  - apply (G _ (dirs2_dec n M v tol)). now apply power1_outcome.
  - apply (G _ (levels_dec n M v tol)). now apply power2_outcome.
  - destruct (power_2_3_agree n a x0 M v tol m Hn Ha Hx) as (x2 & x3 & q & j & E2 & E3). rewrite E3 in Er. injection Er as _ -> _.
    destruct (power2_outcome n a x0 M v tol m Hn Ha Hx) as (P1 & P2 & P3). destruct (first_or_none _ (levels_dec n M v tol) m) as [(i & Hj)|Hj].
    + destruct (P1 i Hj) as (Hz & y & E & _). rewrite E in E2. injection E2 as _ <- _. exact (rayleigh_chain n M v _ Hs Hp Hz).
    + destruct (nonzero_dec n (pow_mv n M v m)) as [Hz|Hz].
      * destruct (P2 Hj Hz) as (y & E & _). rewrite E in E2. injection E2 as _ <- _. exact (rayleigh_chain n M v _ Hs Hp Hz).
      * destruct (P3 Hj Hz) as (y & E & _). rewrite E in E2. discriminate.
  - apply (G _ (dirs1_dec n M v tol)). now apply power4_outcome.
Qed.
