(** No ellipsoid that contains a slice of an ellipsoid is smaller than the one with
    the parameters of the cut formulas: linear algebra. *)
From Coq Require Import Reals Arith Lia Lra Psatz.
From Verif Require Import Spec RealLin Det DetLemmas TraceDet.
Open Scope R_scope.

Lemma pow_lt_up a b k : 0 <= a < b -> (1 <= k)%nat -> a ^ k < b ^ k.
Proof.
  intros H Hk. destruct k as [|k]; [lia|]. clear Hk. induction k as [|k IH]; [simpl; lra|].
  change (a * a ^ S k < b * b ^ S k). apply Rmult_le_0_lt_compat; try lra. apply pow_le; lra.
Qed.

Section Opt.
Variables (n : nat) (M : mtx) (kappa : R) (c g : vec).
Hypothesis Hn : (2 <= n)%nat.
Hypothesis HS : sym n M.
Hypothesis HP : pd n M.
Hypothesis Hk : 0 < kappa.
Notation h := (mulmv n M g).
Notation om := (quad n M g).
Notation tau := (sqrt (kappa * om)).
Hypothesis Ho : 0 < om.
(** the competitor *)
Variables (Mf : mtx) (kf : R) (z : vec).
Hypothesis FS : sym n Mf.
Hypothesis FP : pd n Mf.
Variables (s0 s1 : R).
Hypothesis Hs0 : -1 <= s0.
Hypothesis Hs1 : s1 <= 1.
Hypothesis Hs01 : s0 < s1.
Hypothesis Hin : forall x, in_ell n M kappa c x -> s0 * tau <= - along n g x c <= s1 * tau -> in_ell n Mf kf z x.
(** the inverses *)
Variables V W : mtx.
Hypothesis HV : inverse n M V.
Hypothesis VS : sym n V.
Hypothesis VP : psd n V.
Hypothesis HW : inverse n Mf W.
Hypothesis WS : sym n W.
Hypothesis WP : psd n W.

Lemma tau_pos : 0 < tau.
Proof. apply sqrt_lt_R0. nra. Qed.
Lemma tau_sq : tau * tau = kappa * om.
Proof. apply sqrt_sqrt. nra. Qed.
Definition f0 : vec := fun i => kappa / tau * h i.

Lemma V_h i : (i < n)%nat -> mulmv n V h i = g i.
Proof.
  intros Hi. rewrite mulmv_mulmm. rewrite (mulmv_ext n _ mtx_one g g); auto; [now apply mulmv_one|].
  intros j Hj. apply (HV i j Hi Hj).
Qed.
Lemma M_V x i : (i < n)%nat -> mulmv n M (mulmv n V x) i = x i.
Proof.
  intros Hi. rewrite mulmv_mulmm. rewrite (mulmv_ext n _ mtx_one x x); auto; [now apply mulmv_one|].
  intros j Hj. apply (HV i j Hi Hj).
Qed.
Lemma g_h : dot n g h = om.
Proof. reflexivity. Qed.
Lemma g_f0 : dot n g f0 = tau.
Proof.
  unfold f0. rewrite dot_scal_r, g_h. pose proof tau_pos as Ht. pose proof tau_sq as E. set (t := tau) in *.
  replace (kappa / t * om) with (kappa * om / t) by (field; lra). rewrite <- E. field. lra.
Qed.
Lemma V_f0 x : dot n x (mulmv n V f0) = kappa / tau * dot n x g.
Proof.
  rewrite <- dot_scal_r. apply dot_ext; auto. intros i Hi. unfold f0. rewrite mulmv_scal, V_h; auto.
Qed.
Lemma quad_V_f0 : quad n V f0 = kappa.
Proof.
  unfold quad. rewrite V_f0, dot_comm, g_f0. field. pose proof tau_pos; lra.
Qed.

Lemma rim f s : dot n g f = 0 -> s0 <= s <= s1 ->
  quad n V f * quad n W (fun i => c i - s * f0 i - z i) + (1 - s * s) * kappa * quad n W f <= quad n V f * kf.
Proof.
  intros Hgf Hs. set (N := quad n V f). assert (HN : 0 <= N) by apply VP.
  set (d := fun i => c i - s * f0 i - z i).
  destruct (Req_dec N 0) as [E|E].
  - assert (Hf : forall i, (i < n)%nat -> f i = 0).
    { intros i Hi. rewrite <- (M_V f i Hi). unfold mulmv at 1. apply Rsum_zero. intros j Hj.
      rewrite (psd_kernel n V f VS VP E j Hj). ring. }
    assert (quad n W f = 0) as ->.
    { unfold quad, dot. apply Rsum_zero. intros i Hi. rewrite Hf by auto. ring. }
    rewrite E. lra.
  - assert (HNp : 0 < N) by lra.
    assert (Hss : 0 <= 1 - s * s) by nra.
    set (r := sqrt ((1 - s * s) * kappa / N)).
    assert (Hrr : r * r * N = (1 - s * s) * kappa).
    { unfold r. rewrite sqrt_sqrt; [field; lra|]. apply Rmult_le_pos; [nra|left; now apply Rinv_0_lt_compat]. }
    assert (P : forall q, q * q = r * r -> quad n W d + 2 * q * dot n d (mulmv n W f) + q * q * quad n W f <= kf).
    { intros q Hq.
      assert (Hx : in_ell n Mf kf z (fun i => c i - s * f0 i + q * f i)).
      { apply Hin.
        - rewrite (in_ell_inverse n M V) by auto.
          rewrite (quad_ext n V V _ (fun i => (- s) * f0 i + q * f i)); auto; [|intros; ring].
          rewrite (quad_line n V (fun i => - s * f0 i) q f VS). rewrite quad_scal, quad_V_f0.
          rewrite dot_scal_l. rewrite (sym_dot n V f0 f VS), V_f0, (dot_comm n f g), Hgf.
          fold N. replace (q * q * N) with ((1 - s * s) * kappa) by (rewrite Hq; lra). right. ring.
        - unfold along. rewrite (dot_ext n g _ g (fun i => (- s) * f0 i + q * f i)); auto; [|intros; ring].
          rewrite dot_plus_r, !dot_scal_r, g_f0, Hgf. pose proof tau_pos. split; nra. }
      rewrite (in_ell_inverse n Mf W) in Hx by auto.
      rewrite (quad_ext n W W _ (fun i => d i + q * f i)) in Hx; auto; [|intros; unfold d; ring].
      rewrite (quad_line n W d q f WS) in Hx. exact Hx. }
    pose proof (P r eq_refl) as P1. pose proof (P (- r) ltac:(ring)) as P2.
    assert (Hsum : quad n W d + r * r * quad n W f <= kf) by lra.
    apply Rmult_le_compat_l with (r := N) in Hsum; [|lra].
    replace ((1 - s * s) * kappa * quad n W f) with (N * (r * r * quad n W f)) by (rewrite <- Hrr; ring). lra.
Qed.

(** sum over a decomposition of M - h h'/om *)
Definition Rm : mtx := rank1 M (/ om) h.
Lemma frob_V_M : frob n V M = INR n.
Proof.
  unfold frob. transitivity (Rsum n (fun i => mulmm n V M i i)).
  - apply Rsum_ext. intros i Hi. apply Rsum_ext. intros j Hj. rewrite (HS i j) by auto. reflexivity.
  - rewrite (Rsum_ext n _ (fun _ => 1)).
    + clear. induction n as [|k IH]; [reflexivity|]. rewrite S_INR. cbn [Rsum]. rewrite IH. lra.
    + intros i Hi. destruct (HV i i Hi Hi) as [_ ->]. unfold mtx_one. now rewrite Nat.eqb_refl.
Qed.
Lemma frob_Rm U : frob n U Rm = frob n U M - quad n U h / om.
Proof.
  rewrite (frob_ext n U U Rm (fun i j => 1 * M i j + (- / om) * (h i * h j))); auto.
  - rewrite frob_lin. rewrite (frob_outer n U h). unfold Rdiv. ring.
  - intros i j _ _. unfold Rm, rank1. ring.
Qed.
Lemma quad_V_h : quad n V h = om.
Proof. unfold quad at 1. rewrite (dot_ext n h _ h g); auto; [now rewrite dot_comm|intros; now apply V_h]. Qed.
Lemma frob_V_Rm : frob n V Rm = INR n - 1.
Proof. rewrite frob_Rm, frob_V_M, quad_V_h. field. lra. Qed.

Lemma rims s : s0 <= s <= s1 ->
  (INR n - 1) * quad n W (fun i => c i - s * f0 i - z i) + (1 - s * s) * kappa * frob n W Rm <= (INR n - 1) * kf.
Proof.
  intros Hs. destruct (squares_pd n M HS HP) as (L & HL).
  set (F := fun k i => L k i - dot n g (L k) / om * h i).
  assert (HF : forall i j, (i < n)%nat -> (j < n)%nat -> Rm i j = Rsum n (fun k => F k i * F k j)).
  { assert (Hh : forall i, (i < n)%nat -> h i = Rsum n (fun k => dot n g (L k) * L k i)).
    { intros i Hi. unfold mulmv. rewrite (Rsum_ext n _ (fun j => Rsum n (fun k => L k i * L k j * g j))).
      - rewrite Rsum_swap. apply Rsum_ext. intros k Hkk. unfold dot. rewrite <- Rsum_scal_r. apply Rsum_ext. intros; ring.
      - intros j Hj. rewrite HL by auto. now rewrite <- Rsum_scal_r. }
    assert (Ho2 : om = Rsum n (fun k => dot n g (L k) * dot n g (L k))).
    { unfold quad. unfold dot at 1. rewrite (Rsum_ext n _ (fun i => Rsum n (fun k => g i * (dot n g (L k) * L k i)))).
      - rewrite Rsum_swap. apply Rsum_ext. intros k Hkk. unfold dot at 3. rewrite <- Rsum_scal. apply Rsum_ext. intros; ring.
      - intros i Hi. rewrite Hh by auto. now rewrite <- Rsum_scal. }
    intros i j Hi Hj. unfold Rm, rank1. rewrite HL by auto.
    rewrite (Rsum_ext n (fun k => F k i * F k j) (fun k => L k i * L k j + (((- / om) * h j) * (dot n g (L k) * L k i) +
       (((- / om) * h i) * (dot n g (L k) * L k j) + (/ om * / om * h i * h j) * (dot n g (L k) * dot n g (L k)))))).
    2:{ intros k Hkk. unfold F. field. lra. }
    rewrite !Rsum_plus, !Rsum_scal. rewrite <- Hh by auto. rewrite <- Hh by auto. rewrite <- Ho2. field. lra. }
  assert (HU : forall U, frob n U Rm = Rsum n (fun k => quad n U (F k))).
  { intros U. rewrite (frob_ext n U U Rm _ (fun _ _ _ _ => eq_refl) HF), frob_sum. apply Rsum_ext. intros k Hkk. apply frob_outer. }
  rewrite <- frob_V_Rm. rewrite !HU.
  rewrite <- (Rsum_scal_r n (quad n W _)), <- (Rsum_scal_r n kf), <- Rsum_scal, <- Rsum_plus.
  apply Rsum_le. intros k Hkk. apply rim; auto.
  unfold F. rewrite dot_minus_r, dot_scal_r, g_h. field. lra.
Qed.

Variables (r sigma delta : R).
Hypothesis Hr : s0 <= r <= s1.
Hypothesis Hsg : sigma < 1.
Hypothesis Hdl : 0 < delta.
Hypothesis E1 : (r - s0) * (s1 - r) = delta * (1 - sigma) / INR n.
Hypothesis E2 : 1 - r * r - delta * (1 - sigma) / INR n = (INR n - 1) * delta / INR n.

Lemma nn2 : 2 <= INR n.
Proof. change 2 with (INR 2). now apply le_INR. Qed.

Lemma trace_bound_full : delta * (kappa * frob n W Rm + (1 - sigma) * quad n W f0) + INR n * quad n W (fun i => c i - r * f0 i - z i) <= INR n * kf.
Proof.
  pose proof nn2 as H2.
  pose proof (rims s0 ltac:(lra)) as R0. pose proof (rims s1 ltac:(lra)) as R1.
  set (T := frob n W Rm) in *. set (F := quad n W f0).
  set (w1 := (r - s0) / (s1 - s0)).
  assert (Hw : 0 <= w1 <= 1).
  { unfold w1. split; [apply Rmult_le_pos; [lra|left; apply Rinv_0_lt_compat; lra]|].
    apply Rmult_le_reg_r with (s1 - s0); [lra|]. replace ((r - s0) / (s1 - s0) * (s1 - s0)) with (r - s0) by (field; lra). lra. }
  set (d := fun i => c i - r * f0 i - z i).
  assert (Q : forall s, quad n W (fun i => c i - s * f0 i - z i) = quad n W d + 2 * (r - s) * dot n d (mulmv n W f0) + (r - s) * (r - s) * F).
  { intros s. rewrite (quad_ext n W W _ (fun i => d i + (r - s) * f0 i)); auto.
    - now rewrite (quad_line n W d (r - s) f0 WS).
    - intros; unfold d; ring. }
  rewrite Q in R0, R1. assert (Hd : 0 <= quad n W d) by apply WP.
  set (D := quad n W d) in *. set (X := dot n d (mulmv n W f0)) in *.
  assert (Hw1 : w1 * (s1 - s0) = r - s0) by (unfold w1; field; lra).
  apply Rmult_le_compat_l with (r := 1 - w1) in R0; [|lra]. apply Rmult_le_compat_l with (r := w1) in R1; [|lra].
  pose proof (Rplus_le_compat _ _ _ _ R0 R1) as RR. clear R0 R1.
  assert (A1 : (1 - w1) * (r - s0) + w1 * (r - s1) = 0) by lra.
  assert (A2 : (1 - w1) * ((r - s0) * (r - s0)) + w1 * ((r - s1) * (r - s1)) = delta * (1 - sigma) / INR n).
  { rewrite <- E1. replace ((1 - w1) * ((r - s0) * (r - s0)) + w1 * ((r - s1) * (r - s1))) with
      ((r - s0) * ((1 - w1) * (r - s0) + w1 * (r - s1)) + (w1 * (s1 - s0)) * (s1 - r)) by ring. rewrite A1, Hw1. ring. }
  assert (A3 : (1 - w1) * (1 - s0 * s0) + w1 * (1 - s1 * s1) = (INR n - 1) * delta / INR n).
  { rewrite <- E2, <- A2. replace ((1 - w1) * (1 - s0 * s0) + w1 * (1 - s1 * s1)) with
     (1 - r * r - ((1 - w1) * ((r - s0) * (r - s0)) + w1 * ((r - s1) * (r - s1))) + 2 * r * ((1 - w1) * (r - s0) + w1 * (r - s1))) by ring.
    rewrite A1. ring. }
  assert (RR' : (INR n - 1) * D + (INR n - 1) * (2 * X) * ((1 - w1) * (r - s0) + w1 * (r - s1)) +
     (INR n - 1) * F * ((1 - w1) * ((r - s0) * (r - s0)) + w1 * ((r - s1) * (r - s1))) +
     kappa * T * ((1 - w1) * (1 - s0 * s0) + w1 * (1 - s1 * s1)) <= (INR n - 1) * kf) by lra.
  rewrite A1, A2, A3 in RR'. clear RR Q Hin.
  apply Rmult_le_reg_l with ((INR n - 1) / INR n); [apply Rdiv_lt_0_compat; lra|].
  replace ((INR n - 1) / INR n * (INR n * kf)) with ((INR n - 1) * kf) by (field; lra).
  replace ((INR n - 1) / INR n * (delta * (kappa * T + (1 - sigma) * F) + INR n * D)) with
    ((INR n - 1) * D + (INR n - 1) * F * (delta * (1 - sigma) / INR n) + kappa * T * ((INR n - 1) * delta / INR n)) by (field; lra).
  lra.
Qed.
Lemma trace_bound : delta * (kappa * frob n W Rm + (1 - sigma) * quad n W f0) <= INR n * kf.
Proof.
  pose proof trace_bound_full as H. pose proof nn2. pose proof (WP (fun i => c i - r * f0 i - z i)) as Hd.
  assert (0 <= INR n * quad n W (fun i => c i - r * f0 i - z i)) by (apply Rmult_le_pos; lra). lra.
Qed.

(** the matrix and the centre of the new ellipsoid *)
Definition newP : mtx := fun i j => rank1 M (sigma / om) h i j * (kappa * delta).
Definition newc : vec := fun i => c i - r * f0 i.
Lemma newP_sym : sym n newP.
Proof. intros i j Hi Hj. unfold newP. f_equal. now apply (rank1_sym n M). Qed.
Lemma newP_pd : pd n newP.
Proof.
  intros x Hx. unfold newP. rewrite quad_smul. apply Rmult_lt_0_compat; [now apply Rmult_lt_0_compat|]. now apply rank1_pd.
Qed.
Lemma newP_det : det n newP = (kappa * delta) ^ n * ((1 - sigma) * det n M).
Proof.
  unfold newP. rewrite det_scale. f_equal. rewrite (det_rank1 n M g (sigma / om) HS HP).
  - f_equal. field. lra.
  - replace (sigma / om * om) with sigma by (field; lra). lra.
Qed.
Lemma newP_frob U : frob n U newP = delta * (kappa * frob n U Rm + (1 - sigma) * quad n U f0).
Proof.
  pose proof tau_sq as Et. pose proof tau_pos as Ht. unfold f0. set (t := tau) in *.
  rewrite frob_Rm. rewrite (quad_scal n U (kappa / t) h).
  rewrite (frob_ext n U U newP (fun i j => (kappa * delta) * M i j + (- (kappa * delta * sigma / om)) * (h i * h j))); auto.
  - rewrite frob_lin, (frob_outer n U h).
    replace (kappa / t * (kappa / t)) with (kappa / om).
    + field. lra.
    + replace (kappa / t * (kappa / t)) with (kappa * kappa / (t * t)) by (field; lra). rewrite Et. field. split; lra.
  - intros i j _ _. unfold newP, rank1. field. lra.
Qed.

Lemma opt_det : (kappa * delta) ^ n * ((1 - sigma) * det n M) <= kf ^ n * det n Mf.
Proof.
  pose proof nn2 as H2. rewrite <- newP_det.
  pose proof (trace_det n Mf W newP FS FP HW WS newP_sym newP_pd) as H.
  pose proof trace_bound as HT. rewrite <- newP_frob in HT.
  assert (Hnn : 0 <= frob n W newP) by (apply frob_nonneg; [exact WP|exact newP_sym|exact newP_pd]).
  assert (HdF := det_pos n Mf FS FP).
  assert (Hpow : frob n W newP ^ n <= (INR n * kf) ^ n) by (apply pow_incr; lra).
  rewrite Rpow_mult_distr in Hpow.
  assert (Hn0 : 0 < INR n ^ n) by (apply pow_lt; lra).
  apply Rmult_le_reg_l with (INR n ^ n); auto.
  apply Rle_trans with (det n Mf * frob n W newP ^ n); auto.
  replace (INR n ^ n * (kf ^ n * det n Mf)) with (det n Mf * (INR n ^ n * kf ^ n)) by ring.
  apply Rmult_le_compat_l; lra.
Qed.

Hypothesis Kf : 0 < kf.
Lemma opt_unique : kf ^ n * det n Mf <= (kappa * delta) ^ n * ((1 - sigma) * det n M) ->
  (forall i j, (i < n)%nat -> (j < n)%nat -> newP i j = Mf i j * kf) /\ (forall i, (i < n)%nat -> newc i = z i).
Proof.
  intros Hle. pose proof nn2 as H2. rewrite <- newP_det in Hle.
  set (Q := fun i j => Mf i j * kf). set (U := fun i j => W i j * / kf).
  assert (Hi : 0 < / kf) by (now apply Rinv_0_lt_compat).
  assert (QS : sym n Q) by (intros i j Hi' Hj; unfold Q; now rewrite (FS i j)).
  assert (QP : pd n Q) by (intros x Hx; unfold Q; rewrite quad_smul; apply Rmult_lt_0_compat; auto).
  assert (US : sym n U) by (intros i j Hi' Hj; unfold U; now rewrite (WS i j)).
  assert (HQU : inverse n Q U).
  { intros i j Hi' Hj. destruct (HW i j Hi' Hj) as [A B]. rewrite <- A at 1. rewrite <- B. unfold mulmm, Q, U.
    split; apply Rsum_ext; intros k Hkk; field; lra. }
  assert (EdQ : det n Q = kf ^ n * det n Mf) by (apply det_scale).
  rewrite <- EdQ in Hle.
  assert (EU : frob n U newP = frob n W newP / kf).
  { unfold frob, U, Rdiv. rewrite <- Rsum_scal_r. apply Rsum_ext; intros i Hi'. rewrite <- Rsum_scal_r. apply Rsum_ext; intros j Hj. ring. }
  pose proof trace_bound_full as HF. rewrite <- newP_frob in HF. fold newc in HF.
  set (d := fun i => c i - r * f0 i - z i) in *. assert (Hd : 0 <= quad n W d) by apply WP.
  assert (HT : frob n U newP + INR n * (quad n W d / kf) <= INR n).
  { rewrite EU. apply Rmult_le_reg_r with kf; auto. replace ((frob n W newP / kf + INR n * (quad n W d / kf)) * kf) with (frob n W newP + INR n * quad n W d) by (field; lra). lra. }
  assert (Hd' : 0 <= quad n W d / kf) by (apply Rmult_le_pos; lra).
  assert (Hd2 : 0 <= INR n * (quad n W d / kf)) by (apply Rmult_le_pos; lra).
  split.
  - intros i j Hi' Hj. apply (trace_det_eq n Q U newP QS QP HQU US newP_sym newP_pd); auto. lra.
  - (* the trace cannot be smaller than n *)
    pose proof (trace_det n Q U newP QS QP HQU US newP_sym newP_pd) as H.
    assert (HdQ := det_pos n Q QS QP).
    assert (Hn0 : 0 < INR n ^ n) by (apply pow_lt; lra).
    assert (HU0 : 0 <= frob n U newP).
    { rewrite EU. apply Rmult_le_pos; [|lra]. apply frob_nonneg; [exact WP|exact newP_sym|exact newP_pd]. }
    assert (HU : INR n <= frob n U newP).
    { apply Rnot_lt_le. intros Hc.
      assert (Hlt : frob n U newP ^ n < INR n ^ n) by (apply pow_lt_up; [lra|lia]).
      assert (det n Q * frob n U newP ^ n < det n Q * INR n ^ n) by (apply Rmult_lt_compat_l; auto).
      assert (INR n ^ n * det n Q <= INR n ^ n * det n newP) by (apply Rmult_le_compat_l; lra). lra. }
    assert (Ez : quad n W d = 0).
    { assert (INR n * (quad n W d / kf) <= 0) by lra. assert (quad n W d / kf <= 0) by nra.
      replace (quad n W d) with (quad n W d / kf * kf) by (field; lra). assert (quad n W d / kf = 0) as -> by lra. ring. }
    intros i Hi'. pose proof (psd_kernel n W d WS WP Ez) as Hker.
    assert (Hdi : d i = 0).
    { rewrite <- (mulmv_one n d i Hi').
      rewrite <- (mulmv_ext n (mulmm n Mf W) mtx_one d d i); auto; [|intros j Hj; apply (HW i j Hi' Hj)].
      rewrite <- mulmv_mulmm. unfold mulmv at 1. apply Rsum_zero. intros k Hkk. rewrite Hker by auto. ring. }
    unfold newc. unfold d in Hdi. lra.
Qed.
End Opt.
