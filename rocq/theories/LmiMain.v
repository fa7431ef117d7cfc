(** The two answers of the LMI oracle in binary64 (C106). *)
From Coq Require Import ZArith Reals Lra Lia Bool Psatz Arith List.
From Flocq Require Import Core IEEE754.BinarySingleNaN.
From Verif Require Import Num Res Arr CuttingPlane ArrLemmas StableLemmas Spec RealLin EllSpec StableSpec Ldlt LdltLemmas LdltSpec LdltProofs FloatLemmas FloatErr
  LdltErr LdltRej LdltAccSpec LdltAcc Lmi LmiSpec LmiProofs AccSpec StepAccSpec PowerMore LmiErr LmiAccSpec LmiAcc.
Local Open Scope R_scope.

#[local] Opaque fadd fsub fmul fdiv fsqrt fofZ.
Lemma quad_shift n t A x : quad n (shift t A) x = quad n A x + t * dot n x x.
Proof.
  unfold quad, dot, mulmv. rewrite <- Rsum_scal. rewrite <- Rsum_plus. apply Rsum_ext. intros i Hi.
  rewrite (Rsum_ext n _ (fun j => A i j * x j + (if Nat.eqb j i then t * x i else 0))).
  - rewrite Rsum_plus. rewrite (Rsum_one n i (fun j => if Nat.eqb j i then t * x i else 0)); [rewrite Nat.eqb_refl; ring|auto|]. intros j Hj Hne. destruct (Nat.eqb_spec j i); [contradiction|reflexivity].
  - intros j Hj. unfold shift. rewrite (Nat.eqb_sym i j). destruct (Nat.eqb_spec j i) as [->|]; ring.
Qed.
Lemma quad_minus n A B x : quad n A x - quad n B x = quad n (fun i j => A i j - B i j) x.
Proof. unfold quad, dot, mulmv. rewrite <- Rsum_minus. apply Rsum_ext. intros i Hi. rewrite <- Rmult_minus_distr_l, <- Rsum_minus. f_equal. apply Rsum_ext. intros. ring. Qed.

Section Main.
Variable lm : Libm.
Notation F := (FNum lm).
Variables (n K : nat) (r : vec) (M : R) (o : LMI F) (x : Arr F).
Hypotheses (FT : lmi_fits n K r M o) (PT : point_ok K r x).
Let f := lmi_f o.
Let b := lmi_b o.
Let P := fpencil n K o.
Let MM0 := 101 / 100 * M.

Lemma nth_fin (a : Arr F) i : all_finite a -> fin (nth i (adata a) (n0 (N := F)) : f64) = true.
Proof.
  intros H. destruct (Nat.lt_ge_cases i (length (adata a))) as [K0|K0].
  - unfold all_finite in H. rewrite Forall_forall in H. apply H. now apply nth_In.
  - rewrite nth_overflow by auto. apply n0_fin.
Qed.
Lemma f_fin q : all_finite (nth q f b).
Proof.
  destruct (fit_fin _ _ _ _ _ FT) as [H1 H2]. destruct (Nat.lt_ge_cases q (length f)) as [K0|K0].
  - rewrite Forall_forall in H2. apply H2. now apply nth_In.
  - now rewrite nth_overflow by auto.
Qed.
Lemma f_sym q : sym n (fentry n (nth q f b)).
Proof.
  destruct (fit_sym _ _ _ _ _ FT) as [H1 H2]. destruct (Nat.lt_ge_cases q (length f)) as [K0|K0].
  - rewrite Forall_forall in H2. apply H2. now apply nth_In.
  - now rewrite nth_overflow by auto.
Qed.
Lemma P_sym y : sym n (P y).
Proof.
  intros i j Hi Hj. unfold P, fpencil. destruct (fit_sym _ _ _ _ _ FT) as [H1 _]. rewrite (H1 i j) by auto. f_equal. apply Rsum_ext. intros q Hq. f_equal. now apply f_sym.
Qed.
Lemma u_pos : 0 < uu. Proof. apply bpow_gt_0. Qed.
Lemma e_pos : 0 < ee. Proof. apply bpow_gt_0. Qed.
Lemma e_M : ee <= uu * M * bpow radix2 (-600).
Proof.
  destruct (fit_M _ _ _ _ _ FT) as [H1 _]. pose proof u_pos. pose proof (bpow_gt_0 radix2 (-600)).
  apply Rle_trans with (uu * bpow radix2 (-400) * bpow radix2 (-600)); [rewrite <- !bpow_plus; apply bpow_le; lia|].
  apply Rmult_le_compat_r; [lra|]. apply Rmult_le_compat_l; lra.
Qed.
Lemma M_pos : 0 < M. Proof. destruct (fit_M _ _ _ _ _ FT) as [H1 _]. pose proof (bpow_gt_0 radix2 (-400)). lra. Qed.
Lemma big20 k : (Z.of_nat k <= 2 ^ 20)%Z -> INR k <= bpow radix2 20.
Proof. intros H. rewrite INR_IZR_INZ. change (bpow radix2 20) with (IZR (2 ^ 20)). now apply IZR_le. Qed.
Lemma K_small : 0 <= INR K * uu <= / 1000.
Proof.
  destruct (fit_dim _ _ _ _ _ FT) as (_ & _ & _ & H). apply big20 in H. pose proof u_pos. split; [apply Rmult_le_pos; [apply pos_INR|lra]|].
  apply Rle_trans with (bpow radix2 20 * uu); [apply Rmult_le_compat_r; lra|]. rewrite <- bpow_plus.
  apply Rle_trans with (bpow radix2 (-10)); [apply bpow_le; lia|]. change (bpow radix2 (-10)) with (/ 1024). lra.
Qed.
Lemma n_small : 1 <= INR n /\ INR n * uu <= 1 / 1000 /\ 2000 * (INR n * INR n * uu) <= 1.
Proof.
  destruct (fit_dim _ _ _ _ _ FT) as (H1 & H & _ & _). apply big20 in H. pose proof u_pos. apply (le_INR 1) in H1. change (INR 1) with 1 in H1.
  assert (INR n * uu <= bpow radix2 (-33)). { change (-33)%Z with (20 + -53)%Z. rewrite bpow_plus. apply Rmult_le_compat_r; lra. }
  assert (INR n * INR n * uu <= bpow radix2 (-13)). { change (-13)%Z with (20 + 20 + -53)%Z. rewrite !bpow_plus. apply Rmult_le_compat_r; [lra|]. apply Rmult_le_compat; lra. }
  assert (bpow radix2 (-33) <= bpow radix2 (-13)) by (apply bpow_le; lia). change (bpow radix2 (-13)) with (/ 8192) in *. lra.
Qed.

(** ** The entries *)
Definition gl i j : f64 := lmi_val (N := F) n f b x K i j.
Lemma sum_x i j : (i < n)%nat -> (j < n)%nat ->
  Rabs (fentry n b i j) + Rsum K (fun q => Rabs (fentry n (nth q f b) i j * fcoords x q)) <= M.
Proof.
  intros Hi Hj. destruct PT as (_ & _ & Bx). apply Rle_trans with (2 := fit_sum _ _ _ _ _ FT i j Hi Hj). apply Rplus_le_compat_l. apply Rsum_le. intros q Hq. rewrite Rabs_mult.
  apply Rmult_le_compat_l; [apply Rabs_pos|]. now apply Bx.
Qed.
Lemma entry_ok i j : (i < n)%nat -> (j < n)%nat ->
  fin (gl i j) = true /\ Rabs (val (gl i j) - P (fcoords x) i j) <= 4 * INR K * uu * M /\ Rabs (val (gl i j)) <= MM0.
Proof.
  intros Hi Hj. destruct PT as (Lx & Fx & Bx). destruct (fit_dim _ _ _ _ _ FT) as (_ & _ & _ & HK). destruct (fit_M _ _ _ _ _ FT) as [M1 M2].
  pose proof (sum_x i j Hi Hj) as SX. pose proof u_pos as U. pose proof e_pos as E. pose proof e_M as EM. pose proof M_pos as MP. pose proof (pos_INR K) as K0. pose proof K_small as KS.
  destruct (subs_ok lm (nth (i * n + j) (adata b) (n0 (N := F))) (fun q => nth (i * n + j) (adata (nth q f b)) (n0 (N := F))) (fun q => nth q (adata x) (n0 (N := F))) M K) as [H1 H2]; auto.
  - apply nth_fin. apply (fit_fin _ _ _ _ _ FT).
  - intros q Hq. split; apply nth_fin; auto. apply f_fin.
  - change (fin (gl i j) = true) in H1. split; auto.
    match type of H2 with Rabs (?a - ?c) <= _ => change a with (val (gl i j)) in H2; change c with (P (fcoords x) i j) in H2 end.
    match type of H2 with _ <= 3 * _ * _ * ?ss + _ => change ss with (Rabs (fentry n b i j) + Rsum K (fun q => Rabs (fentry n (nth q f b) i j * fcoords x q))) in H2 end.
    set (s := Rabs (fentry n b i j) + Rsum K (fun q => Rabs (fentry n (nth q f b) i j * fcoords x q))) in *.
    assert (G1 : 3 * INR K * uu * s <= 3 * INR K * uu * M) by (apply Rmult_le_compat_l; [apply Rmult_le_pos; lra|auto]).
    assert (G2 : INR K * (4 * ee) <= INR K * (uu * M)).
    { apply Rmult_le_compat_l; auto. apply Rle_trans with (4 * (uu * M * bpow radix2 (-600))); [lra|].
      assert (UM : 0 <= uu * M) by (apply Rmult_le_pos; lra). assert (bpow radix2 (-600) <= bpow radix2 (-2)) by (apply bpow_le; lia). change (bpow radix2 (-2)) with (/ 4) in *.
      assert (uu * M * bpow radix2 (-600) <= uu * M * / 4) by (apply Rmult_le_compat_l; auto). lra. }
    assert (G3 : Rabs (val (gl i j) - P (fcoords x) i j) <= 4 * INR K * uu * M) by lra. split; auto.
    replace (val (gl i j)) with (P (fcoords x) i j + (val (gl i j) - P (fcoords x) i j)) by ring. eapply Rle_trans; [apply Rabs_triang|].
    assert (G4 : Rabs (P (fcoords x) i j) <= s).
    { unfold P, fpencil, s, Rminus. eapply Rle_trans; [apply Rabs_triang|]. rewrite Rabs_Ropp. apply Rplus_le_compat_l. apply Rabs_Rsum. }
    assert (INR K * uu * M <= / 1000 * M) by (apply Rmult_le_compat_r; lra). unfold MM0. lra.
Qed.
(** the matrix the factorisation works on: it only reads the lower triangle *)
Definition gs i j : f64 := if (j <=? i)%nat then gl i j else gl j i.
Let A : mtx := fun i j => val (gs i j).
Lemma A_sym : sym n A.
Proof.
  intros i j _ _. unfold A, gs. destruct (Nat.leb_spec j i), (Nat.leb_spec i j); auto; try lia. now replace j with i by lia.
Qed.
Lemma A_ok i j : (i < n)%nat -> (j < n)%nat -> Rabs (A i j - P (fcoords x) i j) <= 4 * INR K * uu * M /\ Rabs (A i j) <= MM0.
Proof.
  intros Hi Hj. unfold A, gs. destruct (Nat.leb_spec j i); [apply entry_ok; auto|]. rewrite (P_sym (fcoords x) i j) by auto. apply entry_ok; auto.
Qed.
Lemma near v : Rabs (quad n A v - quad n (P (fcoords x)) v) <= 4 * INR n * INR K * uu * M * dot n v v.
Proof.
  rewrite quad_minus. pose proof K_small as KS. pose proof M_pos as MP.
  replace (4 * INR n * INR K * uu * M * dot n v v) with (INR n * (4 * INR K * uu * M) * dot n v v) by ring.
  apply quad_entries; [|intros i j Hi Hj; apply A_ok; auto]. apply Rmult_le_pos; [|lra]. lra.
Qed.
Lemma reads_gs : reads (N := F) n (lmi_elem (N := F) f b x) gs.
Proof.
  intros i j Hj Hi. destruct PT as (Lx & _ & _). destruct (fit_ok _ _ _ _ _ FT) as (Hb & Hf & _). destruct (fit_dim _ _ _ _ _ FT) as (_ & _ & HK & _).
  rewrite (lmi_elem_ok n) by (auto; try lia; unfold a_len; rewrite Lx; unfold f; lia). unfold a_len. rewrite Lx. unfold gs. rewrite (proj2 (Nat.leb_le j i)) by lia. reflexivity.
Qed.
Lemma HMM : bpow radix2 (-400) <= MM0 <= bpow radix2 401.
Proof. destruct (fit_M _ _ _ _ _ FT) as [M1 M2]. pose proof M_pos. unfold MM0. change 401%Z with (1 + 400)%Z. rewrite bpow_plus. change (bpow radix2 1) with 2. lra. Qed.
Lemma tiny1 : 100 * INR n * bpow radix2 401 * ee <= uu * bpow radix2 (-400).
Proof.
  destruct (fit_dim _ _ _ _ _ FT) as (_ & H & _ & _). apply big20 in H. pose proof (pos_INR n).
  apply Rle_trans with (bpow radix2 7 * bpow radix2 20 * bpow radix2 401 * ee).
  - apply Rmult_le_compat_r; [apply bpow_ge_0|]. apply Rmult_le_compat_r; [apply bpow_ge_0|]. change (bpow radix2 7) with 128. apply Rmult_le_compat; lra.
  - rewrite <- !bpow_plus. apply bpow_le. lia.
Qed.
Lemma W401 : 1 <= bpow radix2 401. Proof. apply (bpow_le radix2 0 401). lia. Qed.
Lemma n26 : (Z.of_nat n <= 2 ^ 26)%Z.
Proof. destruct (fit_dim _ _ _ _ _ FT) as (_ & H & _ & _). lia. Qed.
Lemma n1' : (1 <= n)%nat. Proof. apply (fit_dim _ _ _ _ _ FT). Qed.

(** ** No cut *)
Lemma lmi_accepts o' : lmi_assess (N := F) o x = Ok (o', None) -> pivots_ok n n o' -> pd n (shift (lmi_tol n K M) (P (fcoords x))).
Proof.
  intros E Hp v Hv. rewrite quad_shift. destruct (fit_ok _ _ _ _ _ FT) as (Hb & Hf & Hm).
  unfold lmi_assess in E. destruct (ldlt_factor_ok (N := F) n _ gs (lmi_mgr o) (mgr_wf n _ Hm) reads_gs) as (st & Ls & [(Ef & H)|(p & Hp' & Ef & _)]); fold f b in E; rewrite Ef in E; cbn [bind] in E.
  2:{ destruct (ldlt_witness _) as [[m1 ep]|]; [|discriminate E]. cbn [bind] in E. destruct (lmi_grad _ _ _); discriminate E. }
  assert (Eo : o' = mkLMI (N := F) f b (mkLDLT (N := F) (0, 0)%nat (l_wit (lmi_mgr o)) n st)) by congruence. subst o'. unfold pivots_ok, pivot in Hp. cbn [lmi_mgr l_storage] in Hp.
  set (g := fun a c => mget (N := F) n st a c : f64). pose proof n_small as (N1 & N2 & N3).
  assert (Pd : forall i, (i < n)%nat -> 0 < val (g i i)).
  { intros i Hi. destruct (H i Hi) as [_ K1]. change (Bleb (g i i) (n0 (N := F) : f64) = false) in K1. rewrite fleb_fin in K1 by (try (apply Hp; auto); apply n0_fin).
    rewrite n0_val in K1. revert K1. case Rle_bool_spec; [discriminate|]. auto. }
  pose proof (accept_M n A (fun i j => val (g i j)) (fun i j => val (g i j)) (fun i => val (g i i)) uu ee (bpow radix2 (-400)) (bpow radix2 401) MM0 u_pos e_pos (bpow_le radix2 (-1075) (-53) ltac:(lia)) N2
    (bpow_gt_0 _ _) W401 tiny1 n1' HMM (fun i => eq_refl) v A_sym) as Acc.
  assert (Q : 0 < quad n A v + 8 * INR n * INR n * uu * MM0 * dot n v v).
  { apply Acc; auto. intros i Hi. destruct (row_acc lm n gs st n1' n26 i Hi (proj1 (H i Hi)) (Hp i Hi)) as (K1 & K2 & _); [intros; apply Pd; lia|]. split; [exact K1|].
    split; [split; [apply Pd; auto|exact K2]|]. destruct (A_ok i i Hi Hi) as [_ K3]. apply Rabs_le_inv in K3. apply K3. }
  pose proof (near v) as NR. apply Rabs_le_inv in NR. unfold lmi_tol.
  assert (Z0 : 0 <= dot n v v) by (apply Rsum_nonneg; intros; apply Rle_0_sqr). pose proof u_pos as U. pose proof M_pos as MP.
  assert (G : 8 * INR n * INR n * uu * MM0 <= 50 * INR n * INR n * INR n * uu * M).
  { unfold MM0. assert (0 < uu * M) by (apply Rmult_lt_0_compat; lra). assert (T1 : INR n * INR n * 1 * (uu * M) <= INR n * INR n * INR n * (uu * M)). { apply Rmult_le_compat_r; [lra|]. apply Rmult_le_compat_l; [apply Rmult_le_pos; lra|lra]. }
    assert (0 <= INR n * INR n * (uu * M)) by (apply Rmult_le_pos; [apply Rmult_le_pos; lra|lra]). lra. }
  assert (8 * INR n * INR n * uu * MM0 * dot n v v <= 50 * INR n * INR n * INR n * uu * M * dot n v v) by (apply Rmult_le_compat_r; auto). lra.
Qed.

(** ** A cut *)
Lemma quad_P y v : quad n (P y) v = quad n (fentry n b) v - Rsum K (fun q => quad n (fentry n (nth q f b)) v * y q).
Proof.
  unfold P, fpencil. fold f b.
  assert (G : forall k, quad n (fun i j => fentry n b i j - Rsum k (fun q => fentry n (nth q f b) i j * y q)) v = quad n (fentry n b) v - Rsum k (fun q => quad n (fentry n (nth q f b)) v * y q)); [|apply G].
  induction k; cbn [Rsum].
  - rewrite Rminus_0_r. apply quad_ext; intros; auto. ring.
  - replace (quad n (fentry n b) v - (Rsum k (fun q => quad n (fentry n (nth q f b)) v * y q) + quad n (fentry n (nth k f b)) v * y k))
      with (quad n (fun i j => fentry n b i j - Rsum k (fun q => fentry n (nth q f b) i j * y q)) v - quad n (fentry n (nth k f b)) v * y k) by (rewrite IHk; ring).
    assert (E : quad n (fentry n (nth k f b)) v * y k = quad n (fun i j => fentry n (nth k f b) i j * y k) v).
    { unfold quad, dot, mulmv. rewrite <- (Rsum_scal_r n (y k)). apply Rsum_ext. intros i Hi. rewrite Rmult_assoc. f_equal. rewrite <- (Rsum_scal_r n (y k)). apply Rsum_ext. intros. ring. }
    rewrite E, quad_minus. apply quad_ext; intros; auto. ring.
Qed.
Lemma tail_sum m i (h : nat -> R) : (i <= m)%nat -> Rsum (S m) (fun j => if (i <? j)%nat then h j else 0) = Rsum (m - i) (fun k => h (S i + k)%nat).
Proof.
  intros Hi. replace (S m) with (S i + (m - i))%nat by lia. rewrite Rsum_split. rewrite Rsum_zero by (intros j Hj; now rewrite (proj2 (Nat.ltb_ge i j)) by lia).
  rewrite Rplus_0_l. apply Rsum_ext. intros k Hk. now rewrite (proj2 (Nat.ltb_lt i (S i + k))) by lia.
Qed.
(** errors in the gradient, for a displacement within the box *)
Lemma grad_err (g : vec) v y : 1 <= dot n v v -> in_box K r y ->
  (forall q, (q < K)%nat -> Rabs (g q - quad n (fentry n (nth q f b)) v) <=
     5 * (INR n * INR n) * uu * Rsum n (fun i => Rsum n (fun j => Rabs (v i) * Rabs (fentry n (nth q f b) i j) * Rabs (v j))) + ee * (4 * (INR n * INR n) + 2 * INR n * Rsum n (fun i => Rabs (v i)))) ->
  Rabs (Rsum K (fun q => (g q - quad n (fentry n (nth q f b)) v) * (y q - fcoords x q))) <= 11 * (INR n * INR n * INR n) * uu * M * dot n v v.
Proof.
  intros HZ Hy Hg. set (Z := dot n v v) in *. set (B := Rsum n (fun i => Rabs (v i))) in *. pose proof n_small as (N1 & N2 & N3). pose proof u_pos as U. pose proof e_pos as Ep. pose proof M_pos as MP.
  destruct PT as (_ & _ & Bx). set (H := fun q => Rsum n (fun i => Rsum n (fun j => Rabs (v i) * Rabs (fentry n (nth q f b) i j) * Rabs (v j)))) in *.
  set (N := INR n * INR n) in *. assert (N0 : 1 <= N) by (unfold N; rewrite <- (Rmult_1_l 1); apply Rmult_le_compat; lra).
  assert (B2 : B * B <= INR n * Z).
  { pose proof (cauchy n (fun _ => 1) (fun i => Rabs (v i))) as C.
    assert (E1 : dot n (fun _ => 1) (fun i => Rabs (v i)) = B) by (apply Rsum_ext; intros; ring).
    assert (E2 : dot n (fun _ => 1) (fun _ => 1) = INR n) by (unfold dot; rewrite Rsum_const; ring).
    assert (E3 : dot n (fun i => Rabs (v i)) (fun i => Rabs (v i)) = Z) by (apply Rsum_ext; intros; rewrite <- Rabs_mult; apply Rabs_pos_eq; apply Rle_0_sqr).
    rewrite E1, E2, E3 in C. exact C. }
  assert (B0 : 0 <= B) by (apply Rsum_nonneg; intros; apply Rabs_pos).
  assert (B1 : B <= INR n * Z). { assert (INR n * 1 <= INR n * Z) by (apply Rmult_le_compat_l; lra). apply Rnot_lt_le; intros C. assert (INR n * Z * (INR n * Z) < B * B) by (apply Rmult_le_0_lt_compat; lra).
    assert (1 * (INR n * Z) <= INR n * Z * (INR n * Z)) by (apply Rmult_le_compat_r; lra). lra. }
  eapply Rle_trans; [apply Rabs_Rsum|].
  apply Rle_trans with (Rsum K (fun q => 10 * N * uu * (H q * r q) + 2 * ee * (4 * N + 2 * INR n * B) * r q)).
  - apply Rsum_le. intros q Hq. rewrite Rabs_mult. specialize (Hg q Hq). destruct (fit_box _ _ _ _ _ FT q Hq) as [r0 r1].
    assert (D : Rabs (y q - fcoords x q) <= 2 * r q). { unfold Rminus. eapply Rle_trans; [apply Rabs_triang|]. rewrite Rabs_Ropp. specialize (Hy q Hq). specialize (Bx q Hq). lra. }
    fold (H q) in Hg. eapply Rle_trans; [apply Rmult_le_compat; [apply Rabs_pos|apply Rabs_pos|exact Hg|exact D]|]. lra.
  - rewrite Rsum_plus, Rsum_scal, Rsum_scal.
    assert (S1 : Rsum K (fun q => H q * r q) <= M * (INR n * Z)).
    { apply Rle_trans with (M * (B * B)); [|apply Rmult_le_compat_l; lra].
      assert (E : Rsum K (fun q => H q * r q) = Rsum n (fun i => Rsum n (fun j => Rabs (v i) * Rabs (v j) * Rsum K (fun q => Rabs (fentry n (nth q f b) i j) * r q)))).
      { rewrite (Rsum_ext K _ (fun q => Rsum n (fun i => Rsum n (fun j => Rabs (v i) * Rabs (fentry n (nth q f b) i j) * Rabs (v j) * r q)))).
        - rewrite Rsum_swap. apply Rsum_ext. intros i Hi. rewrite Rsum_swap. apply Rsum_ext. intros j Hj. rewrite <- Rsum_scal. apply Rsum_ext. intros. ring.
        - intros q Hq. unfold H. rewrite <- Rsum_scal_r. apply Rsum_ext. intros i Hi. now rewrite <- Rsum_scal_r. }
      rewrite E. apply Rle_trans with (Rsum n (fun i => Rsum n (fun j => Rabs (v i) * Rabs (v j) * M))).
      - apply Rsum_le. intros i Hi. apply Rsum_le. intros j Hj. apply Rmult_le_compat_l; [apply Rmult_le_pos; apply Rabs_pos|].
        pose proof (fit_sum _ _ _ _ _ FT i j Hi Hj) as G. fold f b in G. pose proof (Rabs_pos (fentry n b i j)). lra.
      - apply Req_le. rewrite (Rsum_ext n _ (fun i => Rabs (v i) * (B * M))); [rewrite Rsum_scal_r; fold B; ring|]. intros i Hi. rewrite Rsum_scal_r, Rsum_scal. fold B. ring. }
    assert (S2 : Rsum K r <= INR K * bpow radix2 400).
    { rewrite <- Rsum_const. apply Rsum_le. intros q Hq. apply (fit_box _ _ _ _ _ FT q Hq). }
    assert (S3 : 0 <= Rsum K r) by (apply Rsum_nonneg; intros q Hq; apply (fit_box _ _ _ _ _ FT q Hq)).
    assert (S4 : 4 * N + 2 * INR n * B <= 6 * N * Z).
    { assert (INR n * B <= INR n * (INR n * Z)) by (apply Rmult_le_compat_l; lra). assert (N * 1 <= N * Z) by (apply Rmult_le_compat_l; lra). unfold N in *. lra. }
    assert (S5 : 2 * ee * (4 * N + 2 * INR n * B) * Rsum K r <= N * uu * M * Z).
    { apply Rle_trans with (2 * ee * (6 * N * Z) * (INR K * bpow radix2 400)).
      - assert (0 <= INR n * B) by (apply Rmult_le_pos; lra). apply Rmult_le_compat; auto; [apply Rmult_le_pos; lra|]. apply Rmult_le_compat_l; lra.
      - replace (2 * ee * (6 * N * Z) * (INR K * bpow radix2 400)) with (12 * INR K * bpow radix2 400 * ee * (N * Z)) by ring. replace (N * uu * M * Z) with (uu * M * (N * Z)) by ring.
        apply Rmult_le_compat_r; [apply Rmult_le_pos; lra|]. destruct (fit_dim _ _ _ _ _ FT) as (_ & _ & _ & HK). apply big20 in HK. pose proof (pos_INR K).
        destruct (fit_M _ _ _ _ _ FT) as [M1 _].
        apply Rle_trans with (bpow radix2 4 * bpow radix2 20 * bpow radix2 400 * ee).
        + apply Rmult_le_compat_r; [lra|]. apply Rmult_le_compat_r; [apply bpow_ge_0|]. change (bpow radix2 4) with 16. apply Rmult_le_compat; lra.
        + apply Rle_trans with (uu * bpow radix2 (-400)); [rewrite <- !bpow_plus; apply bpow_le; lia|]. apply Rmult_le_compat_l; lra. }
    assert (S6 : 10 * N * uu * Rsum K (fun q => H q * r q) <= 10 * N * uu * (M * (INR n * Z))) by (apply Rmult_le_compat_l; [apply Rmult_le_pos; lra|exact S1]).
    assert (S7 : 1 * (N * uu * M * Z) <= INR n * (N * uu * M * Z)). { apply Rmult_le_compat_r; [|lra]. repeat apply Rmult_le_pos; lra. }
    unfold N in *. lra.
Qed.
Lemma lmi_rejects o' g bt : lmi_assess (N := F) o x = Ok (o', Some (g, bt)) -> pivots_ok n (snd (l_pos (lmi_mgr o'))) o' -> all_finite g ->
  length (adata g) = K /\ acols g = 0%nat /\ fin (sc_beta bt : f64) = true /\ 0 <= val (sc_beta bt : f64) /\ exists v : vec, 1 <= dot n v v /\
  forall y, in_box K r y -> Rabs (dot K (fcoords g) (fun i => y i - fcoords x i) + val (sc_beta bt : f64) + quad n (P y) v) < lmi_tol n K M * dot n v v.
Proof.
  intros E Hp Fg. destruct (fit_ok _ _ _ _ _ FT) as (Hb & Hf & Hm). destruct (fit_dim _ _ _ _ _ FT) as (Hn1 & Hn20 & HK & HK20). pose proof PT as (Lx & _ & _).
  unfold lmi_assess in E. destruct (ldlt_factor_ok (N := F) n _ gs (lmi_mgr o) (mgr_wf n _ Hm) reads_gs) as (st & Ls & [(Ef & H)|(p & Hp' & Ef & H1 & H2 & H3)]); fold f b in E; rewrite Ef in E; cbn [bind] in E; [discriminate E|].
  destruct (mgr_wf n _ Hm) as (Hnd & Lst & Lw).
  destruct (ldlt_witness_ok (N := F) n (mkLDLT (N := F) (0, p + 1)%nat (l_wit (lmi_mgr o)) n st) 0 p) as (w & Ew & Lw' & W1 & W2 & _); auto; [lia|].
  cbn [l_pos l_storage] in Ew, W2. rewrite Ew in E. cbn [bind] in E. set (m'' := mkLDLT (N := F) (0, (p + 1))%nat w n st) in *.
  assert (Lxa : a_len x = K) by exact Lx. rewrite Lxa in E.
  assert (Q : forall q, (q < K)%nat -> exists qv, ldlt_sym_quad (N := F) m'' (nth q f b) = Ok qv).
  { intros q Hq. rewrite (sym_quad_f64 lm n m'' (nth q f b) (p + 1)); [eauto|apply Forall_nth_sq; auto; unfold f; lia|exact Lw'|reflexivity|lia]. }
  set (qf := fun q => match ldlt_sym_quad (N := F) m'' (nth q f b) with Ok v => v | Panic => n0 end).
  destruct (LmiProofs.grad_ok (N := F) f K (ldlt_sym_quad (N := F) m'') b qf) as (g' & Eg & Lg & Cg & Vg).
  { unfold f; lia. } { intros q Hq. destruct (Q q Hq) as [qv Eq]. unfold qf. now rewrite Eq. }
  unfold lmi_grad in E. rewrite Eg in E. cbn [bind] in E.
  assert (E2 : o' = mkLMI (N := F) f b m'' /\ g = g' /\ bt = mkSingle (N := F) (nopp (n := F) (mget (N := F) n st p p))) by (split; [|split]; congruence). clear E.
  destruct E2 as (-> & -> & ->). cbn [lmi_mgr l_pos snd m''] in Hp. unfold pivots_ok, pivot in Hp. cbn [lmi_mgr l_storage m''] in Hp.
  set (gg := fun a c => mget (N := F) n st a c : f64). cbn [sc_beta].
  assert (Fp : forall i, (i <= p)%nat -> fin (gg i i) = true) by (intros i Hi; apply Hp; lia).
  assert (VO : val (@Bopp fprec femax (gg p p)) = - val (gg p p)) by apply B2R_Bopp. assert (FO : fin (@Bopp fprec femax (gg p p)) = true) by (rewrite is_finite_Bopp; apply Fp; lia).
  split; [exact Lg|]. split; [exact Cg|]. split; [exact FO|]. change (val (nopp (n := F) (gg p p) : f64)) with (val (@Bopp fprec femax (gg p p))). rewrite VO.
  assert (Pd : forall i, (i < p)%nat -> 0 < val (gg i i)).
  { intros i Hi. specialize (H2 i Hi). change (Bleb (gg i i) (n0 (N := F) : f64) = false) in H2. rewrite fleb_fin in H2 by (try (apply Fp; lia); apply n0_fin).
    rewrite n0_val in H2. revert H2. case Rle_bool_spec; [discriminate|]. auto. }
  assert (Np : val (gg p p) <= 0).
  { change (Bleb (gg p p) (n0 (N := F) : f64) = true) in H3. rewrite fleb_fin in H3 by (try (apply Fp; lia); apply n0_fin). rewrite n0_val in H3. revert H3. case Rle_bool_spec; [auto|discriminate]. }
  split; [lra|].
  set (v := fun i => if (i <? p + 1)%nat then val (vget w i : f64) else 0). exists v.
  assert (QE : forall q, (q < K)%nat -> (forall i, (i < p + 1)%nat -> fin (vget w i : f64) = true) /\
    Rabs (fcoords g' q - quad n (fentry n (nth q f b)) v) <= 5 * (INR n * INR n) * uu * Rsum n (fun i => Rsum n (fun j => Rabs (v i) * Rabs (fentry n (nth q f b) i j) * Rabs (v j))) +
    ee * (4 * (INR n * INR n) + 2 * INR n * Rsum n (fun i => Rabs (v i)))).
  { intros q Hq. destruct (Q q Hq) as [qv Eq]. assert (Gq : nth q (adata g') (n0 (N := F)) = qv) by (rewrite Vg by auto; unfold qf; now rewrite Eq).
    destruct (sym_quad_err lm n m'' (nth q f b) (p + 1) qv) as [R1 R2]; auto; [apply Forall_nth_sq; auto; unfold f; lia|lia| |].
    - rewrite <- Gq. apply nth_fin. exact Fg.
    - split; [exact R1|]. cbv zeta in R2. rewrite <- Gq in R2. exact R2. }
  destruct (QE 0%nat ltac:(lia)) as [Fw _].
  pose proof n_small as (N1 & N2 & N3). pose proof u_pos as U. pose proof e_pos as Ep. pose proof M_pos as MP.
  assert (v1 : v p = 1). { unfold v. rewrite (proj2 (Nat.ltb_lt p (p + 1))) by lia. rewrite W1. exact (proj1 (fofZ_small 1 ltac:(lia))). }
  assert (v0 : forall i, (p < i)%nat -> v i = 0) by (intros i Hi; unfold v; now rewrite (proj2 (Nat.ltb_ge i (p + 1))) by lia).
  assert (HZ : 1 <= dot n v v).
  { unfold dot. rewrite (Rsum_trunc n (S p)) by (try lia; intros i Hi; rewrite v0 by lia; ring). cbn [Rsum]. rewrite v1. assert (0 <= Rsum p (fun i => v i * v i)) by (apply Rsum_nonneg; intros; apply Rle_0_sqr). lra. }
  split; [exact HZ|].
  assert (Res : forall k, (k < p)%nat -> Rabs (v k + Rsum (S p) (fun j => if (k <? j)%nat then val (gg j k) * v j else 0)) <=
     3 * INR n * uu * Rsum (S p) (fun j => if (k <? j)%nat then Rabs (val (gg j k) * v j) else 0) + 4 * INR n * ee).
  { intros k Hk. rewrite !tail_sum by lia. pose proof (Fw k ltac:(lia)) as Fk. rewrite W2 in Fk by lia.
    set (X := fun q => gg (S k + q)%nat k). set (Y := fun q => vget w (S k + q) : f64).
    change (fin (@Bopp fprec femax (accum (N := F) n0 (fun q => fmul (X q) (Y q)) (p - k))) = true) in Fk. rewrite is_finite_Bopp in Fk.
    assert (pk : INR (p - k) <= INR n) by (apply le_INR; lia). assert (pku : INR (p - k) * uu <= INR n * uu) by (apply Rmult_le_compat_r; lra).
    pose proof (accum_err lm X Y (p - k) Fk ltac:(lra)) as AE.
    assert (Vk : v k = - val (accum (N := F) n0 (fun q => fmul (X q) (Y q)) (p - k) : f64)).
    { unfold v. rewrite (proj2 (Nat.ltb_lt k (p + 1))) by lia. rewrite W2 by lia. exact (@B2R_Bopp fprec femax (accum (N := F) n0 (fun q => fmul (X q) (Y q)) (p - k) : f64)). }
    rewrite Vk. assert (vY : forall q, (q < p - k)%nat -> v (S k + q)%nat = val (Y q)) by (intros q Hq; unfold v; now rewrite (proj2 (Nat.ltb_lt (S k + q) (p + 1))) by lia).
    rewrite (Rsum_ext (p - k) (fun q => val (gg (S k + q)%nat k) * v (S k + q)%nat) (fun q => val (X q) * val (Y q))) by (intros q Hq; now rewrite vY).
    rewrite (Rsum_ext (p - k) (fun q => Rabs (val (gg (S k + q)%nat k) * v (S k + q)%nat)) (fun q => Rabs (val (X q) * val (Y q)))) by (intros q Hq; now rewrite vY).
    set (a := val (accum (N := F) n0 (fun q => fmul (X q) (Y q)) (p - k) : f64)) in *. rewrite Rabs_minus_sym in AE.
    match goal with |- Rabs (- a + ?t) <= _ => replace (- a + t) with (t - a) by ring end. apply Rle_trans with (1 := AE).
    set (S1 := Rsum (p - k) (fun q => Rabs (val (X q) * val (Y q)))) in *. assert (0 <= S1) by (apply Rsum_nonneg; intros; apply Rabs_pos).
    assert (INR (p - k) * uu * S1 <= INR n * uu * S1) by (apply Rmult_le_compat_r; auto). assert (INR (p - k) * ee <= INR n * ee) by (apply Rmult_le_compat_r; lra). lra. }
  pose proof (witness_form n A (fun i j => val (gg i j)) (fun i j => val (gg i j)) (fun i => val (gg i i)) uu ee (bpow radix2 (-400)) (bpow radix2 401) MM0 u_pos e_pos (bpow_le radix2 (-1075) (-53) ltac:(lia)) N2
    (bpow_gt_0 _ _) W401 tiny1 n1' HMM (fun i => eq_refl) p v Hp' N3 A_sym) as WF.
  assert (Ra : forall i, (i <= p)%nat -> row_err A (fun i j => val (gg i j)) (fun i j => val (gg i j)) (fun i => val (gg i i)) uu ee i /\ val (gg i i) <= A i i).
  { intros i Hi. destruct (row_acc lm n gs st n1' n26 i ltac:(lia) (H1 i Hi) (Fp i Hi)) as (K1 & K2 & _); [intros; apply Pd; lia|]. split; [exact K1|exact K2]. }
  specialize (WF (fun i Hi => proj1 (Ra i Hi)) (fun i Hi => conj (Pd i Hi) (proj2 (Ra i (Nat.lt_le_incl _ _ Hi)))) (fun i j Hi Hj => proj2 (A_ok i j ltac:(lia) ltac:(lia))) v1 v0 Res).
  pose proof (near v) as NR. intros y Hy. pose proof (grad_err (fcoords g') v y HZ Hy (fun q Hq => proj2 (QE q Hq))) as GE.
  set (Z := dot n v v) in *. set (D := val (gg p p)) in *.
  assert (EQ : dot K (fcoords g') (fun i => y i - fcoords x i) + - D =
    - quad n (P y) v + Rsum K (fun q => (fcoords g' q - quad n (fentry n (nth q f b)) v) * (y q - fcoords x q)) + (quad n (P (fcoords x)) v - D)).
  { rewrite (quad_P y), (quad_P (fcoords x)). unfold dot.
    rewrite (Rsum_ext K (fun q => (fcoords g' q - quad n (fentry n (nth q f b)) v) * (y q - fcoords x q))
      (fun q => fcoords g' q * (y q - fcoords x q) - (quad n (fentry n (nth q f b)) v * y q - quad n (fentry n (nth q f b)) v * fcoords x q))) by (intros; ring).
    rewrite !Rsum_minus. ring. }
  rewrite EQ. apply Rabs_def1; apply Rabs_le_inv in GE; apply Rabs_le_inv in NR; apply Rabs_le_inv in WF; unfold lmi_tol, MM0 in *;
  assert (T : 0 < INR n * INR n * INR n * uu * M * Z) by (repeat apply Rmult_lt_0_compat; lra);
  change (bpow radix2 (-53)) with uu in *; lra.
Qed.
End Main.

Lemma lmi_cut_valid lm n K r M (o : LMI (FNum lm)) x o' g bt y : lmi_fits n K r M o -> point_ok K r x -> lmi_assess (N := FNum lm) o x = Ok (o', Some (g, bt)) ->
  pivots_ok n (snd (l_pos (lmi_mgr o'))) o' -> all_finite g -> in_box K r y -> psd n (shift (- lmi_tol n K M) (fpencil n K o y)) ->
  along K (fcoords g) y (fcoords x) + B2R (sc_beta bt : f64) < 0.
Proof.
  intros FT PT E Hp Fg Hy Hpsd. destruct (lmi_rejects lm n K r M o x FT PT o' g bt E Hp Fg) as (_ & _ & _ & _ & v & _ & H). specialize (H y Hy). specialize (Hpsd v). apply Rabs_def2 in H.
  rewrite quad_shift in Hpsd. unfold along. change (B2R (sc_beta bt : f64)) with (val (sc_beta bt : f64)). lra.
Qed.
Lemma lmi_cut_right lm n K r M (o : LMI (FNum lm)) x o' g bt : lmi_fits n K r M o -> point_ok K r x -> lmi_assess (N := FNum lm) o x = Ok (o', Some (g, bt)) ->
  pivots_ok n (snd (l_pos (lmi_mgr o'))) o' -> all_finite g -> ~ psd n (shift (- lmi_tol n K M) (fpencil n K o (fcoords x))).
Proof.
  intros FT PT E Hp Fg Hpsd. destruct (lmi_rejects lm n K r M o x FT PT o' g bt E Hp Fg) as (_ & _ & _ & Hb & _).
  pose proof (lmi_cut_valid lm n K r M o x o' g bt (fcoords x) FT PT E Hp Fg (proj2 (proj2 PT)) Hpsd) as H.
  assert (Z : along K (fcoords g) (fcoords x) (fcoords x) = 0) by (apply Rsum_zero; intros; ring). rewrite Z in H.
  change (B2R (sc_beta bt : f64)) with (val (sc_beta bt : f64)) in H. lra.
Qed.
(** the oracle always answers, and it holds the same problem afterwards *)
Lemma lmi_answers lm n (o : LMI (FNum lm)) x : lmi_ok n o -> (a_len x <= length (lmi_f o))%nat ->
  exists o' c, lmi_assess (N := FNum lm) o x = Ok (o', c) /\ lmi_ok n o' /\ lmi_f o' = lmi_f o /\ lmi_b o' = lmi_b o.
Proof.
  intros (Hb & Hf & Hm) Hx.
  assert (Hr : reads (N := FNum lm) n (lmi_elem (N := FNum lm) (lmi_f o) (lmi_b o) x) (lmi_val (N := FNum lm) n (lmi_f o) (lmi_b o) x (a_len x))) by (intros i j Hj Hi; apply lmi_elem_ok; auto; lia).
  unfold lmi_assess. destruct (ldlt_factor_ok (N := FNum lm) n _ _ (lmi_mgr o) (mgr_wf n _ Hm) Hr) as (st & Ls & [(Ef & H)|(p & Hp' & Ef & H1 & H2 & H3)]); rewrite Ef; cbn [bind].
  - do 2 eexists. split; [reflexivity|]. split; auto. split; auto. split; auto. eapply mgr_factor; eauto.
  - destruct (mgr_wf n _ Hm) as (Hnd & Lst & Lw).
    destruct (ldlt_witness_ok (N := FNum lm) n (mkLDLT (N := FNum lm) (0, p + 1)%nat (l_wit (lmi_mgr o)) n st) 0 p) as (w & Ew & Lw' & _); auto; [lia|]. cbn [l_pos l_storage] in Ew. rewrite Ew. cbn [bind].
    set (m'' := mkLDLT (N := FNum lm) (0, (p + 1))%nat w n st).
    assert (Q : forall q, (q < a_len x)%nat -> exists v, ldlt_sym_quad (N := FNum lm) m'' (nth q (lmi_f o) (lmi_b o)) = Ok v).
    { intros q Hq. rewrite (sym_quad_f64 lm n m'' _ (p + 1)); [eauto|apply Forall_nth_sq; auto; lia|exact Lw'|reflexivity|lia]. }
    set (qf := fun q => match ldlt_sym_quad (N := FNum lm) m'' (nth q (lmi_f o) (lmi_b o)) with Ok v => v | Panic => n0 (N := FNum lm) end).
    destruct (LmiProofs.grad_ok (N := FNum lm) (lmi_f o) (a_len x) (ldlt_sym_quad (N := FNum lm) m'') (lmi_b o) qf) as (g' & Eg & _); auto.
    { intros q Hq. destruct (Q q Hq) as [v Ev]. unfold qf. now rewrite Ev. }
    unfold lmi_grad. rewrite Eg. cbn [bind]. do 2 eexists. split; [reflexivity|]. split; auto. split; auto. split; auto. eapply mgr_witness; [|exact Ew]. eapply mgr_factor; eauto.
Qed.
Lemma lmi_fits_next lm n K r M (o : LMI (FNum lm)) x : lmi_fits n K r M o -> point_ok K r x ->
  exists o' c, lmi_assess (N := FNum lm) o x = Ok (o', c) /\ lmi_fits n K r M o' /\ lmi_f o' = lmi_f o /\ lmi_b o' = lmi_b o.
Proof.
  intros FT (Lx & _). destruct FT as [A1 A2 A3 A4 A5 A6 A7]. destruct (lmi_answers lm n o x A1) as (o' & c & E & Ho & Hf & Hb).
  { unfold a_len. lia. } exists o', c. split; [exact E|]. split; [|auto]. constructor; rewrite ?Hf, ?Hb; auto.
Qed.
Lemma lmi_cut_sound lm n K r M (o : LMI (FNum lm)) x o' g bt : lmi_fits n K r M o -> point_ok K r x -> lmi_assess (N := FNum lm) o x = Ok (o', Some (g, bt)) ->
  pivots_ok n (snd (l_pos (lmi_mgr o'))) o' -> all_finite g ->
  length (adata g) = K /\ acols g = 0%nat /\ is_finite (sc_beta bt : f64) = true /\ 0 <= B2R (sc_beta bt : f64) /\
  forall y, in_box K r y -> psd n (shift (- lmi_tol n K M) (fpencil n K o y)) -> along K (fcoords g) y (fcoords x) + B2R (sc_beta bt : f64) < 0.
Proof.
  intros FT PT E Hp Fg. destruct (lmi_rejects lm n K r M o x FT PT o' g bt E Hp Fg) as (H1 & H2 & H3 & H4 & _). repeat (split; [assumption|]).
  intros y. exact (lmi_cut_valid lm n K r M o x o' g bt y FT PT E Hp Fg).
Qed.
Lemma lmi_certificate lm n K r M (o : LMI (FNum lm)) x : lmi_fits n K r M o -> point_ok K r x -> forall o' g bt, lmi_assess (N := FNum lm) o x = Ok (o', Some (g, bt)) ->
  pivots_ok n (snd (l_pos (lmi_mgr o'))) o' -> all_finite g ->
  exists v : vec, 1 <= dot n v v /\ forall y, in_box K r y ->
    Rabs (along K (fcoords g) y (fcoords x) + B2R (sc_beta bt : f64) + quad n (fpencil n K o y) v) < lmi_tol n K M * dot n v v.
Proof. intros FT PT o' g bt E Hp Fg. destruct (lmi_rejects lm n K r M o x FT PT o' g bt E Hp Fg) as (_ & _ & _ & _ & H). exact H. Qed.
