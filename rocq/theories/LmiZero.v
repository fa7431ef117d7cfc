(** The homogeneous LMI oracle in binary64: up to the signs of zeros in the gradient it is
    the other oracle with B = 0 and the matrices negated. *)
From Coq Require Import ZArith Reals Lra Lia Bool List Arith.
From Flocq Require Import Core IEEE754.BinarySingleNaN.
From Verif Require Import Num Res Arr CuttingPlane Spec RealLin ArrLemmas StableLemmas EllSpec StableSpec AccSpec Ldlt LdltLemmas LdltSpec LdltProofs Lmi LmiSpec LmiProofs FloatLemmas FloatErr LdltAccSpec StepAccSpec LmiAccSpec LmiAcc LmiMain.
Import ListNotations.
Local Open Scope R_scope.

Notation fopp := (@Bopp fprec femax).
Lemma fopp_val (x : f64) : val (fopp x) = - val x. Proof. apply B2R_Bopp. Qed.
Lemma fopp_fin (x : f64) : fin (fopp x) = fin x. Proof. apply is_finite_Bopp. Qed.
Lemma inf_of (z : f64) s : B2SF z = SpecFloat.S754_infinity s -> z = B754_infinity s.
Proof. destruct z; cbn; intros H; try discriminate. congruence. Qed.
Lemma fsub_opp (x y : f64) : fsub x (fopp y) = fadd x y.
Proof.
  unfold fsub, fadd. destruct x as [sx|sx| |sx mx ex Hx], y as [sy|sy| |sy my ey Hy]; cbn [Bopp Bminus Bplus]; rewrite ?negb_involutive; reflexivity.
Qed.
Lemma sign_opp (x : f64) : is_nan x = false -> Bsign (fopp x) = negb (Bsign x).
Proof. destruct x; cbn; auto; discriminate. Qed.
Lemma fin_nan (x : f64) : fin x = true -> is_nan x = false.
Proof. destruct x; cbn; auto; discriminate. Qed.
Lemma fin_all (x : f64) : fin x = false -> (exists s, x = B754_infinity s) \/ x = B754_nan.
Proof. destruct x; cbn; try discriminate; intros _; [left; eauto|now right]. Qed.
Lemma fmul_opp (x y : f64) : fmul (fopp x) y = fopp (fmul x y).
Proof.
  destruct x as [sx|sx| |sx mx ex Hx].
  - destruct y as [sy|sy| |sy my ey Hy]; unfold fmul; cbn [Bopp Bmult]; auto; rewrite <- negb_xorb_l; reflexivity.
  - destruct y as [sy|sy| |sy my ey Hy]; unfold fmul; cbn [Bopp Bmult]; auto; rewrite <- negb_xorb_l; reflexivity.
  - destruct y; reflexivity.
  - destruct y as [sy|sy| |sy my ey Hy]; unfold fmul; try (cbn [Bopp Bmult]; auto; rewrite <- negb_xorb_l; reflexivity).
    set (x := @B754_finite fprec femax sx mx ex Hx). set (y := @B754_finite fprec femax sy my ey Hy).
    pose proof (@Bmult_correct fprec femax fprec_gt_0 fprec_lt_emax mode_NE x y) as C1. pose proof (@Bmult_correct fprec femax fprec_gt_0 fprec_lt_emax mode_NE (fopp x) y) as C2.
    rewrite B2R_Bopp, Ropp_mult_distr_l_reverse in C2. cbn [round_mode] in *. rewrite round_NE_opp, Rabs_Ropp in C2.
    assert (S2 : Bsign (fopp x) = negb (Bsign x)) by reflexivity.
    destruct (Rlt_bool _ _).
    + destruct C1 as (V1 & F1 & G1). destruct C2 as (V2 & F2 & G2). cbn [is_finite x y Bopp andb] in F1, F2.
      assert (F3 : is_finite (fopp (Bmult mode_NE x y)) = true) by (rewrite is_finite_Bopp; exact F1).
      apply B2R_Bsign_inj; [exact F2|exact F3|rewrite B2R_Bopp, V1, V2; reflexivity|].
      rewrite sign_opp by (apply fin_nan; exact F1). rewrite G1 by (apply fin_nan; exact F1). rewrite G2 by (apply fin_nan; exact F2). rewrite S2. now rewrite <- negb_xorb_l.
    + rewrite S2, <- negb_xorb_l in C2. unfold binary_overflow in *. cbn [overflow_to_inf] in *. apply inf_of in C1. apply inf_of in C2. rewrite C1, C2. reflexivity.
Qed.
Lemma fmul_opp_r (x y : f64) : fmul x (fopp y) = fopp (fmul x y).
Proof.
  destruct x as [sx|sx| |sx mx ex Hx].
  - destruct y as [sy|sy| |sy my ey Hy]; unfold fmul; cbn [Bopp Bmult]; auto; rewrite <- negb_xorb_r; reflexivity.
  - destruct y as [sy|sy| |sy my ey Hy]; unfold fmul; cbn [Bopp Bmult]; auto; rewrite <- negb_xorb_r; reflexivity.
  - destruct y; reflexivity.
  - destruct y as [sy|sy| |sy my ey Hy]; unfold fmul; try (cbn [Bopp Bmult]; auto; rewrite <- negb_xorb_r; reflexivity).
    set (x := @B754_finite fprec femax sx mx ex Hx). set (y := @B754_finite fprec femax sy my ey Hy).
    pose proof (@Bmult_correct fprec femax fprec_gt_0 fprec_lt_emax mode_NE x y) as C1. pose proof (@Bmult_correct fprec femax fprec_gt_0 fprec_lt_emax mode_NE x (fopp y)) as C2.
    rewrite B2R_Bopp, Ropp_mult_distr_r_reverse in C2. cbn [round_mode] in *. rewrite round_NE_opp, Rabs_Ropp in C2.
    assert (S2 : Bsign (fopp y) = negb (Bsign y)) by reflexivity.
    destruct (Rlt_bool _ _).
    + destruct C1 as (V1 & F1 & G1). destruct C2 as (V2 & F2 & G2). cbn [is_finite x y Bopp andb] in F1, F2.
      assert (F3 : is_finite (fopp (Bmult mode_NE x y)) = true) by (rewrite is_finite_Bopp; exact F1).
      apply B2R_Bsign_inj; [exact F2|exact F3|rewrite B2R_Bopp, V1, V2; reflexivity|].
      rewrite sign_opp by (apply fin_nan; exact F1). rewrite G1 by (apply fin_nan; exact F1). rewrite G2 by (apply fin_nan; exact F2). rewrite S2. now rewrite <- negb_xorb_r.
    + rewrite S2, <- negb_xorb_r in C2. unfold binary_overflow in *. cbn [overflow_to_inf] in *. apply inf_of in C1. apply inf_of in C2. rewrite C1, C2. reflexivity.
Qed.

Section Z.
Variable lm : Libm.
Notation F := (FNum lm).
Notation neg := (a_neg (N := F)).
Definition neg_of (n : nat) (o : LMI0 F) : LMI F := mkLMI (N := F) (map neg (lmi0_f o)) (a_zeros (N := F) n n) (lmi0_mgr o).
Lemma nth_neg (a : Arr F) i : (i < length (adata a))%nat -> nth i (adata (neg a)) (n0 (N := F)) = fopp (nth i (adata a) (n0 (N := F))).
Proof. intros H. cbn [a_neg a_mapd adata]. rewrite (nth_indep _ _ (fopp (n0 (N := F)))) by (rewrite map_length; exact H). apply map_nth. Qed.
Lemma square_neg n (a : Arr F) : square n a -> square n (neg a).
Proof. intros (A & B & C). repeat split; auto. cbn. now rewrite map_length. Qed.
Lemma neg_squares n (l : list (Arr F)) : Forall (square n) l -> Forall (square n) (map neg l).
Proof. intros H. rewrite Forall_map. eapply Forall_impl; [|exact H]. intros a Ha. now apply square_neg. Qed.
Lemma nth_negs (l : list (Arr F)) q d d' : (q < length l)%nat -> nth q (map neg l) d' = neg (nth q l d).
Proof. intros H. rewrite (nth_indep _ d' (neg d)) by (now rewrite map_length). apply map_nth. Qed.
Lemma zeros_square n : square n (a_zeros (N := F) n n).
Proof. repeat split. cbn. now rewrite repeat_length. Qed.
Lemma elem_same n (f : list (Arr F)) x i j : Forall (square n) f -> (a_len x <= length f)%nat -> (i < n)%nat -> (j < n)%nat ->
  lmi0_elem (N := F) f x i j = lmi_elem (N := F) (map neg f) (a_zeros (N := F) n n) x i j.
Proof.
  intros Hf Hx Hi Hj. rewrite (lmi0_elem_ok (N := F) n f x (a_zeros (N := F) n n) i j Hf Hx Hi Hj).
  rewrite (lmi_elem_ok (N := F) n (map neg f) (a_zeros (N := F) n n) x i j); [|apply zeros_square|now apply neg_squares|now rewrite map_length|auto|auto].
  f_equal. unfold lmi_val. assert (Hij : (i * n + j < n * n)%nat) by nia.
  assert (G : forall k, (k <= a_len x)%nat -> accum (N := F) n0 (fun q => nmul (n := F) (nth (i * n + j) (adata (nth q f (a_zeros (N := F) n n))) n0) (nth q (adata x) n0)) k =
    subacc (N := F) (nth (i * n + j) (adata (a_zeros (N := F) n n)) n0) (fun q => nmul (n := F) (nth (i * n + j) (adata (nth q (map neg f) (a_zeros (N := F) n n))) n0) (nth q (adata x) n0)) k); [|apply G; lia].
  induction k; intros Hk; cbn [accum subacc].
  - cbn [a_zeros adata]. now rewrite nth_repeat.
  - rewrite IHk by lia. rewrite (nth_negs f k (a_zeros (N := F) n n)) by lia. rewrite nth_neg.
    + set (a := subacc _ _ _). set (v := nth (i * n + j) _ _). set (w := nth k (adata x) _). change (fadd a (fmul v w) = fsub a (fmul (fopp v) w)). rewrite fmul_opp, fsub_opp. reflexivity.
    + assert (S : square n (nth k f (a_zeros (N := F) n n))) by (apply Forall_nth_sq; auto; lia). destruct S as (-> & _). exact Hij.
Qed.
Lemma accum_neg (t : nat -> F) k : fin (accum (N := F) n0 t k : f64) = true ->
  fin (accum (N := F) n0 (fun q => fopp (t q)) k : f64) = true /\ val (accum (N := F) n0 (fun q => fopp (t q)) k : f64) = - val (accum (N := F) n0 t k : f64).
Proof.
  induction k; cbn [accum]; intros H.
  - rewrite n0_val. split; [apply n0_fin|ring].
  - set (a := accum (N := F) n0 t k) in *. set (b := accum (N := F) n0 (fun q => fopp (t q)) k) in *. change (fin (fadd a (t k)) = true) in H.
    change (fin (fadd b (fopp (t k))) = true /\ val (fadd b (fopp (t k))) = - val (fadd a (t k))).
    destruct (fadd_inv _ _ H) as (H1 & H2 & V). destruct (IHk H1) as [I1 I2].
    assert (E : rnd (val b + val (fopp (t k))) = - rnd (val a + val (t k : f64))).
    { rewrite I2, fopp_val. replace (- val a + - val (t k : f64)) with (- (val a + val (t k : f64))) by ring. unfold rnd. apply round_NE_opp. }
    destruct (fadd_fin b (fopp (t k)) I1) as [J1 J2]; [now rewrite fopp_fin|rewrite E, Rabs_Ropp, <- V; apply val_bound|].
    split; [exact J2|]. rewrite J1, E, V. reflexivity.
Qed.
Lemma quad_neg n (m : LDLT F) (A : Arr F) p q : square n A -> length (adata (l_wit m)) = n -> l_pos m = (0, p)%nat -> (0 < p <= n)%nat ->
  ldlt_sym_quad (N := F) m A = Ok q -> exists q', ldlt_sym_quad (N := F) m (neg A) = Ok q' /\ (fin (q : f64) = true -> fin (q' : f64) = true /\ val (q' : f64) = - val (q : f64)).
Proof.
  intros SA Lw Hp Hpn E. rewrite (sym_quad_f64 lm n m A p SA Lw Hp Hpn) in E. injection E as <-.
  rewrite (sym_quad_f64 lm n m (neg A) p (square_neg n A SA) Lw Hp Hpn). eexists. split; [reflexivity|]. intros H.
  set (t := fun q => fmul (fmul (vget (l_wit m) (q / p)) (nth (q / p * n + q mod p) (adata A) n0)) (vget (l_wit m) (q mod p)) : F) in *.
  destruct (accum_neg t (p * p) H) as [H1 H2].
  rewrite (accum_ext (N := F) n0 _ (fun q => fopp (t q)) (p * p)); [split; [exact H1|exact H2]|].
  intros q Hq. unfold t. rewrite nth_neg; [rewrite fmul_opp_r, fmul_opp; reflexivity|]. destruct SA as (-> & _).
  assert (q / p < p)%nat by (apply Nat.div_lt_upper_bound; lia). assert (q mod p < p)%nat by (apply Nat.mod_upper_bound; lia). nia.
Qed.
Definition same_answer (k : nat) (c : option (Arr F * F)) (c' : option (Arr F * SingleCut F)) : Prop :=
  match c, c' with
  | None, None => True
  | Some (g, ep), Some (g', bt) => ep = sc_beta bt /\ length (adata g) = k /\ acols g = 0%nat /\ (all_finite g -> all_finite g' /\ forall i, (i < k)%nat -> fcoords g i = fcoords g' i)
  | _, _ => False
  end.
Lemma lmi0_sim n (o : LMI0 F) x : lmi0_ok n o -> (a_len x <= length (lmi0_f o))%nat ->
  exists o' c c', lmi0_assess (N := F) o x = Ok (o', c) /\ lmi0_ok n o' /\ lmi0_f o' = lmi0_f o /\ lmi_assess (N := F) (neg_of n o) x = Ok (neg_of n o', c') /\ same_answer (a_len x) c c'.
Proof.
  intros (Hf & Hm) Hx. unfold lmi0_assess, lmi_assess. cbn [neg_of lmi_f lmi_b lmi_mgr].
  rewrite <- (ldlt_factor_ext (N := F) n (lmi0_elem (N := F) (lmi0_f o) x) (lmi_elem (N := F) (map neg (lmi0_f o)) (a_zeros (N := F) n n) x) (lmi0_mgr o)); [|apply (mgr_wf n _ Hm)|intros i j Hj Hi; apply elem_same; auto; lia].
  assert (Hr : reads (N := F) n (lmi0_elem (N := F) (lmi0_f o) x) (fun i j => accum (N := F) n0 (fun q => nmul (n := F) (nth (i * n + j) (adata (nth q (lmi0_f o) (a_zeros (N := F) n n))) n0) (nth q (adata x) n0)) (a_len x)))
    by (intros i j Hj Hi; apply lmi0_elem_ok; auto; lia).
  destruct (ldlt_factor_ok (N := F) n _ _ (lmi0_mgr o) (mgr_wf n _ Hm) Hr) as (st & Ls & [(Ef & H)|(p & Hp' & Ef & H1 & H2 & H3)]); rewrite Ef; cbn [bind].
  - do 3 eexists. split; [reflexivity|]. split; [split; auto; eapply mgr_factor; eauto|]. split; [reflexivity|]. split; [reflexivity|exact I].
  - destruct (mgr_wf n _ Hm) as (Hnd & Lst & Lw).
    destruct (ldlt_witness_ok (N := F) n (mkLDLT (N := F) (0, p + 1)%nat (l_wit (lmi0_mgr o)) n st) 0 p) as (w & Ew & Lw' & _); auto; [lia|]. cbn [l_pos l_storage] in Ew. rewrite Ew. cbn [bind].
    set (m'' := mkLDLT (N := F) (0, (p + 1))%nat w n st) in *.
    assert (SQ : forall q, (q < a_len x)%nat -> square n (nth q (lmi0_f o) (a_zeros (N := F) n n))) by (intros q Hq; apply Forall_nth_sq; auto; lia).
    assert (Q : forall q, (q < a_len x)%nat -> exists v, ldlt_sym_quad (N := F) m'' (nth q (lmi0_f o) (a_zeros (N := F) n n)) = Ok v).
    { intros q Hq. rewrite (sym_quad_f64 lm n m'' _ (p + 1)); [eauto|apply SQ; auto|exact Lw'|reflexivity|lia]. }
    set (qf := fun q => match ldlt_sym_quad (N := F) m'' (nth q (lmi0_f o) (a_zeros (N := F) n n)) with Ok v => v | Panic => n0 (N := F) end).
    set (qf' := fun q => match ldlt_sym_quad (N := F) m'' (neg (nth q (lmi0_f o) (a_zeros (N := F) n n))) with Ok v => v | Panic => n0 (N := F) end).
    destruct (LmiProofs.grad_ok (N := F) (lmi0_f o) (a_len x) (fun A => q <- ldlt_sym_quad (N := F) m'' A ;; Ok (nopp (n := F) q)) (a_zeros (N := F) n n) (fun q => nopp (n := F) (qf q))) as (g & Eg & Lg & Cg & Vg); auto.
    { intros q Hq. destruct (Q q Hq) as [v Ev]. unfold qf. rewrite Ev. reflexivity. }
    destruct (LmiProofs.grad_ok (N := F) (map neg (lmi0_f o)) (a_len x) (ldlt_sym_quad (N := F) m'') (a_zeros (N := F) n n) qf') as (g' & Eg' & Lg' & Cg' & Vg'); [now rewrite map_length| |].
    { intros q Hq. rewrite (nth_negs (lmi0_f o) q (a_zeros (N := F) n n)) by lia. unfold qf'. destruct (Q q Hq) as [v Ev]. destruct (quad_neg n m'' _ (p + 1) v (SQ q Hq) Lw' eq_refl ltac:(lia) Ev) as (v' & Ev' & _). now rewrite Ev'. }
    match type of Eg with for_range _ _ ?b1 _ = _ => match goal with |- context [for_range 0 (a_len x) ?b2 (a_new (a_len x))] =>
      assert (Eb : for_range 0 (a_len x) b2 (a_new (N := F) (a_len x)) = Ok g) by (rewrite <- Eg; apply for_range_ext; intros i t Hi; destruct (rd (lmi0_f o) i); cbn [bind]; auto; destruct (ldlt_sym_quad (N := F) m'' a); reflexivity) end end.
    rewrite Eb. cbn [bind]. unfold lmi_grad. rewrite Eg'. cbn [bind]. do 3 eexists. split; [reflexivity|].
    split; [split; auto; eapply mgr_witness; [|exact Ew]; eapply mgr_factor; eauto|]. split; [reflexivity|]. split; [reflexivity|].
    split; [reflexivity|]. split; [exact Lg|]. split; [exact Cg|]. intros Fg.
    assert (K : forall i, (i < a_len x)%nat -> fin (nth i (adata g') (n0 (N := F)) : f64) = true /\ fcoords g i = fcoords g' i).
    { intros i Hi. assert (Fi : fin (nth i (adata g) (n0 (N := F)) : f64) = true) by (apply nth_fin; exact Fg). rewrite Vg in Fi by auto. change (fin (fopp (qf i)) = true) in Fi. rewrite fopp_fin in Fi.
      destruct (Q i Hi) as [v Ev]. destruct (quad_neg n m'' _ (p + 1) v (SQ i Hi) Lw' eq_refl ltac:(lia) Ev) as (v' & Ev' & HV). assert (Eq : qf i = v) by (unfold qf; now rewrite Ev). rewrite Eq in Fi. destruct (HV Fi) as [V1 V2].
      unfold fcoords. rewrite Vg, Vg' by auto. unfold qf'. rewrite Ev', Eq. split; [exact V1|]. change (val (fopp v) = val (v' : f64)). rewrite fopp_val, V2. ring. }
    split; [|apply K]. apply Forall_forall. intros v Hv. apply (In_nth _ _ (n0 (N := F))) in Hv as (i & Hi & <-). apply K. lia.
Qed.

Lemma fentry_neg n (a : Arr F) i j : fentry n (neg a) i j = - fentry n a i j.
Proof.
  unfold fentry. destruct (Nat.lt_ge_cases (i * n + j) (length (adata a))) as [H|H].
  - rewrite nth_neg by exact H. apply fopp_val.
  - rewrite !nth_overflow by (rewrite ?map_length; cbn; rewrite ?map_length; exact H). change (B2R (n0 (N := F) : f64)) with (val (n0 (N := F) : f64)). rewrite n0_val. ring.
Qed.
Lemma fentry_zero n i j : fentry n (a_zeros (N := F) n n) i j = 0.
Proof. unfold fentry. cbn [a_zeros adata]. rewrite nth_repeat. apply n0_val. Qed.
Lemma neg_pencil n k (o : LMI0 F) y i j : (k <= length (lmi0_f o))%nat -> fpencil n k (neg_of n o) y i j = fpencil0 n k o y i j.
Proof.
  intros Hk. unfold fpencil, fpencil0. cbn [neg_of lmi_b lmi_f]. rewrite fentry_zero.
  rewrite (Rsum_ext k _ (fun q => - 1 * (fentry0 n o q i j * y q))); [rewrite Rsum_scal; ring|].
  intros q Hq. rewrite (nth_negs (lmi0_f o) q (a_zeros (N := F) n n)) by lia. rewrite fentry_neg. unfold fentry0. ring.
Qed.
Lemma neg_fits n k r M (o : LMI0 F) : lmi0_fits n k r M o -> lmi_fits n k r M (neg_of n o).
Proof.
  intros [[A1 A1'] A2 A3 A4 A5 A6 A7]. constructor; cbn [neg_of lmi_f lmi_b lmi_mgr].
  - split; [apply zeros_square|]. split; [now apply neg_squares|exact A1'].
  - now rewrite map_length.
  - split; [apply Forall_forall; intros v Hv; cbn in Hv; apply repeat_spec in Hv; subst v; apply (n0_fin lm)|].
    rewrite Forall_map. eapply Forall_impl; [|exact A3]. intros a Ha. unfold all_finite in *. cbn [a_neg a_mapd adata]. rewrite Forall_map. eapply Forall_impl; [|exact Ha]. intros v Hv. change (fin (fopp v) = true). rewrite fopp_fin. exact Hv.
  - split; [intros i j _ _; now rewrite !fentry_zero|]. rewrite Forall_map. eapply Forall_impl; [|exact A4]. intros a Ha i j Hi Hj. rewrite !fentry_neg. now rewrite (Ha i j Hi Hj).
  - exact A5.
  - exact A6.
  - intros i j Hi Hj. rewrite fentry_zero, Rabs_R0. rewrite (Rsum_ext k _ (fun q => Rabs (fentry0 n o q i j) * r q)); [rewrite Rplus_0_l; now apply A7|].
    intros q Hq. rewrite (nth_negs (lmi0_f o) q (a_zeros (N := F) n n)) by lia. rewrite fentry_neg, Rabs_Ropp. reflexivity.
Qed.
Lemma neg_quad n k (o : LMI0 F) y v : (k <= length (lmi0_f o))%nat -> quad n (fpencil n k (neg_of n o) y) v = quad n (fpencil0 n k o y) v.
Proof. intros Hk. apply quad_ext; auto. intros i j _ _. now apply neg_pencil. Qed.
Variables (n k : nat) (r : vec) (M : R) (o : LMI0 F) (x : Arr F).
Hypothesis (FT : lmi0_fits n k r M o) (PT : point_ok k r x).
Lemma dim0 : (k <= length (lmi0_f o))%nat. Proof. destruct (fit0_dim _ _ _ _ _ FT) as (_ & _ & H & _). lia. Qed.
Lemma sim0 : exists o' c c', lmi0_assess (N := F) o x = Ok (o', c) /\ lmi0_ok n o' /\ lmi0_f o' = lmi0_f o /\ lmi_assess (N := F) (neg_of n o) x = Ok (neg_of n o', c') /\ same_answer k c c'.
Proof. pose proof dim0 as D. destruct PT as (E & _). change (length (adata x)) with (a_len x) in E. rewrite <- E in *. apply lmi0_sim; [apply (fit0_ok _ _ _ _ _ FT)|exact D]. Qed.
Lemma lmi0_fits_next : exists o' c, lmi0_assess (N := F) o x = Ok (o', c) /\ lmi0_fits n k r M o' /\ lmi0_f o' = lmi0_f o.
Proof.
  destruct sim0 as (o' & c & c' & E & Ho & Hf & _). exists o', c. split; [exact E|]. split; [|exact Hf].
  destruct FT as [A1 A2 A3 A4 A5 A6 A7]. constructor; unfold fentry0 in *; rewrite ?Hf; auto.
Qed.
Lemma lmi0_accepts o' : lmi0_assess (N := F) o x = Ok (o', None) -> pivots0_ok n n o' -> pd n (shift (lmi_tol n k M) (fpencil0 n k o (fcoords x))).
Proof.
  intros E Hp. destruct sim0 as (o1 & c & c' & E1 & _ & _ & E2 & S). rewrite E in E1. injection E1 as <- <-. destruct c' as [|]; [destruct S|].
  intros v Hv. pose proof (lmi_accepts lm n k r M (neg_of n o) x (neg_fits n k r M o FT) PT _ E2 Hp v Hv) as G.
  rewrite quad_shift in *. now rewrite neg_quad in G by apply dim0.
Qed.
Lemma lmi0_certificate o' g ep : lmi0_assess (N := F) o x = Ok (o', Some (g, ep)) -> pivots0_ok n (snd (l_pos (lmi0_mgr o'))) o' -> all_finite g ->
  length (adata g) = k /\ acols g = 0%nat /\ fin (ep : f64) = true /\ 0 <= val (ep : f64) /\ exists v : vec, 1 <= dot n v v /\
  forall y, in_box k r y -> Rabs (along k (fcoords g) y (fcoords x) + val (ep : f64) + quad n (fpencil0 n k o y) v) < lmi_tol n k M * dot n v v.
Proof.
  intros E Hp Fg. destruct sim0 as (o1 & c & c' & E1 & _ & _ & E2 & S). rewrite E in E1. injection E1 as <- <-. destruct c' as [[g' bt]|]; [|destruct S].
  destruct S as (-> & Lg & Cg & S). destruct (S Fg) as [Fg' Sg].
  destruct (lmi_rejects lm n k r M (neg_of n o) x (neg_fits n k r M o FT) PT _ _ _ E2 Hp Fg') as (_ & _ & H3 & H4 & v & Hv & H5).
  repeat (split; [assumption|]). exists v. split; [exact Hv|]. intros y Hy. specialize (H5 y Hy). rewrite neg_quad in H5 by apply dim0.
  unfold along. replace (dot k (fcoords g) (fun i => y i - fcoords x i)) with (dot k (fcoords g') (fun i => y i - fcoords x i)); [exact H5|].
  apply Rsum_ext. intros i Hi. now rewrite Sg.
Qed.
Lemma lmi0_cut o' g ep : lmi0_assess (N := F) o x = Ok (o', Some (g, ep)) -> pivots0_ok n (snd (l_pos (lmi0_mgr o'))) o' -> all_finite g ->
  length (adata g) = k /\ acols g = 0%nat /\ fin (ep : f64) = true /\ 0 <= val (ep : f64) /\
  forall y, in_box k r y -> psd n (shift (- lmi_tol n k M) (fpencil0 n k o y)) -> along k (fcoords g) y (fcoords x) + val (ep : f64) < 0.
Proof.
  intros E Hp Fg. destruct (lmi0_certificate o' g ep E Hp Fg) as (H1 & H2 & H3 & H4 & v & Hv & H). repeat (split; [assumption|]).
  intros y Hy Py. specialize (H y Hy). specialize (Py v). rewrite quad_shift in Py. apply Rabs_def2 in H. lra.
Qed.
Lemma lmi0_right o' g ep : lmi0_assess (N := F) o x = Ok (o', Some (g, ep)) -> pivots0_ok n (snd (l_pos (lmi0_mgr o'))) o' -> all_finite g ->
  ~ psd n (shift (- lmi_tol n k M) (fpencil0 n k o (fcoords x))).
Proof.
  intros E Hp Fg C. destruct (lmi0_cut o' g ep E Hp Fg) as (_ & _ & _ & H4 & H). destruct PT as (_ & _ & Hx). specialize (H _ Hx C).
  replace (along k (fcoords g) (fcoords x) (fcoords x)) with 0 in H; [lra|].
  unfold along, dot. rewrite (Rsum_ext k _ (fun _ => 0 * 0)); [rewrite Rsum_scal; ring|]. intros i Hi. ring.
Qed.
End Z.
