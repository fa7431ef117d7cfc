(** The sign of kappa over single updates and whole runs (C91). *)
From Coq Require Import ZArith Reals Lra Lia Bool Psatz List Arith.
From Flocq Require Import Core IEEE754.BinarySingleNaN.
From Verif Require Import Num Res Arr CuttingPlane EllCalc Ell EllRun EllMore RunProofs FloatLemmas FloatSign KappaSpec KappaSign.
Local Open Scope R_scope.

Lemma core_kappa {N : Num} (e : Ell N) g strategy e' st : ell_update_core e g strategy = Ok (e', st) ->
  exists r s d, strategy (e_tsq e') = (st, (r, s, d)) /\ e_helper e' = e_helper e /\
    ((st <> Success /\ e_kappa e' = e_kappa e) \/ e_kappa e' = n1 \/ e_kappa e' = nmul (e_kappa e) d).
Proof.
  intros E. unfold ell_update_core in E. apply bind_inv in E as (gt & _ & E). apply bind_inv in E as (om & _ & E). cbn [e_no_defer e_mq e_xc e_kappa e_helper e_tsq] in E.
  destruct (strategy (nmul (e_kappa e) om)) as [s0 [[r s] d]] eqn:Es. destruct (negb (is_success s0)) eqn:Eb.
  - inversion E; subst. exists r, s, d. cbn. split; [exact Es|]. split; [reflexivity|]. left. split; auto. intros ->. discriminate Eb.
  - apply bind_inv in E as (xc & _ & E). apply bind_inv in E as (dd & _ & E). destruct (e_no_defer e); inversion E; subst; exists r, s, d; cbn; auto.
Qed.

Section K.
Variable lm : Libm.
Notation F := (FNum lm).

Lemma ratio_clear (b t : f64) : fin b = true -> fin t = true -> 0 < val t -> Rabs (val b) <= val t ->
  clear (fsub (fofZ 1) (fmul (fdiv b t) (fdiv b t))).
Proof.
  intros Fb Ft Ht Hb. destruct one_val as (O1 & O2 & O3).
  assert (Q : Rabs (val b / val t) <= 1).
  { unfold Rdiv. rewrite Rabs_mult, Rabs_inv. rewrite (Rabs_pos_eq (val t)) by lra. apply Rmult_le_reg_r with (1 := Ht). rewrite Rmult_assoc, Rinv_l by lra. lra. }
  assert (QR : Rabs (rnd (val b / val t)) <= 1).
  { apply Rabs_le. apply Rabs_le_inv in Q. pose proof (rnd_int 1 ltac:(lia)) as R1. pose proof (rnd_int (-1) ltac:(lia)) as R2.
    pose proof (rnd_le (val b / val t) 1 (proj2 Q)). pose proof (rnd_le (-1) (val b / val t) (proj1 Q)). lra. }
  destruct (fdiv_fin b t Fb) as [VA FA]; [lra|apply Rle_lt_trans with (1 := QR); change 1 with (bpow radix2 0); apply bpow_lt; reflexivity|].
  set (al := fdiv b t) in *. rewrite <- VA in QR. apply Rabs_le_inv in QR.
  assert (QB : 0 <= val al * val al <= 1) by nra.
  destruct (fmul_fin al al FA FA) as [VB FB]; [apply (lt_max _ 0); [lia|exact QB]|].
  apply sub_plus; auto. rewrite VB, O1. rewrite <- (rnd_int 1) by lia. apply rnd_le, QB.
Qed.
Lemma sqrt_kind (t : f64) : (is_nan (fsqrt t) = true) \/ (exists s, fsqrt t = B754_zero s) \/ (fsqrt t = B754_infinity false) \/ (fin (fsqrt t) = true /\ 0 < val (fsqrt t)).
Proof.
  destruct t as [s|s| |s m e Hb].
  - right. left. exists s. reflexivity.
  - destruct s; [left; reflexivity|right; right; left; reflexivity].
  - left. reflexivity.
  - destruct s; [left; reflexivity|].
    generalize (Bsqrt_correct fprec femax fprec_gt_0 fprec_lt_emax mode_NE (B754_finite false m e Hb)). change (Bsqrt mode_NE ?x) with (fsqrt x). intros (_ & Ff & Hs).
    change (fin (fsqrt (B754_finite false m e Hb)) = true) in Ff. destruct (fsqrt (B754_finite false m e Hb)) as [s|s| |s m' e' Hb'] eqn:E; try discriminate Ff.
    + right. left. exists s. reflexivity.
    + right. right. right. split; [reflexivity|]. specialize (Hs eq_refl). cbn in Hs. subst. cbn. apply F2R_gt_0. reflexivity.
Qed.
Lemma sum_sign (x y : f64) : fin x = true -> fin y = true -> Bltb (fadd x y) (fofZ 0) = false -> 0 <= val x + val y.
Proof.
  intros Fx Fy H. apply Rnot_lt_le. intros L.
  generalize (Bplus_correct fprec femax fprec_gt_0 fprec_lt_emax mode_NE x y Fx Fy). change (Bplus mode_NE x y) with (fadd x y). case Rlt_bool_spec; intros Hb K.
  - destruct K as (V & Ff & _). assert (Fz : fin (fofZ 0) = true) by reflexivity. rewrite (fltb_fin _ _ Ff Fz) in H.
    destruct (Rlt_bool_spec (val (fadd x y)) (val (fofZ 0))) as [?|G]; [discriminate|]. change (val (fofZ 0)) with 0 in G. rewrite V in G. change (0 <= rnd (val x + val y)) in G.
    destruct (pow2_below (- (val x + val y))) as (p & Hp & P1 & _); [lra| |].
    { exists (- val x), (val y). split; [apply generic_format_opp, val_generic|]. split; [apply val_generic|lra]. }
    assert (rnd (val x + val y) <= - bpow radix2 p).
    { rewrite <- (rnd_generic (- bpow radix2 p)) by (apply generic_format_opp, bpow_generic; exact Hp). apply rnd_le. lra. }
    pose proof (bpow_gt_0 radix2 p). lra.
  - destruct K as (V & Es). assert (S : Bsign (fadd x y) = Bsign x) by (apply overflow_sign in V; exact V).
    assert (Sx : Bsign x = true).
    { destruct (Bsign x) eqn:B; auto. pose proof (plus_val x B). symmetry in Es. pose proof (plus_val y Es). lra. }
    rewrite Sx in V. destruct (fadd x y) as [s|s| |s m e Hb']; try discriminate V. destruct s; [discriminate H|discriminate V].
Qed.
Lemma alpha_q_clear (nf b t : f64) : fin nf = true -> 1 <= val nf ->
  Bltb (fsqrt t) b = false -> Bltb (fadd (fsqrt t) (fmul nf b)) (fofZ 0) = false ->
  clear (fsub (fofZ 1) (fmul (fdiv b (fsqrt t)) (fdiv b (fsqrt t)))).
Proof.
  intros Fn Vn H1 H2. destruct one_val as (O1 & O2 & O3).
  assert (Pn : clear nf) by (apply val_plus; lra).
  destruct (is_nan b) eqn:Nb; [apply nan_of_nan in Nb; subst; destruct (fsqrt t); reflexivity|].
  destruct (sqrt_kind t) as [Hk|[[s Hk]|[Hk|[Fk Vk]]]].
  - apply nan_of_nan in Hk. rewrite Hk. destruct b; reflexivity.
  - rewrite Hk in *. destruct b as [s'|s'| |s' m e Hb]; try discriminate Nb; try reflexivity.
    + destruct s'; [|destruct s; discriminate H1]. exfalso. destruct nf as [sn|sn| |sn mn en Hn]; try discriminate Fn; [cbn in Vn; lra|].
      unfold clear in Pn. cbn in Pn. subst. destruct s; discriminate H2.
    + destruct s'; [|destruct s; discriminate H1]. exfalso.
      set (bb := B754_finite true m e Hb : f64) in *.
      assert (Vb : val bb < 0) by (cbn; apply F2R_lt_0; reflexivity).
      generalize (Bmult_correct fprec femax fprec_gt_0 fprec_lt_emax mode_NE nf bb). change (Bmult mode_NE nf bb) with (fmul nf bb). case Rlt_bool; intros K.
      * destruct K as (V & Ff & _). change (fin bb) with true in Ff. rewrite Fn in Ff. cbn in Ff.
        pose proof (sum_sign (B754_zero s) (fmul nf bb) eq_refl Ff H2) as S. change (val (B754_zero s)) with 0 in S. rewrite V in S.
        change (0 <= 0 + rnd (val nf * val bb)) in S. assert (rnd (val nf * val bb) <= val bb) by (rewrite <- (rnd_val bb) at 2; apply rnd_le; nra). lra.
      * assert (Sg : Bsign (fmul nf bb) = true) by (apply overflow_sign in K; rewrite K, Pn; reflexivity).
        destruct (fmul nf bb) as [s'|s'| |s' m' e' Hb']; try discriminate K. cbn in Sg. subst. destruct s; discriminate H2.
  - rewrite Hk in *. destruct b as [s'|s'| |s' m e Hb]; try discriminate Nb; try reflexivity; (apply sub_plus; [exact O3|exact O2|destruct s'; reflexivity|rewrite O1; destruct s'; cbn; lra]).
  - assert (Fb : fin b = true).
    { destruct b as [s'|s'| |s' m e Hb]; auto; try discriminate Nb. exfalso. destruct s'.
      - destruct nf as [sn|sn| |sn mn en Hn]; try discriminate Fn; [cbn in Vn; lra|]. unfold clear in Pn. cbn in Pn. subst. destruct (fsqrt t) as [s'|s'| |s' m e Hb]; try discriminate Fk; discriminate H2.
      - destruct (fsqrt t) as [s'|s'| |s' m e Hb]; try discriminate Fk; discriminate H1. }
    rewrite (fltb_fin _ _ Fk Fb) in H1. destruct (Rlt_bool_spec (val (fsqrt t)) (val b)) as [?|L]; [discriminate|].
    apply ratio_clear; auto. apply Rabs_le. split; [|exact L].
    destruct (Rle_lt_dec 0 (val b)) as [P|Pneg]; [lra|].
    generalize (Bmult_correct fprec femax fprec_gt_0 fprec_lt_emax mode_NE nf b). change (Bmult mode_NE nf b) with (fmul nf b). case Rlt_bool; intros K.
    + destruct K as (V & Ff & _). rewrite Fn, Fb in Ff. cbn in Ff.
      pose proof (sum_sign _ (fmul nf b) Fk Ff H2) as S. rewrite V in S. change (0 <= val (fsqrt t) + rnd (val nf * val b)) in S.
      assert (rnd (val nf * val b) <= val b) by (rewrite <- (rnd_val b) at 2; apply rnd_le; nra). lra.
    + exfalso. assert (Sb : Bsign b = true) by (destruct (Bsign b) eqn:B; auto; pose proof (plus_val b B); lra).
      assert (Sg : Bsign (fmul nf b) = true) by (apply overflow_sign in K; rewrite K, Pn, Sb; reflexivity).
      destruct (fmul nf b) as [s'|s'| |s' m' e' Hb']; try discriminate K. cbn in Sg. subst. destruct (fsqrt t) as [s'|s'| |s' m e Hb]; try discriminate Fk; discriminate H2.
Qed.

#[local] Opaque fadd fsub fmul fdiv fsqrt fofZ.
Lemma bias_q_clear n (h : EllCalc F) (b t : F) st rho sigma delta : (2 <= n)%nat -> (Z.of_nat n <= 2 ^ 53)%Z -> calc_of n h ->
  calc_bias_cut_q h b t = (st, (rho, sigma, delta)) -> clear (delta : f64).
Proof.
  intros Hn Hz [fl ->] E. pose proof (core_good lm n Hn Hz) as G. destruct one_val as (_ & _ & O3). destruct (int_plus lm n Hz) as (Vn & Fn & Pn).
  unfold calc_bias_cut_q in E. cbn [ec_n_f ec_helper] in E. set (core := core_new (N := F) (nN n)) in *. cbv zeta in E.
  destruct (nltb (n := F) (nsqrt t) b) eqn:B1; [inversion E; subst; reflexivity|].
  destruct (nltb (n := F) (nadd (nsqrt t) (nmul (nN n) b)) (n0 (N := F))) eqn:B2; [inversion E; subst; exact O3|].
  unfold core_bias_cut_fast in E. inversion E; subst. apply mul_plus; [apply (g_cst1 _ _ G)|].
  apply (alpha_q_clear (nN (N := F) n) b t Fn); auto. rewrite Vn. apply (le_INR 2) in Hn. cbn in Hn. lra.
Qed.

(** ** one update *)
Lemma single_kappa n md (e : Ell F) g c (e' : Ell F) st : (2 <= n)%nat -> (Z.of_nat n <= 2 ^ 53)%Z -> calc_of n (e_helper e) -> clear (e_kappa e : f64) ->
  (md = Bias -> clear_single c /\ not_tiny (e_tsq e' : f64)) -> apply_cut single_cut md e (g, c) = Ok (e', st) -> clear (e_kappa e' : f64) /\ e_helper e' = e_helper e.
Proof.
  intros Hn Hz Hh Hk Hmd E. rewrite apply_cut_core in E. apply core_kappa in E as (r & s & d & Es & EH & Ek). split; [|exact EH].
  destruct Ek as [[_ ->]|[-> | ->]]; [exact Hk|reflexivity|]. apply mul_plus; [exact Hk|].
  pose proof (core_good lm n Hn Hz) as G. destruct md; cbn in Es.
  - destruct (Hmd eq_refl) as [H1 H2]. destruct Hh as [fl Hh]. rewrite Hh in Es.
    apply (bias_clear lm (mkCalc (nN (N := F) n) (core_new (N := F) (nN n)) fl) (sc_beta c) (e_tsq e') st _ G H1 H2 Es).
  - destruct Hh as [fl Hh]. rewrite Hh in Es. apply (central_clear lm (mkCalc (nN (N := F) n) (core_new (N := F) (nN n)) fl) (e_tsq e') st (r, s, d) G Es).
  - exact (bias_q_clear n _ _ _ _ _ _ _ Hn Hz Hh Es).
Qed.
Lemma parallel_kappa n md (e : Ell F) g c (e' : Ell F) st : (2 <= n)%nat -> (Z.of_nat n <= 2 ^ 53)%Z -> calc_of n (e_helper e) -> clear (e_kappa e : f64) ->
  md <> Quantised -> (md = Bias -> clear_parallel c /\ not_tiny (e_tsq e' : f64)) -> apply_cut parallel_cut md e (g, c) = Ok (e', st) -> clear (e_kappa e' : f64) /\ e_helper e' = e_helper e.
Proof.
  intros Hn Hz Hh Hk Hq Hmd E. rewrite apply_cut_core in E. apply core_kappa in E as (r & s & d & Es & EH & Ek). split; [|exact EH].
  destruct Ek as [[_ ->]|[-> | ->]]; [exact Hk|reflexivity|]. apply mul_plus; [exact Hk|].
  pose proof (core_good lm n Hn Hz) as G. destruct Hh as [fl Hh]. set (h := mkCalc (nN (N := F) n) (core_new (N := F) (nN n)) fl) in *.
  destruct md; cbn in Es; [| |congruence]; rewrite Hh in Es.
  - destruct (Hmd eq_refl) as [[C0 C1] Ht]. unfold calc_single_or_parallel_bias_cut in Es. destruct (pc_beta1 c) as [b1|].
    + apply (parallel_bias_clear lm h (pc_beta0 c) b1 (e_tsq e') st _ G C0 C1 Ht Es).
    + apply (bias_clear lm h (pc_beta0 c) (e_tsq e') st _ G C0 Ht Es).
  - unfold calc_single_or_parallel_central_cut in Es. destruct (pc_beta1 c) as [b1|].
    + apply (parallel_central_clear lm h b1 (e_tsq e') st (r, s, d) G Es).
    + apply (central_clear lm h (e_tsq e') st (r, s, d) G Es).
Qed.

(** ** whole runs *)
Lemma tol_not_tiny (t tol : f64) : fin tol = true -> bpow radix2 (-1000) <= val tol -> Bltb t tol = false -> not_tiny t.
Proof.
  intros Ft Vt H Ff. rewrite (fltb_fin t tol Ff Ft) in H. destruct (Rlt_bool_spec (val t) (val tol)) as [?|L]; [discriminate|]. right. lra.
Qed.
Section Runs.
Context {C O : Type} (ct : CutType F C) (P : C -> Prop) (n : nat).
Hypothesis Hstep : forall md (e : Ell F) g c (e' : Ell F) st, md <> Quantised -> calc_of n (e_helper e) -> clear (e_kappa e : f64) -> (md = Bias -> P c /\ not_tiny (e_tsq e' : f64)) ->
  apply_cut ct md e (g, c) = Ok (e', st) -> clear (e_kappa e' : f64) /\ e_helper e' = e_helper e.

Lemma feas_kappa (ora : OracleFeas F (Arr F) C O) (opt : Options F) o (e : Ell F) (I : O -> Prop) o' e' ans k : feas_only I P ora -> I o ->
  fin (tolerance opt : f64) = true -> bpow radix2 (-1000) <= val (tolerance opt : f64) -> calc_of n (e_helper e) -> clear (e_kappa e : f64) ->
  cutting_plane_feas ora (ell_space (N := F) ct) opt o e = Ok (o', e', (ans, k)) ->
  clear (e_kappa e' : f64) \/ Bltb (e_tsq e' : f64) (tolerance opt) = true.
Proof.
  intros Hp Hi Ft Vt Hh Hk E. unfold cutting_plane_feas in E. apply bind_inv in E as (c & E & Ek).
  unfold loop_range in E. match type of E with loop_up ?k ?lo ?body ?st = _ =>
    pose proof (loop_part (fun _ '((o, s) : O * Ell F) => I o /\ calc_of n (e_helper s) /\ clear (e_kappa s : f64))
      (fun '((_, s, _) : O * Ell F * (option (Arr F) * nat)) => clear (e_kappa s : f64) \/ Bltb (e_tsq s : f64) (tolerance opt) = true) body k lo st) as L end.
  rewrite E in L. specialize (L (conj Hi (conj Hh Hk))).
  match type of L with ?A -> ?B -> _ => assert (A1 : A); [|specialize (L A1); assert (B1 : B)] end.
  - intros i [o1 s1] [o2 s2] _ (HI & HH & HK) EB. apply bind_inv in EB as ([o3 an] & Ea & EB).
    destruct an as [[g c0]|]; [|discriminate]. apply bind_inv in EB as ([s3 st] & Eu & EB).
    destruct (negb (is_success st) || _) eqn:B; [discriminate|]. inversion EB; subst o3 s3. clear EB. apply orb_false_iff in B as [_ B].
    destruct (Hstep Bias s1 g c0 s2 st ltac:(discriminate) HH HK (fun _ => conj (proj2 (Hp _ _ _ _ HI Ea)) (tol_not_tiny _ _ Ft Vt B)) Eu) as [K1 K2]. rewrite K2. split; [exact (proj1 (Hp _ _ _ _ HI Ea))|auto].
  - intros i [o1 s1] [[o2 s2] [an kk]] _ (HI & HH & HK) EB. apply bind_inv in EB as ([o3 an'] & Ea & EB).
    destruct an' as [[g c0]|]; [|inversion EB; subst; auto]. apply bind_inv in EB as ([s3 st] & Eu & EB).
    destruct (negb (is_success st) || _) eqn:B; [|discriminate]. inversion EB; subst. clear EB.
    destruct (Bltb (e_tsq s2 : f64) (tolerance opt)) eqn:B2; [right; reflexivity|left].
    apply (Hstep Bias s1 g c0 s2 st ltac:(discriminate) HH HK (fun _ => conj (proj2 (Hp _ _ _ _ HI Ea)) (tol_not_tiny _ _ Ft Vt B2)) Eu).
  - specialize (L B1). destruct c as [[o1 s1]|[[o1 s1] [an kk]]]; inversion Ek; subst; [left; apply L|exact L].
Qed.
Lemma optim_kappa (ora : OracleOptim F (Arr F) C O) (opt : Options F) o (e : Ell F) (gamma : F) (I : O -> F -> Prop) o' e' gamma' ans k : optim_only I P ora -> I o gamma ->
  fin (tolerance opt : f64) = true -> bpow radix2 (-1000) <= val (tolerance opt : f64) -> calc_of n (e_helper e) -> clear (e_kappa e : f64) ->
  cutting_plane_optim ora (ell_space (N := F) ct) opt o e gamma = Ok (o', e', gamma', (ans, k)) ->
  clear (e_kappa e' : f64) \/ Bltb (e_tsq e' : f64) (tolerance opt) = true.
Proof.
  intros Hp Hi Ft Vt Hh Hk E. unfold cutting_plane_optim in E. apply bind_inv in E as (c & E & Ek).
  unfold loop_range in E. match type of E with loop_up ?k ?lo ?body ?st = _ =>
    pose proof (loop_part (fun _ '((o, s, ga, _) : O * Ell F * num F * option (Arr F)) => I o ga /\ calc_of n (e_helper s) /\ clear (e_kappa s : f64))
      (fun '((_, s, _, _) : O * Ell F * num F * (option (Arr F) * nat)) => clear (e_kappa s : f64) \/ Bltb (e_tsq s : f64) (tolerance opt) = true) body k lo st) as L end.
  rewrite E in L. specialize (L (conj Hi (conj Hh Hk))).
  assert (D : forall (sh : bool) s (xb : option (Arr F)) cut xb2 s2 st,
    (if sh then (let x_best := Some (sp_xc (ell_space (N := F) ct) s) in
                 r <- sp_update_central_cut (ell_space (N := F) ct) s cut ;; Ok (x_best, r))
            else r <- sp_update_bias_cut (ell_space (N := F) ct) s cut ;; Ok (xb, r)) = Ok (xb2, (s2, st)) ->
    apply_cut (N := F) ct (if sh then Central else Bias) s cut = Ok (s2, st)).
  { intros sh s xb cut xb2 s2 st E0. destruct sh; cbv zeta in E0; apply bind_inv in E0 as (r & E0 & E'); inversion E'; subst; exact E0. }
  assert (HB : forall sh : bool, (if sh then Central else Bias) = Bias -> sh = false) by (intros []; [discriminate|reflexivity]).
  assert (HQ : forall sh : bool, (if sh then Central else Bias) <> Quantised) by (intros []; discriminate).
  match type of L with ?A -> ?B -> _ => assert (A1 : A); [|specialize (L A1); assert (B1 : B)] end.
  - intros i [[[o1 s1] ga1] xb1] [[[o2 s2] ga2] xb2] _ (HI & HH & HK) EB. apply bind_inv in EB as ([[o3 ga3] [[g c0] sh]] & Ea & EB).
    apply bind_inv in EB as ([xb3 [s3 st]] & Eu & EB). apply D in Eu.
    destruct (negb (is_success st) || _) eqn:B; [discriminate|]. inversion EB; subst o3 s3 ga3 xb3. clear EB. apply orb_false_iff in B as [_ B].
    destruct (Hstep _ s1 g c0 s2 st (HQ sh) HH HK (fun Em => conj (proj2 (Hp _ _ _ _ _ _ _ _ HI Ea) (HB sh Em)) (tol_not_tiny _ _ Ft Vt B)) Eu) as [K1 K2]. rewrite K2. split; [exact (proj1 (Hp _ _ _ _ _ _ _ _ HI Ea))|auto].
  - intros i [[[o1 s1] ga1] xb1] [[[o2 s2] ga2] [xb2 kk]] _ (HI & HH & HK) EB. apply bind_inv in EB as ([[o3 ga3] [[g c0] sh]] & Ea & EB).
    apply bind_inv in EB as ([xb3 [s3 st]] & Eu & EB). apply D in Eu.
    destruct (negb (is_success st) || _) eqn:B; [|discriminate]. inversion EB; subst. clear EB.
    destruct (Bltb (e_tsq s2 : f64) (tolerance opt)) eqn:B2; [right; reflexivity|left].
    apply (Hstep _ s1 g c0 s2 st (HQ sh) HH HK (fun Em => conj (proj2 (Hp _ _ _ _ _ _ _ _ HI Ea) (HB sh Em)) (tol_not_tiny _ _ Ft Vt B2)) Eu).
  - specialize (L B1). destruct c as [[[[o1 s1] ga1] xb1]|[[[o1 s1] ga1] [an kk]]]; inversion Ek; subst; [left; apply L|exact L].
Qed.
End Runs.
(** the discrete driver: any single cuts at all *)
Lemma optim_q_kappa {O} n (ora : OracleOptimQ F (Arr F) (SingleCut F) O) (opt : Options F) o (e : Ell F) (gamma : F) o' e' gamma' ans k : (2 <= n)%nat -> (Z.of_nat n <= 2 ^ 53)%Z ->
  calc_of n (e_helper e) -> clear (e_kappa e : f64) ->
  cutting_plane_optim_q ora (ell_space (N := F) single_cut) opt o e gamma = Ok (o', e', gamma', (ans, k)) -> clear (e_kappa e' : f64).
Proof.
  intros Hn Hz Hh Hk E. unfold cutting_plane_optim_q in E. apply bind_inv in E as (c & E & Ek).
  unfold loop_range in E. match type of E with loop_up ?k ?lo ?body ?st = _ =>
    pose proof (loop_part (fun _ '((o, s, _, _, _) : O * Ell F * num F * option (Arr F) * bool) => calc_of n (e_helper s) /\ clear (e_kappa s : f64))
      (fun '((_, s, _, _) : O * Ell F * num F * (option (Arr F) * nat)) => clear (e_kappa s : f64)) body k lo st) as L end.
  rewrite E in L. specialize (L (conj Hh Hk)).
  assert (U : forall s g c s2 st, calc_of n (e_helper s) -> clear (e_kappa s : f64) -> sp_update_q (ell_space (N := F) single_cut) s (g, c) = Ok (s2, st) -> calc_of n (e_helper s2) /\ clear (e_kappa s2 : f64)).
  { intros s g c0 s2 st HH HK Eu. destruct (single_kappa n Quantised s g c0 s2 st Hn Hz HH HK ltac:(discriminate) Eu) as [K1 K2]. rewrite K2. auto. }
  match type of L with ?A -> ?B -> _ => assert (A1 : A); [|specialize (L A1); assert (B1 : B)] end.
  - intros i [[[[o1 s1] ga1] xb1] re1] [[[[o2 s2] ga2] xb2] re2] _ (HH & HK) EB. apply bind_inv in EB as ([[o3 ga3] [[[[g c0] sh] xq] more]] & Ea & EB).
    destruct (if sh then (Some xq, false) else (xb1, re1)) as [xb3 re3]. apply bind_inv in EB as ([s3 st] & Eu & EB). destruct (U _ _ _ _ _ HH HK Eu) as [U1 U2].
    destruct st; [|discriminate|destruct (negb more); [discriminate|]|]; cbn in EB; match type of EB with (if ?b then _ else _) = _ => destruct b end; try discriminate; inversion EB; subst; auto.
  - intros i [[[[o1 s1] ga1] xb1] re1] [[[o2 s2] ga2] [xb2 kk]] _ (HH & HK) EB. apply bind_inv in EB as ([[o3 ga3] [[[[g c0] sh] xq] more]] & Ea & EB).
    destruct (if sh then (Some xq, false) else (xb1, re1)) as [xb3 re3]. apply bind_inv in EB as ([s3 st] & Eu & EB). destruct (U _ _ _ _ _ HH HK Eu) as [U1 U2].
    destruct st; [|inversion EB; subst; auto|destruct (negb more); [inversion EB; subst; auto|]|]; cbn in EB; match type of EB with (if ?b then _ else _) = _ => destruct b end; try discriminate; inversion EB; subst; auto.
  - specialize (L B1). destruct c as [[[[[o1 s1] ga1] xb1] re1]|[[[o1 s1] ga1] [an kk]]]; inversion Ek; subst; [apply L|exact L].
Qed.
End K.
