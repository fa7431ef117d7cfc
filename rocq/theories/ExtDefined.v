(** No division by zero, no square root of a negative number (C19). *)
From Coq Require Import Reals List Arith Lia Lra Psatz Bool ZArith.
From Flocq Require Import Core.Raux.
From Verif Require Import Num Res Arr CuttingPlane EllCalc Ell EllRun ArrLemmas EllLemmas Spec RealLin CutScalar EllSpec EllReal EllCuts EllMore ExtSpec.
Import ListNotations.
Open Scope R_scope.

Lemma ext_div_fin a b : b <> 0 -> ext_div (Fin a) (Fin b) = Fin (a / b).
Proof. intros H. simpl. now rewrite Req_bool_false. Qed.
Lemma ext_sqrt_fin a : 0 <= a -> nsqrt (n := ENum) (Fin a) = Fin (sqrt a).
Proof. intros H. simpl. now rewrite Rlt_bool_false. Qed.
Lemma ext_sub_fin a b : ext_sub (Fin a) (Fin b) = Fin (a - b).
Proof. reflexivity. Qed.
Lemma nN_E n : nN (N := ENum) n = Fin (INR n).
Proof. unfold nN. simpl. now rewrite INR_IZR_INZ. Qed.

Section Calc.
Variable n : nat.
Hypothesis Hn : (2 <= n)%nat.
Notation m := (INR n).
Lemma Hm2 : 2 <= m. Proof. now apply INR_two. Qed.
Notation hR := (calc_new (N := RNum) n).
Notation hE := (calc_new (N := ENum) n).

Lemma calc_new_fin : hE = fin_calc hR.
Proof.
  pose proof Hm2 as Hm. unfold calc_new. rewrite nN_E, nN_INR. unfold fin_calc, fin_core, core_new. cbn [ec_n_f ec_helper ec_use_parallel_cut c_n_f c_n_plus_1 c_half_n c_inv_n c_cst1 c_cst2].
  unfold n1, n2. cbn [nZ nadd nsub nmul ndiv ENum RNum].
  cbn [ext_mul ext_add]. rewrite ext_sub_fin.
  rewrite !ext_div_fin by nra. reflexivity.
Qed.

Lemma fin_bias_fast b tau eta : 0 < tau -> tau + b <> 0 ->
  core_bias_cut_fast (N := ENum) (ec_helper hE) (Fin b) (Fin tau) (Fin eta) =
  fin3 (core_bias_cut_fast (N := RNum) (ec_helper hR) b tau eta).
Proof.
  intros Ht Hb. pose proof Hm2 as Hm. rewrite calc_new_fin. unfold core_bias_cut_fast, fin_calc, fin_core, calc_new, core_new. rewrite nN_INR.
  cbn [ec_helper c_n_plus_1 c_cst1 c_n_f]. unfold n1, n2. cbn [nZ nadd nsub nmul ndiv ENum RNum].
  repeat first [rewrite ext_div_fin by lra | rewrite ext_sub_fin | progress cbn [ext_add ext_mul]]. reflexivity.
Qed.

Lemma fin_par_fast b0 b1 t eta : 0 < t ->
  t + b0 * b1 + m / 2 * ((b0 + b1) * (b0 + b1)) + sqrt ((t - b0 * b0) * (t - b1 * b1) + (m / 2 * (b1 * b1 - b0 * b0)) * (m / 2 * (b1 * b1 - b0 * b0))) <> 0 ->
  core_parallel_bias_cut_fast (N := ENum) (ec_helper hE) (Fin b0) (Fin b1) (Fin t) (Fin (b0 * b1)) (Fin eta) =
  fin3 (core_parallel_bias_cut_fast (N := RNum) (ec_helper hR) b0 b1 t (b0 * b1) eta).
Proof.
  intros Ht Hd. pose proof Hm2 as Hm. rewrite calc_new_fin. unfold core_parallel_bias_cut_fast, fin_calc, fin_core, calc_new, core_new. rewrite nN_INR.
  cbn [ec_helper c_half_n c_cst1 c_n_f]. unfold n1, n2. cbn [nZ nadd nsub nmul ndiv ENum RNum].
  cbn [ext_add ext_mul]. rewrite ?ext_sub_fin. cbn [ext_add ext_mul]. rewrite ext_sqrt_fin by (apply par_radicand; lra).
  cbn [ext_add ext_mul]. rewrite !ext_div_fin by (try exact Hd; lra). cbn [ext_mul ext_add]. rewrite !ext_div_fin by lra. reflexivity.
Qed.

Lemma fin_parc b1 t : 0 < t -> b1 * b1 < t ->
  core_parallel_central_cut (N := ENum) (ec_helper hE) (Fin b1) (Fin t) =
  fin3 (core_parallel_central_cut (N := RNum) (ec_helper hR) b1 t).
Proof.
  intros Ht Hb. pose proof Hm2 as Hm. rewrite calc_new_fin. unfold core_parallel_central_cut, fin_calc, fin_core, calc_new, core_new. rewrite nN_INR.
  cbn [ec_helper c_half_n c_inv_n]. unfold n1, n2. cbn [nZ nadd nsub nmul ndiv ENum RNum]. cbn [ext_mul].
  rewrite ext_div_fin by lra. set (a := b1 * b1 / t).
  assert (Ha : a * t = b1 * b1) by (unfold a; field; lra).
  assert (Ha0 : 0 <= a) by (apply Rmult_le_pos; [nra|left; now apply Rinv_0_lt_compat]).
  assert (Ha1 : a < 1) by (apply Rmult_lt_reg_r with t; lra).
  cbn [ext_mul]. rewrite ext_sub_fin. cbn [ext_add]. set (k := m / 2 * a).
  assert (Hr : 0 <= 1 - a + k * k) by nra.
  rewrite ext_sqrt_fin by exact Hr. cbn [ext_add]. change (nsqrt (n := RNum) (1 - a + k * k)) with (sqrt (1 - a + k * k)).
  assert (Esq : sqrt (1 - a + k * k) * sqrt (1 - a + k * k) = 1 - a + k * k) by now apply sqrt_sqrt.
  pose proof (sqrt_pos (1 - a + k * k)) as Hsq. set (sq := sqrt _) in *.
  assert (Hk : 0 <= k) by (unfold k; nra).
  assert (Hroot1 : 1 <= k + sq).
  { assert (1 - k <= sq); [|lra]. destruct (Rle_dec (1 - k) 0); [lra|].
    assert (a <= 2 * k) by (unfold k; nra). nra. }
  assert (H1m : 1 / m <= / 2). { unfold Rdiv. rewrite Rmult_1_l. apply Rinv_le_contravar; lra. }
  rewrite ext_sub_fin. rewrite !ext_div_fin by lra. reflexivity.
Qed.


Lemma fin_eta b tau : nadd (n := ENum) (Fin tau) (nmul (ec_n_f hE) (Fin b)) = Fin (nadd (n := RNum) tau (nmul (ec_n_f hR) b)).
Proof. rewrite calc_new_fin. reflexivity. Qed.
Lemma fin_eta' b tau : nadd (n := ENum) (Fin tau) (nmul (c_n_f (ec_helper hE)) (Fin b)) = Fin (nadd (n := RNum) tau (nmul (c_n_f (ec_helper hR)) b)).
Proof. rewrite calc_new_fin. reflexivity. Qed.

Lemma fin_bias b t : 0 < t -> b <> - sqrt t ->
  calc_bias_cut (N := ENum) hE (Fin b) (Fin t) = fin_res (calc_bias_cut (N := RNum) hR b t).
Proof.
  intros Ht Hb. pose proof (sqrt_lt_R0 _ Ht) as Hs. unfold calc_bias_cut.
  cbn [nltb nmul ENum RNum ext_mul ext_ltb].
  destruct (Rlt_bool t (b * b)); [reflexivity|]. rewrite ext_sqrt_fin by lra. cbv zeta. unfold core_bias_cut. cbv zeta.
  rewrite fin_eta', fin_bias_fast by lra. reflexivity.
Qed.
Lemma fin_bias_q b t : 0 < t -> calc_bias_cut_q (N := ENum) hE (Fin b) (Fin t) = fin_res (calc_bias_cut_q (N := RNum) hR b t).
Proof.
  intros Ht. pose proof (sqrt_lt_R0 _ Ht) as Hs. pose proof Hm2 as Hm. unfold calc_bias_cut_q. rewrite ext_sqrt_fin by lra. cbv zeta.
  change (nsqrt (n := RNum) t) with (sqrt t).
  change (nltb (n := ENum) (Fin (sqrt t)) (Fin b)) with (Rlt_bool (sqrt t) b).
  change (nltb (n := RNum) (sqrt t) b) with (Rlt_bool (sqrt t) b).
  destruct (Rlt_bool _ _); [reflexivity|]. rewrite fin_eta.
  change (@n0 ENum) with (Fin 0). change (@n0 RNum) with 0.
  match goal with |- context [nltb (Fin ?x) (Fin 0)] => change (nltb (n := ENum) (Fin x) (Fin 0)) with (nltb (n := RNum) x 0) end.
  destruct (nltb (n := RNum) _ 0) eqn:B; [reflexivity|].
  cbn [nltb RNum nadd nmul] in B. apply Rlt_bool_no in B. cbn [calc_new ec_n_f] in B. rewrite nN_INR in B.
  rewrite fin_bias_fast; [reflexivity|lra|].
  pose proof (deep_sum_pos m (sqrt t) b ltac:(lra) Hs B). lra.
Qed.
Lemma fin_central t : 0 < t -> calc_central_cut (N := ENum) hE (Fin t) = fin_res (calc_central_cut (N := RNum) hR t).
Proof.
  intros Ht. pose proof Hm2 as Hm. unfold calc_central_cut. rewrite calc_new_fin. unfold core_central_cut, fin_calc, fin_core.
  cbn [ec_helper c_cst2 c_n_plus_1 c_cst1]. rewrite ext_sqrt_fin by lra.
  change (ndiv (n := ENum)) with ext_div. rewrite ext_div_fin; [reflexivity|].
  unfold calc_new, core_new. cbn [ec_helper c_n_plus_1]. rewrite nN_INR. unfold n1. simpl. lra.
Qed.

Lemma par_ok b0 b1 t : 0 < t -> 0 <= t + m * (b0 * b1) ->
  core_parallel_bias_cut_fast (N := ENum) (ec_helper hE) (Fin b0) (Fin b1) (Fin t) (Fin (b0 * b1)) (Fin (t + m * (b0 * b1))) =
  fin3 (core_parallel_bias_cut_fast (N := RNum) (ec_helper hR) b0 b1 t (b0 * b1) (t + m * (b0 * b1))).
Proof.
  intros Ht He. pose proof Hm2 as Hm. apply fin_par_fast; auto. apply Rgt_not_eq. apply par_den_pos; auto. lra.
Qed.
Lemma fin_par_bias b0 b1 t : 0 < t -> (b0 <= b1 -> 0 <= t + m * (b0 * b1)) ->
  calc_parallel_bias_cut (N := ENum) hE (Fin b0) (Fin b1) (Fin t) = fin_res (calc_parallel_bias_cut (N := RNum) hR b0 b1 t).
Proof.
  intros Ht He. pose proof (sqrt_lt_R0 _ Ht) as Hs. pose proof Hm2 as Hm. unfold calc_parallel_bias_cut.
  change (@n0 ENum) with (Fin 0). change (@n0 RNum) with 0. change (ec_use_parallel_cut hE) with true. change (ec_use_parallel_cut hR) with true.
  cbn [nltb nleb nmul ENum RNum ext_ltb ext_leb ext_mul negb].
  destruct (Rlt_bool b1 b0) eqn:B1; [reflexivity|]. apply Rlt_bool_no in B1. specialize (He B1).
  destruct (Rlt_bool 0 b1 && Rle_bool t (b1 * b1)) eqn:B2; cbn [orb].
  - apply andb_true_iff in B2 as [B2 B3]. apply Rlt_bool_iff in B2. apply Rle_bool_iff in B3.
    apply fin_bias; auto. intros E.
    assert (Hss : sqrt t * sqrt t = t) by (apply sqrt_sqrt; lra).
    assert (Hb1 : sqrt t <= b1) by nra. rewrite E in He.
    assert (t <= sqrt t * b1) by (apply (Rmult_le_compat_l (sqrt t)) in Hb1; lra).
    assert (2 * t <= m * (sqrt t * b1)) by (apply Rmult_le_compat; lra).
    replace (m * (- sqrt t * b1)) with (- (m * (sqrt t * b1))) in He by ring. lra.
  - unfold core_parallel_bias_cut. change (nmul (n := ENum) (Fin b0) (Fin b1)) with (Fin (b0 * b1)). cbv zeta.
    rewrite fin_eta'. cbn [nadd nmul RNum].
    assert (En : t + c_n_f (ec_helper hR) * (b0 * b1) = t + m * (b0 * b1)) by (cbn [calc_new ec_helper core_new c_n_f]; now rewrite nN_INR).
    rewrite En, par_ok by auto. reflexivity.
Qed.
Lemma fin_par_q b0 b1 t : 0 < t ->
  calc_parallel_q (N := ENum) hE (Fin b0) (Fin b1) (Fin t) = fin_res (calc_parallel_q (N := RNum) hR b0 b1 t).
Proof.
  intros Ht. pose proof Hm2 as Hm. unfold calc_parallel_q.
  change (@n0 ENum) with (Fin 0). change (@n0 RNum) with 0. change (ec_use_parallel_cut hE) with true. change (ec_use_parallel_cut hR) with true.
  cbn [nltb nleb nmul ENum RNum ext_ltb ext_leb ext_mul negb].
  destruct (Rlt_bool b1 b0) eqn:B1; [reflexivity|].
  destruct (Rlt_bool 0 b1 && Rle_bool t (b1 * b1)) eqn:B2; cbn [orb].
  - now apply fin_bias_q.
  - cbv zeta. pose proof (fin_eta (b0 * b1) t) as Ee. cbn [nadd nmul RNum ENum] in Ee. cbn [nadd nmul RNum ENum]. rewrite Ee.
    cbn [ext_leb].
    assert (En : t + ec_n_f hR * (b0 * b1) = t + m * (b0 * b1)) by (cbn [calc_new ec_n_f]; now rewrite nN_INR).
    rewrite En. destruct (Rle_bool _ 0) eqn:B3; [reflexivity|]. apply Rle_bool_no in B3.
    rewrite par_ok by lra. reflexivity.
Qed.
Lemma fin_par_central b1 t : 0 < t ->
  calc_parallel_central_cut (N := ENum) hE (Fin b1) (Fin t) = fin_res (calc_parallel_central_cut (N := RNum) hR b1 t).
Proof.
  intros Ht. unfold calc_parallel_central_cut.
  change (@n0 ENum) with (Fin 0). change (@n0 RNum) with 0. change (ec_use_parallel_cut hE) with true. change (ec_use_parallel_cut hR) with true.
  cbn [nltb nleb nmul ENum RNum ext_ltb ext_leb ext_mul negb].
  destruct (Rlt_bool b1 0); [reflexivity|]. destruct (Rle_bool t (b1 * b1)) eqn:B; cbn [orb].
  - now apply fin_central.
  - apply Rle_bool_no in B. rewrite fin_parc by auto. reflexivity.
Qed.
End Calc.

(** ** The update *)
Lemma vget_fin (a : Arr RNum) i : vget (fin_arr a) i = Fin (vget a i).
Proof. unfold vget, fin_arr. cbn [adata]. change (@n0 ENum) with (Fin (@n0 RNum)). apply map_nth. Qed.
Lemma mget_fin n (a : Arr RNum) i j : mget n (adata (fin_arr a)) i j = Fin (mget n (adata a) i j).
Proof. unfold mget, fin_arr. cbn [adata]. change (@n0 ENum) with (Fin (@n0 RNum)). apply map_nth. Qed.
Lemma accum_fin f h n : (forall i, (i < n)%nat -> f i = Fin (h i)) ->
  accum (N := ENum) (Fin 0) f n = Fin (accum (N := RNum) 0 h n).
Proof.
  induction n; intros H; [reflexivity|]. cbn [accum]. rewrite IHn by auto. rewrite H by auto. reflexivity.
Qed.
Lemma gt_fin (e : Ell RNum) g n i : gt (fin_ell e) (fin_arr g) n i = Fin (gt e g n i).
Proof.
  unfold gt. change (@n0 ENum) with (Fin 0). change (@n0 RNum) with 0. apply accum_fin. intros j _.
  unfold fin_ell. cbn [e_mq]. rewrite mget_fin, vget_fin. reflexivity.
Qed.
Lemma omega_fin (e : Ell RNum) g n : omega (fin_ell e) (fin_arr g) n = Fin (omega e g n).
Proof.
  unfold omega. change (nsum0 (n := ENum)) with (Fin 0). change (nsum0 (n := RNum)) with 0. apply accum_fin. intros j _.
  rewrite gt_fin, vget_fin. reflexivity.
Qed.
Lemma fin_wf n e : ell_wf n e -> ell_wf n (fin_ell e).
Proof.
  intros (H1 & (H2 & H3 & H4) & H5). split; auto. split; [split; [|split]|]; cbn; auto; now rewrite map_length.
Qed.
Lemma fin_vec n g : is_vec n g -> is_vec n (fin_arr g).
Proof. intros [H1 H2]. split; cbn; auto. now rewrite map_length. Qed.
Lemma fin_arr_vec n (a : Arr RNum) (b : Arr ENum) : length (adata a) = n -> length (adata b) = n -> arows b = arows a -> acols b = acols a ->
  (forall i, (i < n)%nat -> vget b i = Fin (vget a i)) -> b = fin_arr a.
Proof.
  intros La Lb R C H. destruct b as [d r c]. cbn in *. subst r c. unfold fin_arr. f_equal.
  apply nth_ext with (Fin 0) (Fin 0); [rewrite map_length; congruence|]. intros i Hi. rewrite Lb in Hi.
  transitivity (Fin (vget a i)); [now apply H|]. symmetry. apply (map_nth Fin (adata a) 0).
Qed.
Lemma fin_arr_mat n (a : Arr RNum) (b : Arr ENum) : (0 < n)%nat -> is_mat n n a -> is_mat n n b ->
  (forall i j, (i < n)%nat -> (j < n)%nat -> mget n (adata b) i j = Fin (mget n (adata a) i j)) -> b = fin_arr a.
Proof.
  intros Hn (La & Ra & Ca) (Lb & Rb & Cb) H. apply fin_arr_vec with (n * n)%nat; auto; try congruence.
  intros k Hk. pose proof (H (k / n)%nat (k mod n)%nat) as E. unfold mget in E.
  rewrite (Nat.mul_comm (k / n)), <- Nat.div_mod in E by lia. apply E.
  - apply Nat.div_lt_upper_bound; lia.
  - apply Nat.mod_upper_bound; lia.
Qed.

Lemma core_fin n e g (sR : R -> cutres RNum) (sE : ext -> cutres ENum) :
  ell_wf n e -> is_vec n g -> sE (Fin (width2 n e g)) = fin_res (sR (width2 n e g)) ->
  quad n (shape n e) (coords g) <> 0 ->
  exists e' st, ell_update_core (N := RNum) e g sR = Ok (e', st) /\
    ell_update_core (N := ENum) (fin_ell e) (fin_arr g) sE = Ok (fin_ell e', st).
Proof.
  intros Hw Hg HE Hq.
  destruct (ell_update_core_ok (N := RNum) n e g sR Hw Hg)
    as (e1 & st & rho & sigma & delta & E1 & E2 & Hw1 & Ht & Hh & Hd & Rx & Cx & H1 & H2).
  destruct (ell_update_core_ok (N := ENum) n (fin_ell e) (fin_arr g) sE (fin_wf _ _ Hw) (fin_vec _ _ Hg))
    as (e2 & st2 & rho2 & sigma2 & delta2 & F1 & F2 & Hw2 & Gt & Gh & Gd & Sx & Dx & G1 & G2).
  exists e1, st. split; auto. rewrite omega_fin in *.
  assert (Et : nmul (n := ENum) (e_kappa (fin_ell e)) (Fin (omega e g n)) = Fin (width2 n e g))
    by (unfold width2; rewrite <- omega_eq; reflexivity).
  assert (Et' : nmul (n := RNum) (e_kappa e) (omega e g n) = width2 n e g)
    by (unfold width2; rewrite <- omega_eq; reflexivity).
  rewrite Et in *. rewrite Et' in *. rewrite HE, E1 in F1. inversion F1; subst st2 rho2 sigma2 delta2. clear F1.
  rewrite F2. apply f_equal. apply f_equal2; auto.
  assert (Hdec : st = Success \/ st <> Success) by (destruct st; auto; right; discriminate).
  destruct Hdec as [Hs|Hs].
  - destruct (H2 Hs) as (Hx & Hk & Hm). destruct (G2 Hs) as (Kx & Kk & Km).
    assert (Ho : omega e g n <> 0) by now rewrite omega_eq.
    destruct e2 as [nd2 mq2 xc2 k2 h2 t2]. unfold fin_ell. cbn [e_no_defer e_mq e_xc e_kappa e_helper e_tsq] in *.
    subst nd2 h2 t2. rewrite Hd, Hh, Ht.
    assert (Ex : xc2 = fin_arr (e_xc e1)).
    { apply fin_arr_vec with n; try apply Hw1; try apply Hw2; try congruence.
      - rewrite Sx, Rx. reflexivity.
      - rewrite Dx, Cx. reflexivity.
      - intros i Hi. rewrite Kx, Hx by auto. change (e_xc (fin_ell e)) with (fin_arr (e_xc e)). rewrite gt_fin, vget_fin.
        change (ndiv (n := ENum) (Fin rho) (Fin (omega e g n))) with (ext_div (Fin rho) (Fin (omega e g n))).
        rewrite ext_div_fin by auto. reflexivity. }
    assert (Em : mq2 = fin_arr (e_mq e1)).
    { apply fin_arr_mat with n; try apply Hw1; try apply Hw2.
      intros i j Hi Hj. pose proof (Hm i j Hi Hj) as A. pose proof (Km i j Hi Hj) as B. cbv zeta in A, B.
      rewrite A, B. unfold shrunk. change (e_no_defer (fin_ell e)) with (e_no_defer e). change (e_mq (fin_ell e)) with (fin_arr (e_mq e)). rewrite !gt_fin, !mget_fin.
      change (ndiv (n := ENum) (Fin sigma) (Fin (omega e g n))) with (ext_div (Fin sigma) (Fin (omega e g n))).
      rewrite ext_div_fin by auto. destruct (j <=? i)%nat; destruct (e_no_defer e); reflexivity. }
    rewrite Ex, Em, Kk, Hk. change (e_no_defer (fin_ell e)) with (e_no_defer e). destruct (e_no_defer e); reflexivity.
  - rewrite (H1 Hs), (G1 Hs). reflexivity.
Qed.

(** Which cuts are computed without an exceptional operation; [t] is tau^2. *)
Definition fine_single (md : mode) (t : R) (c : SingleCut RNum) : Prop :=
  match md with Bias => sc_beta c <> - sqrt t | _ => True end.
Definition fine_parallel (md : mode) (n : nat) (t : R) (c : ParallelCut RNum) : Prop :=
  match md, pc_beta1 c with
  | Bias, Some b1 => pc_beta0 c <= b1 -> 0 <= t + INR n * (pc_beta0 c * b1)
  | Bias, None => pc_beta0 c <> - sqrt t
  | _, _ => True
  end.

Lemma width_quad n e g : width2 n e g <> 0 -> quad n (shape n e) (coords g) <> 0.
Proof. unfold width2. intros H E. rewrite E in H. apply H. ring. Qed.

Lemma single_defined md n e g c : (2 <= n)%nat -> valid n e -> vecn n g -> 0 < width2 n e g ->
  fine_single md (width2 n e g) c ->
  exists e' st, apply_cut (N := RNum) single_cut md e (g, c) = Ok (e', st) /\
    apply_cut (N := ENum) single_cut md (fin_ell e) (fin_arr g, fin_single c) = Ok (fin_ell e', st).
Proof.
  intros Hn V Hg Hw Hf. rewrite !apply_cut_core. apply core_fin with n; auto.
  - now apply valid_wf.
  - unfold fin_ell, cut_core. cbn [e_helper]. rewrite (v_calc _ _ V), <- (calc_new_fin n Hn).
    destruct md; cbn [call_bias call_central call_q single_cut fin_single sc_beta].
    + apply fin_bias; auto.
    + apply fin_central; auto.
    + apply fin_bias_q; auto.
  - apply width_quad. lra.
Qed.
Lemma parallel_defined md n e g c : (2 <= n)%nat -> valid n e -> vecn n g -> 0 < width2 n e g ->
  fine_parallel md n (width2 n e g) c ->
  exists e' st, apply_cut (N := RNum) parallel_cut md e (g, c) = Ok (e', st) /\
    apply_cut (N := ENum) parallel_cut md (fin_ell e) (fin_arr g, fin_parallel c) = Ok (fin_ell e', st).
Proof.
  intros Hn V Hg Hw Hf. rewrite !apply_cut_core. apply core_fin with n; auto.
  - now apply valid_wf.
  - unfold fin_ell, cut_core. cbn [e_helper]. rewrite (v_calc _ _ V), <- (calc_new_fin n Hn).
    destruct c as [b0 [b1|]]; destruct md; cbn [call_bias call_central call_q parallel_cut fin_parallel pc_beta0 pc_beta1] in *;
    unfold calc_single_or_parallel_bias_cut, calc_single_or_parallel_central_cut, calc_single_or_parallel_q; cbn [pc_beta0 pc_beta1].
    + apply fin_par_bias; auto.
    + apply fin_par_central; auto.
    + apply fin_par_q; auto.
    + apply fin_bias; auto.
    + apply fin_central; auto.
    + apply fin_bias_q; auto.
  - apply width_quad. lra.
Qed.

(** ** The exceptional cases *)
Lemma zero_width_nan n e g c : (2 <= n)%nat -> valid n e -> vecn n g -> quad n (shape n e) (coords g) = 0 ->
  exists e', apply_cut (N := ENum) single_cut Central (fin_ell e) (fin_arr g, c) = Ok (e', Success) /\
    (forall i, (i < n)%nat -> vget (e_xc e') i = Nan) /\
    (forall i j, (i < n)%nat -> (j < n)%nat -> mget n (adata (e_mq e')) i j = Nan).
Proof.
  intros Hn V Hg Hq. rewrite apply_cut_core. pose proof (valid_wf _ _ V) as Hw.
  destruct (ell_update_core_ok (N := ENum) n (fin_ell e) (fin_arr g) (cut_core (N := ENum) single_cut Central (fin_ell e) c) (fin_wf _ _ Hw) (fin_vec _ _ Hg))
    as (e2 & st2 & rho2 & sigma2 & delta2 & F1 & F2 & Hw2 & Gt & Gh & Gd & Sx & Dx & G1 & G2).
  rewrite omega_fin, omega_eq, Hq in *.
  assert (Ew : nmul (n := ENum) (e_kappa (fin_ell e)) (Fin 0) = Fin 0).
  { unfold fin_ell. cbn. apply f_equal. ring. }
  rewrite Ew in F1. unfold cut_core, fin_ell in F1. cbn [call_central single_cut e_helper] in F1.
  rewrite (v_calc _ _ V), <- (calc_new_fin n Hn) in F1.
  assert (Hst : st2 = Success) by (unfold calc_central_cut in F1; now inversion F1). subst st2.
  assert (Hr : exists r s, rho2 = Fin r /\ sigma2 = Fin s).
  { unfold calc_central_cut, core_central_cut in F1. rewrite (calc_new_fin n Hn) in F1. unfold fin_calc, fin_core in F1. cbn [ec_helper c_cst1 c_cst2 c_n_plus_1] in F1.
    rewrite ext_sqrt_fin in F1 by lra.
    change (ndiv (n := ENum)) with ext_div in F1.
    rewrite ext_div_fin in F1.
    - inversion F1. eauto.
    - pose proof (INR_two n Hn). unfold calc_new, core_new. cbn [ec_helper c_n_plus_1]. rewrite nN_INR. unfold n1. simpl. lra. }
  destruct Hr as (r & s & -> & ->).
  exists e2. split; auto. destruct (G2 eq_refl) as (Kx & Kk & Km).
  assert (Z : forall r, ndiv (n := ENum) (Fin r) (Fin 0) = Nan) by (intros; simpl; now rewrite Req_bool_true).
  split.
  - intros i Hi. rewrite Kx by auto. change (e_xc (fin_ell e)) with (fin_arr (e_xc e)). rewrite Z, gt_fin, vget_fin. reflexivity.
  - intros i j Hi Hj. pose proof (Km i j Hi Hj) as B. cbv zeta in B. rewrite B. unfold shrunk. change (e_mq (fin_ell e)) with (fin_arr (e_mq e)).
    rewrite Z, !gt_fin, !mget_fin. destruct (j <=? i)%nat; destruct (e_no_defer (fin_ell e)); reflexivity.
Qed.
(** a bias cut through the far point of the ellipsoid divides by zero *)
Lemma far_point_nan n t : (2 <= n)%nat -> 0 < t ->
  exists rho delta, calc_bias_cut (N := ENum) (calc_new n) (Fin (- sqrt t)) (Fin t) = (Success, (rho, Nan, delta)).
Proof.
  intros Hn Ht. assert (Hss : sqrt t * sqrt t = t) by (apply sqrt_sqrt; lra).
  unfold calc_bias_cut. cbn [nltb nmul ENum ext_mul ext_ltb].
  rewrite Rlt_bool_false by nra. rewrite ext_sqrt_fin by lra. cbv zeta.
  unfold core_bias_cut, core_bias_cut_fast. cbv zeta.
  change (nadd (n := ENum) (Fin (sqrt t)) (Fin (- sqrt t))) with (Fin (sqrt t + - sqrt t)).
  rewrite Rplus_opp_r.
  assert (Z : forall r, ndiv (n := ENum) r (Fin 0) = Nan \/ exists i, r = i /\ (i = PInf \/ i = NInf)).
  { intros [r| | |]; auto; [left; simpl; now rewrite Req_bool_true|right; eauto|right; eauto]. }
  rewrite (calc_new_fin n Hn). unfold fin_calc, fin_core. cbn [ec_helper c_n_plus_1 c_n_f c_cst1].
  pose proof (INR_two n Hn). 
  eexists _, _. apply f_equal. apply f_equal2; [apply f_equal2; [reflexivity|]|reflexivity].
  cbn [nmul nadd ndiv ENum ext_mul ext_add].
  rewrite ext_div_fin.
  - cbn. now rewrite Req_bool_true.
  - unfold calc_new, core_new. cbn [ec_helper c_n_plus_1]. rewrite nN_INR. unfold n1. simpl. lra.
Qed.
