(** Whole runs of the feasibility driver on an Ell with the LMI oracles. *)
From Coq Require Import Reals List Bool Arith Lia Lra.
From Verif Require Import Num Res Arr CuttingPlane EllCalc Ell EllRun ArrLemmas EllLemmas Spec RealLin EllSpec EllReal EllCuts EllMore
  Ldlt LdltSpec Lmi LmiSpec LmiProofs LdltWitness Det RunSpec RunProofs RunMore ExConv.
Import ListNotations.
Open Scope R_scope.

Section Lmi.
Variables (n k : nat) (f : list (Arr RNum)) (b : Arr RNum).
Hypotheses (Hb : square n b) (Hf : Forall (square n) f) (Sb : sym n (entries n b)) (Sf : all_sym n f) (Hk : (k <= length f)%nat).
Let P := pencil n k f b.
Definition lmi_inv (o : LMI RNum) : Prop := lmi_ok n o /\ lmi_f o = f /\ lmi_b o = b.
Lemma lmi_inv_new : lmi_inv (lmi_new (N := RNum) f b).
Proof. split; [|split; reflexivity]. now apply lmi_new_ok. Qed.

Lemma lmi_call o (x : Arr RNum) : lmi_inv o -> length (adata x) = k ->
  exists o' r, lmi_assess (N := RNum) o x = Ok (o', r) /\ lmi_inv o' /\ (r = None <-> pd n (P (coords x))) /\
    forall g c, r = Some (g, c) -> vecn k g /\ 0 <= sc_beta c /\
      (forall y, psd n (P y) -> along k (coords g) y (coords x) + sc_beta c <= 0) /\
      exists v p, (p < n)%nat /\ v p = 1 /\ forall y, along k (coords g) y (coords x) + sc_beta c = - quad n (P y) v.
Proof.
  intros (Ho & Ef & Eb) Hl.
  destruct (lmi_assess_ok n o x Ho) as (o' & r & E & Ho' & Ef' & Eb' & Hr & Hc); rewrite ?Hl, ?Ef, ?Eb in *; auto.
  exists o', r. split; [exact E|]. split; [split; [|split]; congruence|]. split; [exact Hr|].
  intros g [be] ->. destruct (Hc g be eq_refl) as (H1 & H2 & H3 & H4 & H5). split; [split; auto|]. split; [exact H3|]. split; [exact H4|exact H5].
Qed.
(** either of the two oracles *)
Variable ora : OracleFeas RNum (Arr RNum) (SingleCut RNum) (LMI RNum).
Hypothesis same : forall o x, lmi_inv o -> length (adata x) = k -> of_assess ora o x = lmi_assess (N := RNum) o x.
Lemma lmi_cuts : feas_cuts single_sat single_deep k lmi_inv (fun y => psd n (P y)) ora.
Proof.
  intros o x o' ans Ho [Hl _] E. rewrite same in E by auto. destruct (lmi_call o x Ho Hl) as (o2 & r & E2 & Ho2 & _ & Hc). rewrite E in E2. inversion E2; subst.
  split; auto. destruct r as [[g c]|]; auto. destruct (Hc g c eq_refl) as (H1 & H2 & H3 & _). split; auto.
Qed.
(** P(z) at least rho times the identity: every cut has z at depth rho *)
Lemma lmi_margin z rho : 0 <= rho -> (forall v, rho * dot n v v <= quad n (P z) v) -> feas_margin k lmi_inv z rho ora.
Proof.
  intros Hrho Hz o x Ho [Hl _]. destruct (lmi_call o x Ho Hl) as (o2 & r & E2 & Ho2 & _ & Hc). exists o2, r. split; [rewrite same; auto|].
  destruct r as [[g c]|]; auto. destruct (Hc g c eq_refl) as (_ & Hbe & _ & v & p & Hp & Hv & Hy). specialize (Hy z). specialize (Hz v).
  assert (1 <= dot n v v).
  { unfold dot. apply Rle_trans with (v p * v p); [rewrite Hv; lra|]. apply (Rsum_pos_one n p (fun i => v i * v i)); auto. intros. apply Rle_0_sqr. }
  nra.
Qed.

Lemma lmi_run (opt : Options RNum) o (e : Ell RNum) o' e' ans it : (2 <= k)%nat -> lmi_inv o -> valid k e -> vecn k (e_xc e) -> 0 < tolerance opt ->
  cutting_plane_feas ora (ell_space (N := RNum) single) opt o e = Ok (o', e', (ans, it)) ->
  match ans with
  | Some x => vecn k x /\ pd n (P (coords x))
  | None => (it < max_iters opt)%nat -> tolerance opt <= e_tsq e' -> forall y, pts k e y -> ~ psd n (P y)
  end.
Proof.
  intros Hk2 Ho V Hxc Ht E. destruct ans as [x|].
  - destruct (feas_accepts single single_sat single_deep k lmi_inv _ _ _ _ _ _ _ _ _ lmi_cuts Ho (valid_wf _ _ V) Hxc E) as ([Hl Hcl] & o1 & H1 & E1).
    split; [split; auto|]. rewrite same in E1 by auto. destruct (lmi_call o1 x H1 Hl) as (o2 & r & E2 & _ & Hr & _). rewrite E1 in E2. inversion E2; subst. now apply Hr.
  - destruct (feas_keeps single single_sat single_deep single_step k lmi_inv Hk2 _ _ _ _ _ _ _ _ _ lmi_cuts Ho V Hxc Ht E) as [_ H].
    intros H1 H2 y Hy HP. exact (H eq_refl H1 H2 y HP Hy).
Qed.
Lemma lmi_solves (opt : Options RNum) o (e : Ell RNum) z r rho : (2 <= k)%nat -> lmi_inv o -> proper k e -> vecn k (e_xc e) -> 0 < r -> 0 < rho ->
  (forall y, ball k z r y -> psd n (P y) /\ pts k e y) -> (forall v, rho * dot n v v <= quad n (P z) v) ->
  tolerance opt <= rho * rho -> (INR k + 1) * ln (vol2 k e / (r * r) ^ k) < INR (max_iters opt) ->
  exists o' e' x it, cutting_plane_feas ora (ell_space (N := RNum) single) opt o e = Ok (o', e', (Some x, it)) /\
    vecn k x /\ pd n (P (coords x)) /\ INR it <= (INR k + 1) * ln (vol2 k e / (r * r) ^ k).
Proof.
  intros Hk2 Ho HP Hxc Hr Hrho HB Hz Ht Hm.
  destruct (feas_bound_margin single single_sat single_deep k lmi_inv Hk2 z r Hr single_shrink rho _ _ opt o e lmi_cuts (lmi_margin z rho ltac:(lra) Hz)) as (o' & e' & x & it & E & Hit & _); auto.
  exists o', e', x, it. split; auto. pose proof HP as (V & _).
  destruct (feas_accepts single single_sat single_deep k lmi_inv _ _ _ _ _ _ _ _ _ lmi_cuts Ho (valid_wf _ _ V) Hxc E) as ([Hl Hcl] & o1 & H1 & E1).
  split; [split; auto|]. split; auto. rewrite same in E1 by auto. destruct (lmi_call o1 x H1 Hl) as (o2 & rr & E2 & _ & Hrr & _). rewrite E1 in E2. inversion E2; subst. now apply Hrr.
Qed.
End Lmi.

Lemma old_same n k f b : (k <= length f)%nat -> forall o x, lmi_inv n f b o -> length (adata x) = k ->
  of_assess (lmi_old_oracle (N := RNum)) o x = lmi_assess (N := RNum) o x.
Proof. intros Hk o x (Ho & Ef & Eb) Hl. apply (lmi_old_same (N := RNum) n); auto. unfold a_len. rewrite Ef, Hl. exact Hk. Qed.

(** ** A concrete problem: I - x F0 - y F1, positive definite iff x^2 + y^2 < 1 *)
Definition disc_f : list (Arr RNum) := [m2 1 0 0 (-1); m2 0 1 1 0].
Definition disc_b : Arr RNum := m2 1 0 0 1.
Definition point20 : Arr RNum := mkArr (N := RNum) [2; 0] 2 0.
Lemma disc_ok : square 2 disc_b /\ Forall (square 2) disc_f /\ sym 2 (entries 2 disc_b) /\ all_sym 2 disc_f.
Proof.
  split; [apply m2_square|]. split; [repeat constructor|]. split; [apply m2_sym|].
  constructor; [apply m2_sym|constructor; [apply m2_sym|constructor]].
Qed.
Lemma disc_quad y v : quad 2 (pencil 2 2 disc_f disc_b y) v =
  (1 - y 0%nat) * (v 0%nat * v 0%nat) - 2 * y 1%nat * (v 0%nat * v 1%nat) + (1 + y 0%nat) * (v 1%nat * v 1%nat).
Proof. unfold quad, dot, mulmv, pencil, entries, disc_f, disc_b. cbn. ring. Qed.
Lemma disc_geometry : exists e, ell_new_with_scalar (N := RNum) 9 point20 = Ok e /\ proper 2 e /\ vecn 2 (e_xc e) /\ vol2 2 e = 81 /\
  ~ pd 2 (pencil 2 2 disc_f disc_b (coords point20)) /\
  (forall y, ball 2 (point2 0 0) (1 / 2) y -> psd 2 (pencil 2 2 disc_f disc_b y) /\ pts 2 e y) /\
  (forall v, 1 * dot 2 v v <= quad 2 (pencil 2 2 disc_f disc_b (point2 0 0)) v).
Proof.
  destruct (new_scalar_real 2 9 point20 ltac:(lia) ltac:(lra) eq_refl) as (e & E & HP & Hpt). exists e. split; auto. split; auto.
  split. { rewrite (new_scalar_xc _ _ _ E). split; reflexivity. }
  split. { rewrite (new_scalar_vol 2 9 point20 e ltac:(lia) eq_refl E). ring. }
  split. { intros H. specialize (H (fun i => if (i =? 0)%nat then 1 else 0)). rewrite disc_quad in H. unfold coords in H. cbn in H. 
    assert (0 < (1 - 2) * (1 * 1) - 2 * 0 * (1 * 0) + (1 + 2) * (0 * 0)); [|lra]. apply H. exists 0%nat. split; [lia|]. cbn. lra. }
  split.
  - intros y Hy. apply ball2 in Hy as (p & q & H & Ea & Eb). split.
    + intros v. rewrite disc_quad, Ea, Eb. set (s := v 0%nat). set (t := v 1%nat).
      destruct (in_unit p q (1 / 2) ltac:(lra) H) as [Hp Hq].
      assert (0 <= (s - 2 * q * t) * (s - 2 * q * t)) by apply Rle_0_sqr. 
      assert (Hq2 : q * q <= 1 / 4 - p * p) by lra. assert (0 <= s * s) by apply Rle_0_sqr. assert (0 <= t * t) by apply Rle_0_sqr.
      assert (0 <= (s - q * t) * (s - q * t)) by apply Rle_0_sqr. assert (0 <= (s + t) * (s + t)) by apply Rle_0_sqr. assert (0 <= (s - t) * (s - t)) by apply Rle_0_sqr.
      nra.
    + apply Hpt. unfold dot, coords. cbn. rewrite Ea, Eb. destruct (in_unit p q (1 / 2) ltac:(lra) H) as [Hp Hq]. nra.
  - intros v. rewrite disc_quad. unfold dot, point2. cbn. lra.
Qed.
Lemma disc_bound : (INR 2 + 1) * ln (81 / (1 / 2 * (1 / 2)) ^ 2) < INR 100.
Proof.
  replace (INR 100) with 100 by (rewrite INR_IZR_INZ; reflexivity). change (INR 2) with 2.
  replace (81 / (1 / 2 * (1 / 2)) ^ 2) with 1296 by lra.
  assert (H : 1296 <= exp 11).
  { apply Rle_trans with (2 ^ 11); [lra|]. replace (exp 11) with (exp (INR 11 * 1)) by (f_equal; rewrite INR_IZR_INZ; cbn; lra).
    rewrite <- VolScalar.exp_pow. apply pow_incr. pose proof (exp_ineq1_le 1). lra. }
  assert (ln 1296 <= 11); [|lra]. rewrite <- (ln_exp 11). destruct H as [H|H]; [left; apply ln_increasing; lra|right; now rewrite H].
Qed.
