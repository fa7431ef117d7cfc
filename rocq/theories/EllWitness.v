(** Concrete ellipsoids: cases that meet the hypotheses of the theorems, and
    counterexamples. *)
From Coq Require Import Reals List Arith Lia Lra Psatz Bool ZArith.
From Verif Require Import Num Res Arr CuttingPlane EllCalc Ell EllRun ArrLemmas EllLemmas Spec RealLin CutScalar EllSpec EllReal EllCuts EllMore.
Import ListNotations.
Open Scope R_scope.

Notation vR l := (mkArr (N := RNum) l (length l) 0).
(** unit disc *)
Definition disc : Ell RNum := mkEll (N := RNum) false (mkArr (N := RNum) [1; 0; 0; 1] 2 2) (vR [0; 0]) 1 (calc_new (N := RNum) 2) 0.
Definition gx : Arr RNum := vR [1; 0].
(** centre (1,-1), shape 2*[[4,1],[1,3]] *)
Definition egg : Ell RNum := mkEll (N := RNum) false (mkArr (N := RNum) [4; 1; 1; 3] 2 2) (vR [1; -1]) 2 (calc_new (N := RNum) 2) 0.
Definition g12 : Arr RNum := vR [1; 2].

Ltac ij2 := intros i j Hi Hj; destruct i as [|[|i]]; try lia; destruct j as [|[|j]]; try lia.
Lemma quad2 M y : quad 2 M y = M 0%nat 0%nat * (y 0%nat * y 0%nat) + (M 0%nat 1%nat + M 1%nat 0%nat) * (y 0%nat * y 1%nat) + M 1%nat 1%nat * (y 1%nat * y 1%nat).
Proof. unfold quad, dot, mulmv. simpl. ring. Qed.
Lemma mv2 M y i : mulmv 2 M y i = M i 0%nat * y 0%nat + M i 1%nat * y 1%nat.
Proof. unfold mulmv. simpl. ring. Qed.
Lemma along2 g x c : along 2 g x c = g 0%nat * (x 0%nat - c 0%nat) + g 1%nat * (x 1%nat - c 1%nat).
Proof. unfold along, dot. simpl. ring. Qed.

Lemma disc_proper : proper 2 disc.
Proof.
  assert (HQ : forall y, quad 2 (shape 2 disc) y = y 0%nat * y 0%nat + y 1%nat * y 1%nat).
  { intros y. rewrite quad2. unfold shape. simpl. ring. }
  split; [|split].
  - constructor; try reflexivity; try lia; [ij2; reflexivity| |unfold kap; simpl; lra].
    intros y. rewrite HQ. nra.
  - intros y ([|[|i]] & Hi & Hy); try lia; rewrite HQ; apply Rsqr_pos_lt in Hy; unfold Rsqr in Hy; nra.
  - unfold kap. simpl. lra.
Qed.
Lemma egg_proper : proper 2 egg.
Proof.
  assert (HQ : forall y, quad 2 (shape 2 egg) y = 3 * (y 0%nat * y 0%nat) + 2 * (y 1%nat * y 1%nat) + (y 0%nat + y 1%nat) * (y 0%nat + y 1%nat)).
  { intros y. rewrite quad2. unfold shape. simpl. ring. }
  split; [|split].
  - constructor; try reflexivity; try lia; [ij2; reflexivity| |unfold kap; simpl; lra].
    intros y. rewrite HQ. nra.
  - intros y ([|[|i]] & Hi & Hy); try lia; rewrite HQ; apply Rsqr_pos_lt in Hy; unfold Rsqr in Hy; nra.
  - unfold kap. simpl. lra.
Qed.
Lemma disc_width : width2 2 disc gx = 1.
Proof. unfold width2, kap. rewrite quad2. unfold shape, coords. simpl. ring. Qed.
Lemma egg_width : width2 2 egg g12 = 40.
Proof. unfold width2, kap. rewrite quad2. unfold shape, coords. simpl. ring. Qed.
Lemma gx_vec : vecn 2 gx. Proof. split; reflexivity. Qed.
Lemma g12_vec : vecn 2 g12. Proof. split; reflexivity. Qed.
Lemma gx_nz : exists i, (i < 2)%nat /\ coords gx i <> 0.
Proof. exists 0%nat. split; [lia|]. unfold coords. simpl. lra. Qed.
Lemma g12_nz : exists i, (i < 2)%nat /\ coords g12 i <> 0.
Proof. exists 0%nat. split; [lia|]. unfold coords. simpl. lra. Qed.

Lemma disc_pts x : x 0%nat * x 0%nat + x 1%nat * x 1%nat <= 1 -> pts 2 disc x.
Proof.
  intros H. exists x. split.
  - intros i Hi. rewrite mv2. unfold centre, coords, shape. destruct i as [|[|i]]; try lia; simpl; ring.
  - rewrite quad2. unfold shape, kap. simpl. lra.
Qed.

(** A step on the disc along the first axis: the second coordinate of a kept
    point is bounded by the new kappa. *)
Lemma disc_step_bound rho sigma delta e' x : sigma <= 1 -> stepped 2 disc gx rho sigma delta e' -> 0 <= delta ->
  pts 2 e' x -> x 1%nat * x 1%nat <= delta.
Proof.
  intros Hs H Hd Hx. destruct disc_proper as (V & _ & _).
  assert (Eo : quad 2 (shape 2 disc) (coords gx) = 1) by (rewrite quad2; unfold shape, coords; simpl; ring).
  rewrite (stepped_pts 2 disc gx rho sigma delta e' V gx_vec) in Hx; auto.
  2:{ rewrite Eo. lra. } 2:{ unfold kap. simpl. lra. }
  destruct Hx as (y & H1 & H2). specialize (H1 1%nat ltac:(lia)).
  rewrite !mv2 in H1. rewrite quad2 in H2. unfold rank1 in *. rewrite !mv2 in H1, H2. rewrite Eo in *.
  unfold shape, coords, centre, kap in *. cbn in H1, H2.
  assert (E1 : x 1%nat = y 1%nat) by lra. rewrite E1.
  assert (0 <= (1 - sigma) * (y 0%nat * y 0%nat)) by (apply Rmult_le_pos; nra). unfold coords in *. simpl in *. nra.
Qed.

Lemma sqrt_unique t r : 0 <= r -> r * r = t -> sqrt t = r.
Proof. intros H <-. now apply sqrt_square. Qed.

Lemma bias_drops_point : exists n e g beta e' x, (2 <= n)%nat /\ valid n e /\ vecn n g /\ 0 < width2 n e g /\
  - sqrt (width2 n e g) < beta < - sqrt (width2 n e g) / INR n /\
  ubias single e (g, SC beta) = Ok (e', Success) /\
  pts n e x /\ along n (coords g) x (centre e) + beta <= 0 /\ ~ pts n e' x.
Proof.
  destruct disc_proper as (V & _ & _).
  assert (Es : sqrt (width2 2 disc gx) = 1) by (rewrite disc_width; apply sqrt_1).
  destruct (core_run 2 disc gx (fun tsq => call_bias single (e_helper disc) (SC (-3/4)) tsq) Success (-1/6) (-4/3) (7/12) V gx_vec)
    as (e' & E & _ & H).
  { rewrite (v_calc _ _ V). simpl call_bias. cbn [sc_beta]. rewrite calc_bias_eq, Es, disc_width.
    destruct (Raux.Rlt_bool _ _) eqn:B; [apply Rlt_bool_iff in B; lra|].
    unfold deep3. simpl INR. apply f_equal. apply f_equal2; [apply f_equal2|]; field. }
  specialize (H eq_refl).
  exists 2%nat, disc, gx, (-3/4), e', (fun i => match i with 1%nat => 1 | _ => 0 end).
  split; [lia|]. split; [exact V|]. split; [exact gx_vec|]. rewrite disc_width. split; [lra|].
  rewrite sqrt_1. split; [simpl; lra|]. split; [exact E|]. split; [apply disc_pts; simpl; lra|].
  split; [rewrite along2; unfold centre, coords; simpl; lra|].
  intros Hx. pose proof (disc_step_bound (-1/6) (-4/3) (7/12) e' _ ltac:(lra) H ltac:(lra) Hx) as B. simpl in B. lra.
Qed.

Lemma par_bias_drops_point : exists n e g b0 b1 e' x, (2 <= n)%nat /\ valid n e /\ vecn n g /\ 0 < width2 n e g /\
  b0 <= b1 /\ ubias parallel e (g, PC b0 (Some b1)) = Ok (e', Success) /\ slab n e g b0 b1 x /\ ~ pts n e' x.
Proof.
  destruct disc_proper as (V & _ & _).
  destruct (core_run 2 disc gx (fun tsq => call_bias parallel (e_helper disc) (PC (-9/10) (Some (9/10))) tsq) Success 0 (-62/19) (38/100) V gx_vec)
    as (e' & E & _ & H).
  { rewrite (v_calc _ _ V). simpl call_bias. cbn [pc_beta0 pc_beta1 calc_single_or_parallel_bias_cut].
    rewrite calc_par_bias_eq, disc_width.
    destruct (Raux.Rlt_bool (9/10) (-9/10)) eqn:B; [apply Rlt_bool_iff in B; lra|].
    replace (Raux.Rle_bool 1 (9/10 * (9/10))) with false by (symmetry; apply Rle_bool_no; lra).
    rewrite andb_false_r. cbn [orb]. unfold par3. simpl INR.
    rewrite (sqrt_unique _ (19/100)); [|lra|field].
    apply f_equal. apply f_equal2; [apply f_equal2|]; field. }
  specialize (H eq_refl).
  exists 2%nat, disc, gx, (-9/10), (9/10), e', (fun i => match i with 1%nat => 1 | _ => 0 end).
  split; [lia|]. split; [exact V|]. split; [exact gx_vec|]. rewrite disc_width. split; [lra|].
  split; [lra|]. split; [exact E|]. split; [split; [apply disc_pts; simpl; lra|rewrite along2; unfold centre, coords; simpl; lra]|].
  intros Hx. pose proof (disc_step_bound 0 (-62/19) (38/100) e' _ ltac:(lra) H ltac:(lra) Hx) as B. simpl in B. lra.
Qed.

(** A slab beyond the ellipsoid on the far side: Success, and kappa becomes negative. *)
Lemma par_far_side n e g b0 b1 : (2 <= n)%nat -> valid n e -> vecn n g -> 0 < width2 n e g -> e_no_defer e = false ->
  b0 <= b1 -> b1 < - sqrt (width2 n e g) ->
  exists e', uq parallel e (g, PC b0 (Some b1)) = Ok (e', Success) /\
    (forall x, ~ slab n e g b0 b1 x) /\ kap e' < 0.
Proof.
  intros Hn V Hg Hw Hnd H01 Hb1. pose proof (INR_two n Hn) as Hm. pose proof (sqrt_lt_R0 _ Hw) as Hs.
  pose proof (valid_width _ _ _ V Hg Hw) as [Hk Ho].
  assert (Hss : sqrt (width2 n e g) * sqrt (width2 n e g) = width2 n e g) by (apply sqrt_sqrt; lra).
  set (t := width2 n e g) in *.
  set (str := fun tsq => call_q parallel (e_helper e) (PC b0 (Some b1)) tsq).
  assert (Estr : str t = calc_parallel_q (N := RNum) (calc_new n) b0 b1 t)
    by (unfold str; rewrite (v_calc _ _ V); reflexivity).
  rewrite calc_par_q_eq in Estr.
  assert (Hp : 0 < b0 * b1) by nra. assert (He : 0 < t + INR n * (b0 * b1)) by nra.
  destruct (Raux.Rlt_bool b1 b0) eqn:B1; [apply Rlt_bool_iff in B1; lra|].
  replace (Raux.Rlt_bool 0 b1) with false in Estr by (symmetry; apply Rlt_bool_no; lra). cbn [andb orb] in Estr.
  destruct (Raux.Rle_bool _ 0) eqn:B3; [apply Rle_bool_iff in B3; lra|].
  unfold par3 in Estr.
  destruct (core_run n e g str _ _ _ _ V Hg Estr) as (e' & E & _ & H). specialize (H eq_refl).
  exists e'. split; [exact E|]. split.
  { intros x [Hx Hc]. pose proof (pts_range n e g x V Hx) as Hr. fold t in Hr. lra. }
  assert (Hneg : kap e' < 0).
  { destruct H as (_ & _ & _ & _ & _ & H). rewrite Hnd in H. destruct H as [Ek _]. rewrite Ek.
    cut (forall d, d < 0 -> kap e * d < 0); [intros K; apply K|intros; nra].
    apply Rmult_lt_reg_r with t; auto. rewrite Rmult_0_l.
    rewrite (par_delta_t (INR n) t b0 b1 ltac:(lra) Hw).
    set (z0 := t - b0 * b0). set (z1 := t - b1 * b1). set (tm := INR n / 2 * (b1 * b1 - b0 * b0)).
    assert (Hz0 : z0 < 0) by (unfold z0; nra). assert (Hz1 : z1 < 0) by (unfold z1; nra).
    assert (Ex := par_xi_sq (INR n) t b0 b1 ltac:(lra)). fold z0 z1 tm in Ex.
    assert (Hx := par_xi_nonneg (INR n) t b0 b1). fold z0 z1 tm in Hx.
    set (xi := sqrt (z0 * z1 + tm * tm)) in *.
    assert (Et : tm = INR n / 2 * (z0 - z1)) by (unfold tm, z0, z1; ring). rewrite Et in Ex.
    set (w := INR n / 2 * (z0 + z1)).
    assert (E2 : xi * xi = w * w - (INR n * INR n - 1) * (z0 * z1)) by (rewrite Ex; unfold w; field).
    assert (0 < (INR n * INR n - 1) * (z0 * z1)) by (apply Rmult_lt_0_compat; nra).
    assert (Hwneg : w < 0) by (unfold w; nra).
    assert (Hlt : w + xi < 0) by nra.
    replace (INR n * INR n / (INR n * INR n - 1) * ((z0 + z1) / 2 + xi / INR n))
      with (INR n / (INR n * INR n - 1) * (w + xi)) by (unfold w; field; nra).
    assert (0 < INR n / (INR n * INR n - 1)) by (apply Rmult_lt_0_compat; [lra|apply Rinv_0_lt_compat; nra]). nra. }
  auto.
Qed.
