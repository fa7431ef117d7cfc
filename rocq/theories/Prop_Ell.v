(** Properties C10-C16 and C21-C26: the ellipsoid search space.  [pts n e] is the
    set of points the ellipsoid value [e] stands for, [width2 n e g] its squared
    half-width along [g], [along n g x c] is g.(x - c)  (EllSpec.v, Spec.v). *)
From Coq Require Import Reals List Arith Lia Lra Psatz.
From Verif Require Import Num Res Arr CuttingPlane EllCalc Ell EllRun ArrLemmas EllLemmas Spec RealLin EllSpec EllReal EllCuts EllMore EllWitness.
Import ListNotations.
Open Scope R_scope.

(** ** C10 *)
Theorem C10_deep_cut : forall n e g beta, (2 <= n)%nat -> valid n e -> vecn n g -> 0 < width2 n e g ->
  - sqrt (width2 n e g) / INR n <= beta <= sqrt (width2 n e g) ->
  exists e', ubias single e (g, SC beta) = Ok (e', Success) /\
    forall x, pts n e x -> along n (coords g) x (centre e) + beta <= 0 -> pts n e' x.
Proof. exact bias_single_keeps. Qed.
Print Assumptions C10_deep_cut.

Lemma egg_cut_point : exists x, pts 2 egg x /\ along 2 (coords g12) x (centre egg) + 1 <= 0.
Proof.
  destruct egg_proper as (V & HP & Hk).
  destruct (width_attained 2 (shape 2 egg) (kap egg) (centre egg) (coords g12) (v_sym _ _ V) (v_kap _ _ V)
    (HP _ g12_nz) (-1) ltac:(ring)) as (x & Hx & E).
  exists x. split; auto. rewrite E. fold (width2 2 egg g12). rewrite egg_width.
  assert (1 <= sqrt 40) by (rewrite <- sqrt_1; apply sqrt_le_1; lra). lra.
Qed.
Example C10_case : valid 2 egg /\ vecn 2 g12 /\ width2 2 egg g12 = 40 /\ - sqrt 40 / INR 2 <= 1 <= sqrt 40 /\
  exists x, pts 2 egg x /\ along 2 (coords g12) x (centre egg) + 1 <= 0.
Proof.
  split; [apply egg_proper|]. split; [exact g12_vec|]. split; [exact egg_width|].
  assert (1 <= sqrt 40) by (rewrite <- sqrt_1; apply sqrt_le_1; lra).
  split; [simpl; lra|exact egg_cut_point].
Qed.

(** ** C11 *)
Theorem C11_nosoln_sound : forall n e g beta e', valid n e -> vecn n g -> 0 <= beta ->
  ubias single e (g, SC beta) = Ok (e', NoSoln) ->
  forall x, pts n e x -> 0 < along n (coords g) x (centre e) + beta.
Proof. exact bias_single_nosoln. Qed.
Print Assumptions C11_nosoln_sound.

Theorem C11_shallow_rejected : forall n e g beta, valid n e -> vecn n g -> beta < - sqrt (width2 n e g) ->
  ubias single e (g, SC beta) = Ok (with_tsq e (width2 n e g), NoSoln) /\
  forall x, pts n e x -> along n (coords g) x (centre e) + beta < 0.
Proof. exact bias_single_shallow. Qed.
Print Assumptions C11_shallow_rejected.

Theorem C11_shallow_drops_refuted : exists n e g beta e' x, (2 <= n)%nat /\ valid n e /\ vecn n g /\ 0 < width2 n e g /\
  - sqrt (width2 n e g) < beta < - sqrt (width2 n e g) / INR n /\
  ubias single e (g, SC beta) = Ok (e', Success) /\
  pts n e x /\ along n (coords g) x (centre e) + beta <= 0 /\ ~ pts n e' x.
Proof. exact bias_drops_point. Qed.
Print Assumptions C11_shallow_drops_refuted.

Example C11_case : (exists e', ubias single disc (gx, SC 2) = Ok (e', NoSoln)) /\ pts 2 disc (fun _ => 0) /\
  -2 < - sqrt (width2 2 disc gx).
Proof.
  split; [|split; [apply disc_pts; lra|rewrite disc_width, sqrt_1; lra]].
  destruct (core_run 2 disc gx (fun tsq => call_bias single (e_helper disc) (SC 2) tsq) NoSoln 0 0 0
    (proj1 disc_proper) gx_vec) as (e' & E & _).
  - rewrite (v_calc _ _ (proj1 disc_proper)). simpl call_bias. cbn [sc_beta]. rewrite calc_bias_eq, disc_width.
    destruct (Raux.Rlt_bool _ _) eqn:B; auto. apply Rlt_bool_no in B. lra.
  - exists e'. exact E.
Qed.

(** ** C12 *)
Theorem C12_q_sound : forall n e g beta, (2 <= n)%nat -> valid n e -> vecn n g -> 0 < width2 n e g ->
  exists e' st, uq single e (g, SC beta) = Ok (e', st) /\ valid n e' /\
    (forall x, pts n e x -> along n (coords g) x (centre e) + beta <= 0 -> pts n e' x) /\
    (st = NoSoln -> forall x, pts n e x -> 0 < along n (coords g) x (centre e) + beta) /\
    (st <> Success -> e' = with_tsq e (width2 n e g)).
Proof. exact q_single_sound. Qed.
Print Assumptions C12_q_sound.

(** the three answers all occur on the egg, half-width sqrt 40 *)
Example C12_case : valid 2 egg /\ vecn 2 g12 /\ 0 < width2 2 egg g12 /\
  fst (calc_bias_cut_q (N := RNum) (calc_new 2) 7 40) = NoSoln /\
  fst (calc_bias_cut_q (N := RNum) (calc_new 2) 1 40) = Success /\
  fst (calc_bias_cut_q (N := RNum) (calc_new 2) (-4) 40) = NoEffect.
Proof.
  split; [apply egg_proper|]. split; [exact g12_vec|]. split; [rewrite egg_width; lra|].
  assert (H1 : 1 <= sqrt 40) by (rewrite <- sqrt_1; apply sqrt_le_1; lra).
  assert (H2 : sqrt 40 < 7) by (rewrite <- (sqrt_square 7) by lra; apply sqrt_lt_1; lra).
  rewrite !calc_bias_q_eq. repeat split.
  - destruct (Raux.Rlt_bool _ 7) eqn:B; auto. apply Rlt_bool_no in B. lra.
  - destruct (Raux.Rlt_bool (sqrt 40) 1) eqn:B; [apply Rlt_bool_iff in B; lra|].
    destruct (Raux.Rlt_bool _ 0) eqn:B2; auto. apply Rlt_bool_iff in B2. simpl in B2. lra.
  - destruct (Raux.Rlt_bool (sqrt 40) (-4)) eqn:B; [apply Rlt_bool_iff in B; lra|].
    destruct (Raux.Rlt_bool _ 0) eqn:B2; auto. apply Rlt_bool_no in B2. simpl in B2. lra.
Qed.

(** ** C13 *)
Theorem C13_central_cut : forall n e g beta, (2 <= n)%nat -> valid n e -> vecn n g -> 0 < width2 n e g ->
  exists e', ucentral single e (g, SC beta) = Ok (e', Success) /\ valid n e' /\
    forall x, pts n e x -> along n (coords g) x (centre e) <= 0 -> pts n e' x.
Proof. exact central_single. Qed.
Print Assumptions C13_central_cut.

Example C13_case : valid 2 egg /\ vecn 2 g12 /\ 0 < width2 2 egg g12 /\
  exists x, pts 2 egg x /\ along 2 (coords g12) x (centre egg) <= 0.
Proof.
  split; [apply egg_proper|]. split; [exact g12_vec|]. split; [rewrite egg_width; lra|].
  destruct egg_cut_point as (x & Hx & H). exists x. split; auto. lra.
Qed.

(** ** C14 *)
Theorem C14_parallel_bias : forall n e g b0 b1, (2 <= n)%nat -> valid n e -> vecn n g -> 0 < width2 n e g ->
  b0 <= b1 -> 0 <= width2 n e g + INR n * (b0 * b1) ->
  exists e' st, ubias parallel e (g, PC b0 (Some b1)) = Ok (e', st) /\
    (st = Success \/ st = NoSoln) /\
    (forall x, slab n e g b0 b1 x -> pts n e' x) /\
    (st = NoSoln -> forall x, ~ slab n e g b0 b1 x).
Proof. exact bias_par_keeps. Qed.
Print Assumptions C14_parallel_bias.

(** C14 for update_q and the statuses of C15 *)
Theorem C14_C15_parallel_q : forall n e g b0 b1, (2 <= n)%nat -> valid n e -> vecn n g -> 0 < width2 n e g ->
  exists e' st, uq parallel e (g, PC b0 (Some b1)) = Ok (e', st) /\
    (forall x, slab n e g b0 b1 x -> pts n e' x) /\
    (st = NoSoln -> forall x, ~ slab n e g b0 b1 x) /\
    (st <> Success -> e' = with_tsq e (width2 n e g)).
Proof. exact q_par_sound. Qed.
Print Assumptions C14_C15_parallel_q.

Theorem C14_unchecked_refuted : exists n e g b0 b1 e' x, (2 <= n)%nat /\ valid n e /\ vecn n g /\ 0 < width2 n e g /\
  b0 <= b1 /\ ubias parallel e (g, PC b0 (Some b1)) = Ok (e', Success) /\ slab n e g b0 b1 x /\ ~ pts n e' x.
Proof. exact par_bias_drops_point. Qed.
Print Assumptions C14_unchecked_refuted.

Example C14_case : valid 2 egg /\ vecn 2 g12 /\ 0 < width2 2 egg g12 /\ 0 <= width2 2 egg g12 + INR 2 * (-2 * 3) /\
  slab 2 egg g12 (-2) 3 (centre egg).
Proof.
  split; [apply egg_proper|]. split; [exact g12_vec|]. rewrite egg_width. split; [lra|]. split; [simpl; lra|].
  split.
  - exists (fun _ => 0). split.
    + intros i Hi. rewrite mv2. ring.
    + rewrite quad2. unfold kap. simpl. lra.
  - rewrite along2. lra.
Qed.

(** ** C15: the far side *)
Theorem C15_far_side : forall n e g b0 b1, (2 <= n)%nat -> valid n e -> vecn n g -> 0 < width2 n e g ->
  e_no_defer e = false -> b0 <= b1 -> b1 < - sqrt (width2 n e g) ->
  exists e', uq parallel e (g, PC b0 (Some b1)) = Ok (e', Success) /\
    (forall x, ~ slab n e g b0 b1 x) /\ kap e' < 0.
Proof. exact par_far_side. Qed.
Print Assumptions C15_far_side.

Example C15_case : valid 2 disc /\ 0 < width2 2 disc gx /\ -2 < - sqrt (width2 2 disc gx) /\ e_no_defer disc = false.
Proof.
  split; [apply disc_proper|]. rewrite disc_width, sqrt_1. split; [lra|]. split; [lra|reflexivity].
Qed.

(** ** C16 *)
Theorem C16_parallel_central : forall n e g b0 b1, (2 <= n)%nat -> valid n e -> vecn n g -> 0 < width2 n e g ->
  exists e' st, ucentral parallel e (g, PC b0 (Some b1)) = Ok (e', st) /\
    (0 <= b1 -> st = Success) /\ (b1 < 0 -> st = NoSoln) /\
    (forall x, slab n e g 0 b1 x -> pts n e' x) /\
    (st = NoSoln -> forall x, ~ slab n e g 0 b1 x).
Proof. exact central_par_keeps. Qed.
Print Assumptions C16_parallel_central.

Example C16_case : valid 2 egg /\ 0 < width2 2 egg g12 /\ slab 2 egg g12 0 3 (centre egg).
Proof.
  split; [apply egg_proper|]. rewrite egg_width. split; [lra|]. destruct C14_case as (_ & _ & _ & _ & [H _]).
  split; auto. rewrite along2. lra.
Qed.

(** ** C21 *)
Theorem C21_rejected_unchanged : forall (N : Num) C (ct : CutType N C) m e g c e' st,
  apply_cut ct m e (g, c) = Ok (e', st) -> st <> Success ->
  e_mq e' = e_mq e /\ e_xc e' = e_xc e /\ e_kappa e' = e_kappa e /\ e_no_defer e' = e_no_defer e /\
  exists gt om, a_dot_mv (e_mq e) g = Ok gt /\ a_dot g gt = Ok om /\ e_tsq e' = (e_kappa e *! om)%num.
Proof. exact @rejected_unchanged. Qed.
Print Assumptions C21_rejected_unchanged.

Example C21_case : exists e', apply_cut (N := RNum) single Bias disc (gx, SC 2) = Ok (e', NoSoln) /\ NoSoln <> Success.
Proof. destruct C11_case as ((e' & E) & _). exists e'. split; [exact E|discriminate]. Qed.

(** ** C22 *)
Theorem C22_bitwise_symmetric : forall (N : Num) C (ct : CutType N C) m n e g c, ell_wf n e -> is_vec n g ->
  exists e' st, apply_cut ct m e (g, c) = Ok (e', st) /\ (st = Success ->
    forall i j, (i < n)%nat -> (j < n)%nat ->
      nth (i * n + j) (adata (e_mq e')) n0 = nth (j * n + i) (adata (e_mq e')) n0).
Proof.
  exact (fun N C ct m n e g c Hw Hg => match apply_cut_ok ct m n e g c Hw Hg with
    ex_intro _ e' (ex_intro _ st (conj E (conj _ (conj _ (conj _ (conj H _)))))) =>
    ex_intro _ e' (ex_intro _ st (conj E H)) end).
Qed.
Print Assumptions C22_bitwise_symmetric.

Theorem C22_C26_sequences : forall (N : Num) C (ct : CutType N C) n cuts e,
  ell_wf n e -> Forall (fun mc => is_vec n (fst (snd mc))) cuts ->
  exists e' tr, run_cuts ct e cuts = Ok (e', tr) /\ ell_wf n e' /\
    ((bit_sym n e \/ Exists (fun s => fst (fst s) = Success) tr) -> bit_sym n e').
Proof. exact @run_cuts_ok. Qed.
Print Assumptions C22_C26_sequences.

Example C22_case : ell_wf 2 egg /\ is_vec 2 g12 /\ bit_sym (N := RNum) 2 egg.
Proof.
  split; [apply valid_wf, egg_proper|]. split; [exact g12_vec|].
  exact (v_sym _ _ (proj1 egg_proper)).
Qed.

(** ** C23 *)
Theorem C23_single_stays_definite : forall m n e g beta, (2 <= n)%nat -> proper n e -> vecn n g ->
  (exists i, (i < n)%nat /\ coords g i <> 0) -> good_single m n (sqrt (width2 n e g)) beta ->
  exists e' st, apply_cut (N := RNum) single m e (g, SC beta) = Ok (e', st) /\ proper n e'.
Proof. exact single_proper. Qed.
Print Assumptions C23_single_stays_definite.

Theorem C23_parallel_stays_definite : forall n e g b0 b1, (2 <= n)%nat -> proper n e -> vecn n g ->
  (exists i, (i < n)%nat /\ coords g i <> 0) ->
  b0 < b1 -> - sqrt (width2 n e g) < b1 -> b0 < sqrt (width2 n e g) ->
  exists e' st, uq parallel e (g, PC b0 (Some b1)) = Ok (e', st) /\ proper n e'.
Proof. exact par_q_proper. Qed.
Print Assumptions C23_parallel_stays_definite.

Example C23_case : proper 2 egg /\ (exists i, (i < 2)%nat /\ coords g12 i <> 0) /\
  good_single Bias 2 (sqrt (width2 2 egg g12)) 1 /\ - sqrt (width2 2 egg g12) < 3 /\ -2 < sqrt (width2 2 egg g12).
Proof.
  split; [exact egg_proper|]. split; [exact g12_nz|]. rewrite egg_width.
  assert (1 < sqrt 40) by (rewrite <- sqrt_1; apply sqrt_lt_1; lra). simpl. lra.
Qed.

(** ** C24 *)
Theorem C24_tsq_set : forall C (ct : CutType RNum C) m n e g c e' st, valid n e -> vecn n g ->
  apply_cut (N := RNum) ct m e (g, c) = Ok (e', st) -> e_tsq e' = width2 n e g.
Proof. exact @tsq_is_width. Qed.
Print Assumptions C24_tsq_set.

Theorem C24_width_is_maximum : forall n e g, valid n e -> vecn n g ->
  (forall x, pts n e x -> along n (coords g) x (centre e) <= sqrt (width2 n e g)) /\
  (exists x, pts n e x /\ along n (coords g) x (centre e) = sqrt (width2 n e g)).
Proof. exact width_sup. Qed.
Print Assumptions C24_width_is_maximum.

Example C24_case : valid 2 egg /\ vecn 2 g12 /\ width2 2 egg g12 = 40.
Proof. split; [apply egg_proper|]. split; [exact g12_vec|exact egg_width]. Qed.

(** ** C25 *)
Theorem C25_no_defer : forall C (ct : CutType RNum C) n cuts e, valid n e -> e_no_defer e = false ->
  Forall (fun mc => vecn n (fst (snd mc))) cuts -> widths_nonzero ct n e cuts ->
  exists e1 e2 tr,
    run_cuts (N := RNum) ct e cuts = Ok (e1, tr) /\
    run_cuts (N := RNum) ct (mkEll (N := RNum) true (e_mq e) (e_xc e) (e_kappa e) (e_helper e) (e_tsq e)) cuts = Ok (e2, tr) /\
    (forall i j, (i < n)%nat -> (j < n)%nat -> kap e1 * shape n e1 i j = kap e2 * shape n e2 i j) /\
    (valid n e1 -> valid n e2 -> forall x, pts n e1 x <-> pts n e2 x).
Proof.
  exact (fun C ct n cuts e V _ HF HW => match same_run ct n cuts e _ (same_flag n e V) eq_refl HF HW with
    ex_intro _ e1 (ex_intro _ e2 (ex_intro _ tr (conj E1 (conj E2 H)))) =>
    ex_intro _ e1 (ex_intro _ e2 (ex_intro _ tr (conj E1 (conj E2 (conj
      (proj2 (proj2 (proj2 (proj2 (proj2 (proj2 H))))))
      (fun V1 V2 => same_pts n e1 e2 V1 V2 H)))))) end).
Qed.
Print Assumptions C25_no_defer.

Example C25_case : valid 2 egg /\ e_no_defer egg = false /\ widths_nonzero single 2 egg [(Bias, (g12, SC 1))].
Proof.
  split; [apply egg_proper|]. split; [reflexivity|]. simpl. split; auto. rewrite egg_width. lra.
Qed.

(** ** C26 *)
Theorem C26_new_with_scalar : forall n (val : R) (xc : Arr RNum), (0 < n)%nat -> 0 < val -> length (adata xc) = n ->
  exists e, ell_new_with_scalar (N := RNum) val xc = Ok e /\ proper n e /\
    forall x, pts n e x <-> Rsum n (fun i => (x i - coords xc i) * (x i - coords xc i)) <= val.
Proof. exact new_scalar_real. Qed.
Print Assumptions C26_new_with_scalar.

Theorem C26_new : forall n (val xc : Arr RNum), (0 < n)%nat -> vecn n val -> (forall i, (i < n)%nat -> 0 < coords val i) ->
  length (adata xc) = n ->
  exists e, ell_new (N := RNum) val xc = Ok e /\ proper n e /\
    forall x, pts n e x <-> Rsum n (fun i => (x i - coords xc i) * (x i - coords xc i) / coords val i) <= 1.
Proof. exact new_diag_real. Qed.
Print Assumptions C26_new.

Theorem C26_new_with_matrix : forall n W (kappa : R) (mq xc : Arr RNum),
  let e := ell_new_with_matrix (N := RNum) kappa mq xc in
  sym n (shape n e) -> inverse n (shape n e) W ->
  forall x, pts n e x <-> quad n W (fun i => x i - coords xc i) <= kappa.
Proof. exact (fun n W kappa mq xc HS HI x => in_ell_inverse n _ W kappa (coords xc) x HS HI). Qed.
Print Assumptions C26_new_with_matrix.

Example C26_case : let e := ell_new_with_matrix (N := RNum) 2 (mkArr (N := RNum) [4; 1; 1; 3] 2 2) (vR [1; -1]) in
  sym 2 (shape 2 e) /\ inverse 2 (shape 2 e) (fun i j => if Nat.eqb i j then match i with O => 3/11 | _ => 4/11 end else -1/11).
Proof.
  split.
  - ij2; reflexivity.
  - ij2; unfold mulmm, mtx_one, shape; simpl; split; field.
Qed.
