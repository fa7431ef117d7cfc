(** Oracles over integer designs for cutting_plane_optim_q, and a run that stops too early. *)
From Coq Require Import Reals List Arith Lia Lra Psatz Bool ZArith.
From Verif Require Import Num Res Arr CuttingPlane EllCalc Ell EllRun ArrLemmas EllLemmas Spec RealLin CutScalar EllSpec EllReal EllCuts EllMore
  DriverSpec DriverProofs2 RunSpec RunQSpec RunProofs RunQ EllWitness.
Import ListNotations.
Open Scope R_scope.

(** A run with an oracle that always answers always returns. *)
Lemma optim_q_returns {C O} (ct : CutType RNum C) n (Inv : O -> R -> Prop) (ora : OracleOptimQ RNum (Arr RNum) C O) (opt : Options RNum) o (e : Ell RNum) (gamma : R) :
  (forall o x (ga : R) r, Inv o ga -> vecn n x -> exists o' (ga' : R) g c sh xq more, ora o x ga r = Ok (o', ga', ((g, c), sh, xq, more)) /\ Inv o' ga' /\ vecn n g) ->
  Inv o gamma -> ell_wf n e -> vecn n (e_xc e) ->
  exists o' e' (gamma' : R) ans k, cutting_plane_optim_q ora (ell_space (N := RNum) ct) opt o e gamma = Ok (o', e', gamma', (ans, k)).
Proof.
  intros Ht Hi Hw Hx. rewrite optim_q_unfold.
  match goal with |- context [loop_up ?k ?lo ?body ?st] =>
    assert (L := loop_up_inv (fun _ '((o, s, ga, _, _) : O * Ell RNum * num RNum * option (Arr RNum) * bool) => Inv o ga /\ ell_wf n s /\ vecn n (e_xc s))
      (fun _ => True) k lo body st); destruct L as [([[[[o1 s1] ga1] b1] r1] & E & _)|([[[o1 s1] ga1] [b1 k1]] & E & _)] end.
  - auto.
  - intros i [[[[o1 s1] ga1] b1] r1] _ (HI & HW & HX).
    destruct (Ht o1 (e_xc s1) ga1 r1 HI HX) as (o2 & ga2 & g & c & sh & xq & more & Ea & HI2 & Hg).
    destruct (ell_update_core_ok (N := RNum) n s1 g (cut_core (N := RNum) ct Quantised s1 c) HW Hg) as (s2 & st & rho & sigma & delta & _ & E2 & _).
    rewrite <- apply_cut_core in E2. change (uq ct s1 (g, c) = Ok (s2, st)) in E2.
    destruct (q_update ct n s1 g c s2 st HW HX Hg E2) as [HW2 HX2].
    unfold optim_q_body. cbn [sp_xc ell_space]. rewrite Ea. cbn [bind].
    assert (K : forall b r, (exists t', (let fin (retry : bool) := if sp_tsq (ell_space (N := RNum) ct) s2 <?! tolerance opt then Ok (Done (o2, s2, ga2, (b, i))) else Ok (Next (o2, s2, ga2, b, retry)) in
        match st with Success => fin false | NoSoln => Ok (Done (o2, s2, ga2, (b, i))) | NoEffect => if negb more then Ok (Done (o2, s2, ga2, (b, i))) else fin true | Unknown => fin r end) = Ok (Next t') /\
        (let '(o, s, ga, _, _) := t' in Inv o ga /\ ell_wf n s /\ vecn n (e_xc s))) \/
      (exists q, (let fin (retry : bool) := if sp_tsq (ell_space (N := RNum) ct) s2 <?! tolerance opt then Ok (Done (o2, s2, ga2, (b, i))) else Ok (Next (o2, s2, ga2, b, retry)) in
        match st with Success => fin false | NoSoln => Ok (Done (o2, s2, ga2, (b, i))) | NoEffect => if negb more then Ok (Done (o2, s2, ga2, (b, i))) else fin true | Unknown => fin r end) = Ok (Done q : ctl (O * Ell RNum * num RNum * option (Arr RNum) * bool) _) /\ True)).
    { intros b r. cbv zeta. destruct st; [| |destruct more; cbn [negb]|]; try (destruct (_ <?! _));
      first [right; eexists; split; [reflexivity|exact I] | left; eexists; split; [reflexivity|exact (conj HI2 (conj HW2 HX2))]]. }
    destruct sh; change (sp_update_q (ell_space (N := RNum) ct) s1 (g, c)) with (uq ct s1 (g, c)); rewrite E2; cbn [bind]; apply K.
  - rewrite E. cbn [bind]. repeat eexists.
  - rewrite E. cbn [bind]. repeat eexists.
Qed.

(** Minimise the first coordinate over the integers from 1 on: the cut goes
    through the integer above the centre, so it is shallow. *)
Definition int_beats (y : vec) (gamma : R) : Prop := (exists k, y 0%nat = IZR k) /\ 1 <= y 0%nat /\ y 0%nat < gamma.
Definition int_oracle : OracleOptimQ RNum (Arr RNum) (SingleCut RNum) unit := fun _ x (gamma : R) _ =>
  let x0 : R := vget (N := RNum) x 0 in
  if Raux.Rlt_bool x0 1 then Ok (tt, gamma, ((vR [-1; 0], SC (1 - x0)), false, x, true))
  else let q := IZR (up x0) in
  if Raux.Rlt_bool q gamma then Ok (tt, q, ((vR [1; 0], SC (x0 - q)), true, vR [q; 0], true))
  else Ok (tt, gamma, ((vR [1; 0], SC (x0 - gamma)), false, x, true)).
Definition int_slab : OracleOptimQ RNum (Arr RNum) (ParallelCut RNum) unit := fun _ x (gamma : R) _ =>
  let x0 : R := vget (N := RNum) x 0 in
  let q := IZR (up x0) in
  if Raux.Rle_bool 1 x0 && Raux.Rlt_bool q gamma
  then Ok (tt, q, ((vR [1; 0], PC (x0 - q) (Some (x0 - 1))), true, vR [q; 0], true))
  else Ok (tt, gamma, ((vR [1; 0], PC (x0 - gamma) (Some (x0 - 1))), false, x, true)).

Lemma vR2 a b : vecn 2 (vR [a; b]). Proof. split; reflexivity. Qed.
Lemma along_x a (y : vec) (x : Arr RNum) : along 2 (coords (vR [a; 0])) y (coords x) = a * (y 0%nat - vget (N := RNum) x 0).
Proof. rewrite along2. unfold coords, vget. cbn. ring. Qed.
Lemma int_cuts : optim_q_cuts single_sat 2 (fun _ _ => True) int_beats int_oracle.
Proof.
  intros o x gamma retry o' gamma' g c sh xq more _ Hx E. unfold int_oracle in E. cbv zeta in E. cbn [num RNum] in *.
  set (x0 := vget (N := RNum) x 0) in *. cbn [num RNum] in x0.
  destruct (Raux.Rlt_bool x0 1) eqn:B1; [|destruct (Raux.Rlt_bool (IZR (up x0)) gamma) eqn:B2]; inversion E; subst; clear E;
  (split; [exact I|]); (split; [apply vR2|]); unfold int_beats, single_sat; cbn [sc_beta offset]; (split; [|intros y (Hk & H1 & H2); rewrite along_x; fold x0; lra]).
  - auto.
  - intros y (Hk & H1 & H2). apply Rlt_bool_iff in B2. split; [auto|lra].
  - auto.
Qed.
Lemma int_slab_cuts : optim_q_cuts parallel_sat 2 (fun _ _ => True) int_beats int_slab.
Proof.
  intros o x gamma retry o' gamma' g c sh xq more _ Hx E. unfold int_slab in E. cbv zeta in E. cbn [num RNum] in *.
  set (x0 := vget (N := RNum) x 0) in *. cbn [num RNum] in x0.
  destruct (Raux.Rle_bool 1 x0 && Raux.Rlt_bool (IZR (up x0)) gamma) eqn:B; inversion E; subst; clear E;
  (split; [exact I|]); (split; [apply vR2|]); unfold int_beats, parallel_sat; cbn [pc_beta0 pc_beta1 offset]; (split; [|intros y (Hk & H1 & H2); rewrite along_x; fold x0; lra]).
  - intros y (Hk & H1 & H2). apply andb_true_iff in B as [_ B2]. apply Rlt_bool_iff in B2. split; [auto|lra].
  - auto.
Qed.
Lemma int_more : always_more int_oracle /\ always_more int_slab.
Proof.
  split; intros o x gamma retry o' gamma' cut sh xq more E; unfold int_oracle, int_slab in E; cbv zeta in E;
  repeat match type of E with context [if ?b then _ else _] => destruct b end; now inversion E.
Qed.
Lemma int_runs (opt : Options RNum) (e : Ell RNum) (gamma : R) : ell_wf 2 e -> vecn 2 (e_xc e) ->
  (exists o' e' (gamma' : R) ans k, cutting_plane_optim_q int_oracle (ell_space (N := RNum) single) opt tt e gamma = Ok (o', e', gamma', (ans, k))) /\
  (exists o' e' (gamma' : R) ans k, cutting_plane_optim_q int_slab (ell_space (N := RNum) parallel) opt tt e gamma = Ok (o', e', gamma', (ans, k))).
Proof.
  intros Hw Hx. split; apply (optim_q_returns _ 2 (fun _ _ => True)); auto; intros o x ga r _ _; unfold int_oracle, int_slab; cbv zeta;
  repeat match goal with |- context [if ?b then _ else _] => destruct b end; do 7 eexists; (split; [reflexivity|split; [exact I|apply vR2]]).
Qed.

(** The integer 1 is the only integer in the slab 1 <= x < 2, and a disc that
    reaches it contains it after any run started at level 2. *)
Lemma int_kept : int_beats (fun i => match i with O => 1 | _ => 0 end) 2.
Proof. split; [exists 1%Z; reflexivity|lra]. Qed.

(** Without alternatives, a run can stop although better points are left. *)
Lemma stops_early : exists (O : Type) (Inv : O -> R -> Prop) beats (ora : OracleOptimQ RNum (Arr RNum) (SingleCut RNum) O) (opt : Options RNum) o (e : Ell RNum) (gamma : R) o' e' (gamma' : R) ans k y,
  optim_q_cuts single_sat 2 Inv beats ora /\ Inv o gamma /\ valid 2 e /\ vecn 2 (e_xc e) /\ 0 < tolerance opt /\
  cutting_plane_optim_q ora (ell_space (N := RNum) single) opt o e gamma = Ok (o', e', gamma', (ans, k)) /\
  (k < max_iters opt)%nat /\ tolerance opt <= e_tsq e' /\ pts 2 e y /\ beats y gamma'.
Proof.
  exists unit, (fun _ _ => True), (fun y (_ : R) => y 0%nat = 0), (fun _ x ga _ => Ok (tt, ga, ((vR [1; 0], SC (vget (N := RNum) x 0 - 1)), false, x, false))),
    (mkOptions (N := RNum) 10 (1 / 2)), tt, disc, 0, tt, (with_tsq disc 1), 0, None, 0%nat, (fun _ => 0).
  split; [|split; [exact I|]].
  { intros o x gamma retry o' gamma' g c sh xq more _ Hx E. inversion E; subst. split; [exact I|]. split; [apply vR2|]. split; [auto|].
    intros y Hy. unfold single_sat. cbn [sc_beta offset]. rewrite along_x, Hy. lra. }
  split; [exact (proj1 disc_proper)|]. split; [split; reflexivity|]. split; [cbn; lra|]. split.
  - rewrite optim_q_unfold. cbn [max_iters loop_up].
    assert (E : uq single disc (gx, SC (-1)) = Ok (with_tsq disc 1, NoEffect)).
    { rewrite <- disc_width.
      assert (V : valid 2 disc) by exact (proj1 disc_proper).
      assert (Es : (fun t => call_q single (e_helper disc) (SC (-1)) t) (width2 2 disc gx) = (NoEffect, (0, 0, 1))).
      { cbn beta. change (calc_bias_cut_q (N := RNum) (calc_new 2) (-1) (width2 2 disc gx) = (NoEffect, (0, 0, 1))).
        rewrite calc_bias_q_eq, disc_width. rewrite sqrt_1.
        destruct (Raux.Rlt_bool 1 (-1)) eqn:B1; [apply Rlt_bool_iff in B1; lra|].
        destruct (Raux.Rlt_bool (1 + INR 2 * -1) 0) eqn:B2; [reflexivity|apply Rlt_bool_no in B2; cbn in B2; lra]. }
      destruct (core_run 2 disc gx _ _ _ _ _ V gx_vec Es) as (e2 & E2 & H & _). rewrite H in E2 by discriminate. exact E2. }
    unfold optim_q_body at 1. cbn [sp_xc ell_space]. cbn [bind].
    change (vget (N := RNum) (e_xc disc) 0) with 0. replace (0 - 1) with (-1) by lra.
    change (sp_update_q (ell_space (N := RNum) single) disc (vR [1; 0], SC (-1))) with (uq single disc (gx, SC (-1))). rewrite E. reflexivity.
  - split; [cbn; lia|]. split; [cbn; lra|]. split; [apply disc_pts; lra|reflexivity].
Qed.
