(** Concrete queries of the profit oracles. *)
From Coq Require Import ZArith Reals List Bool Arith Lia Lra Psatz.
From Flocq Require Import Core.
From Verif Require Import Num Res Arr CuttingPlane Spec EllReal LdltProofs LmiSpec Examples ExSpec ExProofs Profit ProfitSpec ProfitProofs ProfitReal ProfitMore ProfitQ.
Import ListNotations.
Open Scope R_scope.

Definition rv (a b : R) : Arr RNum := vec2 (N := RNum) a b.
Lemma two_rv a b : two (rv a b).
Proof. split; reflexivity. Qed.
Ltac rnum := change (nltb (n := RNum)) with Rlt_bool in *; change (neqb (n := RNum)) with Req_bool in *; unfold n0, n1 in *; cbn [nadd nsub nopp nmul ndiv nexp nln nround nsum0 RNum nZ] in *.

(** with a negative gamma a cut can exclude a better feasible point *)
Lemma profit_negative : exists unit_price scale limit elast price_out y (gamma : R) p' gamma' g beta b u,
  let m := mkMarket (unit_price * scale) limit (xvec elast) (xvec price_out) in
  two elast /\ two price_out /\ two y /\ sane m /\ gamma < 0 /\
  profit_assess (N := RNum) (profit_new (N := RNum) unit_price scale limit elast price_out) y gamma = Ok (p', gamma', ((g, mkSingle (N := RNum) beta), b)) /\
  mfeas m (u 0%nat) (u 1%nat) /\ gamma' < mprofit m (u 0%nat) (u 1%nat) /\
  0 < dot 2 (xvec g) (fun i => u i - xvec y i) + beta.
Proof.
  exists 1, 1, 4, (rv 0 0), (rv 1 0), (rv (ln 3) 0), (-1).
  do 5 eexists. exists (fun i => match i with O => ln (195 / 100) | _ => 0 end). cbv zeta.
  do 3 (split; [split; reflexivity|]). split; [unfold sane; cbn; lra|]. split; [lra|].
  assert (L34 : ln 3 < ln 4) by (apply ln_increasing; lra).
  split.
  { unfold profit_assess, profit_feas, round_robin, loop_range, profit_new, rv. pdc. rnum.
    rewrite (proj2 (Rlt_bool_no _ _)) by lra. pdc. rnum.
    assert (T : 0 < ln (-1 + (1 * exp (ln 3) + 0 * exp 0)) - (ln (1 * 1) + (-0 + 0 * ln 3 + 0 * 0))).
    { rewrite exp_ln by lra. replace (1 * 1) with 1 by ring. rewrite ln_1. replace (-1 + (1 * 3 + 0 * exp 0)) with 2 by ring.
      rewrite <- ln_1 at 1. assert (ln 1 < ln 2) by (apply ln_increasing; lra). rewrite ln_1 in *. lra. }
    match goal with |- context [Rlt_bool 0 ?e] => replace (Rlt_bool 0 e) with true end.
    2: { symmetry. apply Rlt_bool_iff. unfold isum; cbn [fold_left]; rnum. eapply Rlt_le_trans; [exact T|]. apply Req_le. f_equal. ring. }
    pdc. reflexivity. }
  split; [unfold mfeas; cbn; rewrite exp_ln by lra; lra|].
  split.
  { unfold mprofit, profit_at. cbn. rnum. unfold Rpower. rewrite !exp_ln, !Rmult_0_l, !exp_0 by lra. lra. }
  unfold dot. cbn. unfold xvec. pdc. rnum.
  rewrite exp_ln by lra. replace (-1 + (1 * 3 + 0 * exp 0)) with 2 by ring. replace (1 * 1) with 1 by ring. rewrite ln_1.
  assert (K : ln (3 * 3 * 3) < ln (195 / 100 * (195 / 100) * (195 / 100) * (2 * 2))) by (apply ln_increasing; lra).
  repeat rewrite ln_mult in K by lra. lra.
Qed.

(** the cut the quantised oracle returns can exclude a better integer point *)
Lemma q_wrong_shift : exists unit_price scale limit elast price_out y (gamma : R) o' gamma' g beta s x more u,
  let m := mkMarket (unit_price * scale) limit (xvec elast) (xvec price_out) in
  two elast /\ two price_out /\ two y /\ sane m /\ 0 <= gamma /\
  profit_q_assess (N := RNum) (profit_q_new (N := RNum) unit_price scale limit elast price_out) y gamma false
    = Ok (o', gamma', ((g, mkSingle (N := RNum) beta), s, x, more)) /\
  (forall i, (i < 2)%nat -> exists z, (1 <= z)%Z /\ u i = ln (IZR z)) /\
  mfeas m (u 0%nat) (u 1%nat) /\ gamma' + 10 < mprofit m (u 0%nat) (u 1%nat) /\
  0 < dot 2 (xvec g) (fun i => u i - xvec y i) + beta /\
  dot 2 (xvec g) (fun i => u i - xvec y i) + (beta - 2 * dot 2 (xvec g) (fun i => xvec x i - xvec y i)) <= 0.
Proof.
  exists 100, 1, (145 / 100), (rv (9 / 10) (1 / 2)), (rv 5 30), (rv (ln (7 / 5)) 0), 0.
  do 7 eexists. exists (fun i => match i with O => 0 | _ => ln 2 end). cbv zeta.
  do 3 (split; [split; reflexivity|]). split; [unfold sane; cbn; lra|]. split; [lra|].
  assert (L1 : 0 < ln (7 / 5)) by (rewrite <- ln_1; apply ln_increasing; lra).
  assert (L2 : ln (7 / 5) < ln (145 / 100)) by (apply ln_increasing; lra).
  assert (L3 : ln 37 < ln 100) by (apply ln_increasing; lra).
  assert (L4 : ln 35 < ln 100) by (apply ln_increasing; lra).
  assert (Z1 : ZnearestA (7 / 5) = 1%Z) by (apply Znearest_imp; apply Rabs_def1; lra).
  assert (Z2 : ZnearestA 1 = 1%Z) by (apply Znearest_imp; apply Rabs_def1; lra).
  assert (N1 : Req_bool 1 0 = false) by (apply Req_bool_no; lra).
  split.
  { unfold profit_q_assess, profit_q_new, profit_new, rv. cbn [negb pq_omega pq_yd].
    assert (E1 : profit_feas (N := RNum) (mkProfit (N := RNum) (-1) (ln (100 * 1)) (ln (145 / 100)) (vec2 (N := RNum) 5 30) (vec2 (N := RNum) (9 / 10) (1 / 2)) 0 0 (a_new (N := RNum) 2)) (vec2 (N := RNum) (ln (7 / 5)) 0) 0 =
      Ok (mkProfit (N := RNum) 1 (ln (100 * 1)) (ln (145 / 100)) (vec2 (N := RNum) 5 30) (vec2 (N := RNum) (9 / 10) (1 / 2)) (ln (100 * 1) + (0 + 9 / 10 * ln (7 / 5) + 1 / 2 * 0)) (5 * exp (ln (7 / 5)) + 30 * exp 0) (vec2 (N := RNum) (5 * exp (ln (7 / 5))) (30 * exp 0)), None)).
    { unfold profit_feas, round_robin, loop_range. pdc. rnum.
      rewrite (proj2 (Rlt_bool_no _ _)) by lra. pdc. rnum. unfold isum. cbn [fold_left]. rnum.
      match goal with |- context [Rlt_bool 0 ?e] => replace (Rlt_bool 0 e) with false end.
      2: { symmetry. apply Rlt_bool_no. rewrite exp_ln, exp_0 by lra. replace (0 + (5 * (7 / 5) + 30 * 1)) with 37 by field. replace (100 * 1) with 100 by ring. lra. }
      reflexivity. }
    match goal with |- context [profit_feas ?a ?b ?c] => replace (profit_feas a b c) with (profit_feas (N := RNum) (mkProfit (N := RNum) (-1) (ln (100 * 1)) (ln (145 / 100)) (vec2 (N := RNum) 5 30) (vec2 (N := RNum) (9 / 10) (1 / 2)) 0 0 (a_new (N := RNum) 2)) (vec2 (N := RNum) (ln (7 / 5)) 0) 0) by reflexivity end.
    rewrite E1. cbn [bind].
    assert (E2 : profit_q_round (N := RNum) (vec2 (N := RNum) (ln (7 / 5)) 0) = Ok (vec2 (N := RNum) (ln 1) (ln 1))).
    { unfold profit_q_round. cbn -[IZR Req_bool ZnearestA]. rewrite exp_ln, exp_0, Z1, Z2, N1 by lra. cbn -[IZR Req_bool]. rewrite ?exp_0, ?Z2, N1. cbn -[IZR ZnearestA]. cbn [bind]. unfold a_map. cbn -[IZR ZnearestA]. unfold a_mapd, vec2, a_from. cbn [map adata arows acols]. rewrite exp_ln, exp_0, Z1, Z2 by lra. reflexivity. }
    rewrite E2. cbn [bind].
    match goal with |- context [profit_assess ?p ?a ?c] => replace (profit_assess p a c) with (profit_assess (N := RNum) p (vec2 (N := RNum) 0 0) 0) by (rewrite ln_1; reflexivity) end.
    unfold profit_assess, profit_feas, round_robin, loop_range. pdc. rnum.
    rewrite (proj2 (Rlt_bool_no _ _)) by lra. pdc. rnum. unfold isum. cbn [fold_left]. rnum.
    match goal with |- context [Rlt_bool 0 ?e] => replace (Rlt_bool 0 e) with false end.
    2: { symmetry. apply Rlt_bool_no. rewrite exp_0. replace (0 + (5 * 1 + 30 * 1)) with 35 by field. replace (100 * 1) with 100 by ring. lra. }
    pdc. reflexivity. }
  split. { intros [|[|]] Hi; try lia; [exists 1%Z; rewrite ln_1|exists 2%Z]; (split; [lia|reflexivity]). }
  unfold mfeas, mprofit, profit_at, dot, xvec, isum. cbn -[IZR]. rnum.
  assert (EG : exp (ln (100 * 1) + (0 + 9 / 10 * 0 + 1 / 2 * 0)) = 100).
  { replace (ln (100 * 1) + (0 + 9 / 10 * 0 + 1 / 2 * 0)) with (ln 100) by (rewrite Rmult_1_r; field). apply exp_ln. lra. }
  rewrite ?EG, ?exp_0, ?ln_1.
  split; [lra|]. split.
  - unfold Rpower. rewrite ln_1, exp_ln by lra. rewrite Rmult_0_r, exp_0.
    assert (S2 : 14 / 10 < exp (1 / 2 * ln 2)).
    { rewrite <- (exp_ln (14 / 10)) by lra. apply exp_increasing.
      assert (ln (14 / 10 * (14 / 10)) < ln 2) by (apply ln_increasing; lra). rewrite ln_mult in H by lra. lra. }
    lra.
  - assert (K : ln 2 < ln (7 / 5 * (7 / 5 * (7 / 5)))) by (apply ln_increasing; lra). rewrite !ln_mult in K by lra.
    assert (0 < ln 2) by (rewrite <- ln_1; apply ln_increasing; lra).
    split; lra.
Qed.

(** a query that improves, and one that is cut by each constraint *)
Definition case_market : market := mkMarket 100 2 (xvec (rv (9 / 10) (1 / 2))) (xvec (rv 5 30)).
Definition case_oracle : Profit RNum := profit_new (N := RNum) 50 2 2 (rv (9 / 10) (1 / 2)) (rv 5 30).
Lemma case_ok : profit_ok case_oracle /\ about case_oracle case_market /\ sane case_market.
Proof.
  split; [apply (profit_new_ok (N := RNum)); apply two_rv|]. split.
  - pose proof (profit_new_about 50 2 2 (rv (9 / 10) (1 / 2)) (rv 5 30)) as (A & B & C). cbn in A, B, C.
    split; [|split; [exact B|exact C]]. cbn. f_equal. ring.
  - unfold sane. cbn. lra.
Qed.
Lemma case_yes : exists p' g, profit_assess (N := RNum) case_oracle (rv 0 0) 0 = Ok (p', 65, ((g, mkSingle (N := RNum) 0), true)).
Proof.
  destruct case_ok as (A & B & C). destruct (profit_good case_oracle case_market (rv 0 0) 0 A B C (two_rv _ _) ltac:(lra)) as (p' & gamma' & g & beta & b & E & _ & _ & _ & [_ Be Ye _ _]).
  assert (M : mprofit case_market 0 0 = 65).
  { unfold mprofit, profit_at, Rpower. cbn. rewrite !exp_0, ln_1, !Rmult_0_r, exp_0. lra. }
  assert (K : b = true).
  { apply Be. unfold mfeas. cbn -[mprofit]. change (nZ (n := RNum) 0) with 0. rewrite exp_0. split; [lra|]. rewrite M. lra. }
  destruct (Ye K) as [Y1 Y2]. subst b. change (gamma' = mprofit case_market 0 0) in Y1. rewrite M in Y1. subst. eauto.
Qed.
Lemma case_no : exists p' gamma' g beta, profit_assess (N := RNum) case_oracle (rv 1 0) 0 = Ok (p', gamma', ((g, mkSingle (N := RNum) beta), false)) /\ 0 < beta.
Proof.
  destruct case_ok as (A & B & C). destruct (profit_good case_oracle case_market (rv 1 0) 0 A B C (two_rv _ _) ltac:(lra)) as (p' & gamma' & g & beta & b & E & _ & _ & _ & [_ Be Ye No _]).
  destruct b.
  - exfalso. destruct (proj1 Be eq_refl) as [K _]. unfold mfeas in K. cbn in K. pose proof (exp_ineq1 1). lra.
  - exists p', gamma', g, beta. split; [exact E|]. apply No. reflexivity.
Qed.
Definition case_box : box := mkBox 100 2 (xvec (rv 5 30)) (xvec (rv (9 / 10) (1 / 2))) (fun i => match i with O => 1 / 10 | _ => 1 / 5 end).
Lemma case_robust : box_sane case_box /\
  exists r, profit_rb_new (N := RNum) 51 2 3 (rv (9 / 10) (1 / 2)) (rv 4 29) (1 / 10) (1 / 5) 1 1 1 = Ok r /\ rb_ok r /\ rb_about r case_box.
Proof.
  split; [unfold box_sane; cbn; lra|].
  destruct (rb_new_ok (N := RNum) 51 2 3 (rv (9 / 10) (1 / 2)) (rv 4 29) (1 / 10) (1 / 5) 1 1 1 (two_rv _ _) (two_rv _ _)) as (r & E & O & U & El & LP & LK & PO).
  exists r. split; [exact E|]. split; [exact O|]. unfold rb_about. rewrite U, El, LP, LK. split; [cbn; f_equal; ring|]. split; [cbn; f_equal; ring|].
  split; [|split; reflexivity]. intros i Hi. specialize (PO i Hi). change (at_ (p_price_out (rb_omega r)) i) with (xvec (p_price_out (rb_omega r)) i) in PO.
  split; [rewrite PO|reflexivity]. unfold at_. destruct i as [|[|]]; try lia; cbn; ring.
Qed.
