(** Example 3 solved by bsearch: the test of src/example3.rs in exact arithmetic. *)
From Coq Require Import Reals List Arith Lia Lra Psatz Bool ZArith.
From Verif Require Import Num Res Arr CuttingPlane EllCalc Ell EllRun ArrLemmas EllLemmas Spec RealLin CutScalar EllSpec EllReal EllCuts EllMore
  Det DriverSpec RunSpec RunProofs Examples ExSpec ExProofs ExConv BsRun.
Import ListNotations.
Open Scope R_scope.

Lemma ex3_accepts ga x : accepts 2 inv3 (ex3_oracle (N := RNum)) ga x -> prob4 (coords x 0%nat) (coords x 1%nat) /\ obj4 (coords x 0%nat) (coords x 1%nat) <= ga.
Proof.
  intros ([Hl _] & o1 & o2 & [HI HT] & Ho). change (ex3_assess (N := RNum) o1 x = Ok (o2, None)) in Ho.
  destruct (ex3_good o1 x HI ltac:(lia)) as (o3 & r & E2 & _ & _ & Hr & _). rewrite Ho in E2. inversion E2; subst r o3.
  rewrite HT in Hr. exact (proj1 Hr eq_refl).
Qed.
Lemma ex3_near r y : 0 < r <= 1 / 10 -> ball 2 (point2 (-1 + r) (2 - 3 * r)) r y -> prob4 (y 0%nat) (y 1%nat) /\ obj4 (y 0%nat) (y 1%nat) <= -8 + 16 * r.
Proof.
  intros Hr H. unfold prob4, obj4. apply ball2 in H as (a & b & H & -> & ->).
  destruct (in_unit a b r ltac:(lra) H) as [Ha Hb]. split; [split; [|split]|]; lra.
Qed.
Lemma prob4_least a b : prob4 a b -> -8 <= obj4 a b.
Proof. unfold prob4, obj4. lra. Qed.
Lemma prob4_diam a b c d : prob4 a b -> prob4 c d -> (a - c) * (a - c) + (b - d) * (b - d) <= 32.
Proof. unfold prob4. intros. pose proof (sq_bound (a - c) 4 ltac:(lra)). pose proof (sq_bound (b - d) 4 ltac:(lra)). lra. Qed.
Lemma prob4_origin a b : prob4 a b -> a * a + b * b <= 32.
Proof. unfold prob4. intros. pose proof (sq_bound a 4 ltac:(lra)). pose proof (sq_bound b 4 ltac:(lra)). lra. Qed.

Lemma ex3_bsearch (val r l u : R) (opt opt2 : Options RNum) om : 32 <= val -> 0 < r <= 1 / 10 -> tolerance opt <= r * r ->
  (INR 2 + 1) * ln (val ^ 2 / (r * r) ^ 2) < INR (max_iters opt) ->
  (-1 <= ex3_idx om < 4)%Z -> l <= u -> 0 < tolerance opt2 ->
  exists e, ell_new_with_scalar (N := RNum) val origin2 = Ok e /\
  exists b' flag k, bsearch (assess_bs (ex3_oracle (N := RNum)) (ell_space (N := RNum) single)) opt2 (mkAdaptor om e opt) ((l, u) : RNum * RNum) = Ok (b', (l, u), (flag, k)) /\
    (k <= max_iters opt2)%nat /\ (forall i, (i < k)%nat -> tolerance opt2 <= (u - l) / 2 ^ (1 + i)) /\
    (k = max_iters opt2 \/ (u - l) / 2 ^ (1 + k) < tolerance opt2) /\
    let x := coords (e_xc (ba_space b')) in
    (flag = true -> prob4 (x 0%nat) (x 1%nat) /\ obj4 (x 0%nat) (x 1%nat) <= Rmax l (-8 + 16 * r) + (u - l) / 2 ^ k) /\
    (flag = false -> u <= Rmax l (-8 + 16 * r) + (u - l) / 2 ^ k).
Proof.
  intros Hv Hr Htol Hmax Hom Hlu Ht2.
  destruct (new_scalar_real 2 val origin2 ltac:(lia) ltac:(lra) eq_refl) as (e & E & HP & Hpt). exists e. split; auto.
  destruct (bsearch_adaptor single single_sat single_deep single_shrink 2 inv3 set3 (ex3_oracle (N := RNum)) opt e (point2 (-1 + r) (2 - 3 * r)) r 1 (-8 + 16 * r)
    ltac:(lia) ltac:(lra) ltac:(lra) ex3_cuts ex3_total) with (opt2 := opt2) (om := om) (ga0 := ex3_target om) (l := l) (u := u) as (b' & flag & k & Eb & H1 & H2 & H3 & H4 & H5); auto.
  - intros ga o ga' [HI HT]. split; [exact HI|reflexivity].
  - exact (disc_xc _ _ E).
  - intros ga x Hga Hx y Hy. destruct (ex3_near r y Hr Hy) as [Hp Ho]. split; [split; [exact Hp|lra]|].
    assert (D : pts 2 e (fun i => y i - coords x i) -> pts 2 (ell_set_xc e x) y).
    { intros (v & D1 & D2). exists v. split; [|exact D2]. intros i Hi. rewrite <- D1 by exact Hi.
      assert (Ec : centre e = coords origin2) by (unfold centre; now rewrite (new_scalar_xc _ _ _ E)). rewrite Ec.
      change (centre (ell_set_xc e x)) with (coords x). assert (i = 0%nat \/ i = 1%nat) as [-> | ->] by lia; unfold coords; cbn; ring. }
    destruct Hx as [-> | [ga' Hx]].
    + replace (ell_set_xc e (e_xc e)) with e by (clear; now destruct e). apply Hpt. pose proof (prob4_origin _ _ Hp). unfold coords. cbn. lra.
    + apply ex3_accepts in Hx as [Hx _]. apply D. apply Hpt. pose proof (prob4_diam _ _ _ _ Hp Hx). unfold coords in *. cbn in *. lra.
  - lra.
  - rewrite (new_scalar_vol 2 val origin2 e ltac:(lia) eq_refl E). exact Hmax.
  - split; [exact Hom|reflexivity].
  - exists b', flag, k. split; [exact Eb|]. split; [exact H1|]. split; [exact H2|]. split; [exact H3|]. split; [|exact H5].
    intros Hf. destruct (H4 Hf) as (ga & Ha & _ & Hle). destruct (ex3_accepts _ _ Ha) as [Hp Ho]. split; [exact Hp|]. lra.
Qed.

Definition opt8 : Options RNum := mkOptions (N := RNum) 2000 (@nlit RNum 1 (-8)).
Lemma tol8 : tolerance opt8 = / 10 ^ 8.
Proof. cbn [opt8 tolerance nlit RNum powerRZ]. rewrite Rmult_1_l. reflexivity. Qed.
(** src/example3.rs test_feasible, for any starting level and index of the oracle *)
Lemma ex3_test (om : Ex3 RNum) : (-1 <= ex3_idx om < 4)%Z ->
  exists e : Ell RNum, ell_new_with_scalar (N := RNum) (100 : R) origin2 = Ok e /\
  exists b', bsearch (assess_bs (ex3_oracle (N := RNum)) (ell_space (N := RNum) single)) opt8 (mkAdaptor om e opt8) ((-100, 100) : RNum * RNum) = Ok (b', (-100, 100), (true, 34%nat)) /\
    let x := coords (e_xc (ba_space b')) in
    prob4 (x 0%nat) (x 1%nat) /\ -8 <= obj4 (x 0%nat) (x 1%nat) <= -8 + 2 / 1000.
Proof.
  intros Hom. pose proof tol8 as Et.
  assert (H8 : 10 ^ 8 = 100000000) by lra. rewrite H8 in Et.
  destruct (ex3_bsearch 100 (1 / 10000) (-100) 100 opt8 opt8 om) as (e & E & b' & flag & k & Eb & H1 & H2 & H3 & H4 & H5); try lra; auto.
  - change (INR (max_iters opt8)) with (INR 2000). apply iters_enough; lra.
  - exists e. split; auto.
    assert (Hk : k = 34%nat).
    { assert (Hk1 : (k <= 34)%nat).
      { destruct (le_gt_dec k 34) as [|Hgt]; auto. exfalso. specialize (H2 34%nat ltac:(lia)). rewrite Et in H2. cbn in H2. lra. }
      assert (Hk2 : ~ (k < 34)%nat).
      { intros Hlt. destruct H3 as [H3|H3]; [change (max_iters opt8) with 2000%nat in H3; lia|]. rewrite Et in H3.
        assert (Hp : 2 ^ (1 + k) <= 2 ^ 34) by (apply Rle_pow; [lra|lia]).
        assert (Hp0 : 0 < 2 ^ (1 + k)) by (apply pow_lt; lra). change (2 ^ (1 + k)) with (2 ^ (1 + k)) in *.
        apply (Rmult_lt_compat_r (2 ^ (1 + k))) in H3; auto. unfold Rdiv in H3 at 1. rewrite Rmult_assoc, Rinv_l in H3 by lra. lra. }
      lia. }
    subst k. assert (Hm : Rmax (-100) (-8 + 16 * (1 / 10000)) = -8 + 16 / 10000) by (rewrite Rmax_right; lra). rewrite Hm in *.
    assert (Hw : (100 - -100) / 2 ^ 34 < 2 / 10000000) by lra.
    destruct flag; [|specialize (H5 eq_refl); lra]. exists b'. split; [exact Eb|]. destruct (H4 eq_refl) as [Hp Ho].
    split; [exact Hp|]. split; [now apply prob4_least|]. lra.
Qed.
