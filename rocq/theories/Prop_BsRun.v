(** Property C86: bsearch over a BSearchAdaptor on an Ell, end to end, in exact
    arithmetic.  Vocabulary: RunSpec.v ([feas_cuts], [feas_total], [ball]),
    ExSpec.v ([prob4], [obj4]: the problem of example 3). *)
From Coq Require Import ZArith Reals List Arith Lia Lra.
From Verif Require Import Num Res Arr CuttingPlane EllCalc Ell EllRun Spec EllSpec EllCuts EllMore Det RunSpec RunProofs Examples ExSpec ExConv BsRun BsEx3.
Open Scope R_scope.

(** bsearch with an oracle that is right from [thr] on but may say anything
    below: the number of probes is fixed by the interval, and the answer found is
    good for a level at most one bracket above [thr]. *)
Theorem C86_bsearch : forall (B : Type) (ora : OracleBS RNum B) (I : B -> Prop) (W : B -> R -> Prop) (thr : R),
  (forall b (ga : R), I b -> exists b' ans, ora b ga = Ok (b', ans) /\ I b' /\
     (ans = true -> W b' ga) /\ (ans = false -> ga < thr /\ forall d, W b d -> W b' d)) ->
  forall (opt : Options RNum) (b : B) (l u : R), I b -> l <= u -> 0 < tolerance opt ->
  exists b' flag k, bsearch ora opt b ((l, u) : RNum * RNum) = Ok (b', (l, u), (flag, k)) /\ I b' /\
    (k <= max_iters opt)%nat /\ (forall i, (i < k)%nat -> tolerance opt <= (u - l) / 2 ^ (1 + i)) /\
    (k = max_iters opt \/ (u - l) / 2 ^ (1 + k) < tolerance opt) /\
    (flag = true -> exists ga, W b' ga /\ l <= ga <= u /\ ga <= Rmax l thr + (u - l) / 2 ^ k) /\
    (flag = false -> u <= Rmax l thr + (u - l) / 2 ^ k).
Proof. exact @bsearch_gap. Qed.
Print Assumptions C86_bsearch.

(** The adaptor on an Ell: from the level [thr] on a ball of solutions lies in
    the initial ellipsoid, wherever an accepted point moves its centre. *)
Theorem C86_adaptor : forall (O : Type) n (Inv : R -> O -> Prop) (K : R -> vec -> Prop) (ora : OracleFeas RNum (Arr RNum) (SingleCut RNum) O)
    (opt : Options RNum) (e : Ell RNum) (z : vec) (r gmin thr : R),
  let accepted := fun ga x => vecn n x /\ exists o1 o2, Inv ga o1 /\ of_assess ora o1 x = Ok (o2, None) in
  (2 <= n)%nat -> 0 < r -> 0 < gmin ->
  (forall ga, feas_cuts single_sat single_deep n (Inv ga) (K ga) ora) -> (forall ga, feas_total n (Inv ga) gmin ora) ->
  (forall ga o ga', Inv ga o -> Inv ga' (of_update ora o ga')) ->
  proper n e -> vecn n (e_xc e) ->
  (forall ga x, thr <= ga -> x = e_xc e \/ (exists ga', accepted ga' x) -> forall y, ball n z r y -> K ga y /\ pts n (ell_set_xc e x) y) ->
  tolerance opt <= (r * gmin) * (r * gmin) ->
  (INR n + 1) * ln (vol2 n e / (r * r) ^ n) < INR (max_iters opt) ->
  forall (opt2 : Options RNum) om (ga0 l u : R), Inv ga0 om -> l <= u -> 0 < tolerance opt2 ->
  exists b' flag k, bsearch (assess_bs ora (ell_space (N := RNum) single)) opt2 (mkAdaptor om e opt) ((l, u) : RNum * RNum) = Ok (b', (l, u), (flag, k)) /\
    (k <= max_iters opt2)%nat /\ (forall i, (i < k)%nat -> tolerance opt2 <= (u - l) / 2 ^ (1 + i)) /\
    (k = max_iters opt2 \/ (u - l) / 2 ^ (1 + k) < tolerance opt2) /\
    (flag = true -> exists ga, accepted ga (e_xc (ba_space b')) /\ l <= ga <= u /\ ga <= Rmax l thr + (u - l) / 2 ^ k) /\
    (flag = false -> u <= Rmax l thr + (u - l) / 2 ^ k).
Proof. exact (fun O => @bsearch_adaptor (SingleCut RNum) O single single_sat single_deep single_shrink). Qed.
Print Assumptions C86_adaptor.

(** Example 3 (minimise 2x - 3y over a triangle; least value -8). *)
Theorem C86_example3 : forall (val r l u : R) (opt opt2 : Options RNum) (om : Ex3 RNum), 32 <= val -> 0 < r <= 1 / 10 -> tolerance opt <= r * r ->
  (INR 2 + 1) * ln (val ^ 2 / (r * r) ^ 2) < INR (max_iters opt) ->
  (-1 <= ex3_idx om < 4)%Z -> l <= u -> 0 < tolerance opt2 ->
  exists e, ell_new_with_scalar (N := RNum) val origin2 = Ok e /\
  exists b' flag k, bsearch (assess_bs (ex3_oracle (N := RNum)) (ell_space (N := RNum) single)) opt2 (mkAdaptor om e opt) ((l, u) : RNum * RNum) = Ok (b', (l, u), (flag, k)) /\
    (k <= max_iters opt2)%nat /\ (forall i, (i < k)%nat -> tolerance opt2 <= (u - l) / 2 ^ (1 + i)) /\
    (k = max_iters opt2 \/ (u - l) / 2 ^ (1 + k) < tolerance opt2) /\
    let x := coords (e_xc (ba_space b')) in
    (flag = true -> prob4 (x 0%nat) (x 1%nat) /\ obj4 (x 0%nat) (x 1%nat) <= Rmax l (-8 + 16 * r) + (u - l) / 2 ^ k) /\
    (flag = false -> u <= Rmax l (-8 + 16 * r) + (u - l) / 2 ^ k).
Proof. exact ex3_bsearch. Qed.
Print Assumptions C86_example3.

(** The data of the crate's own test: it passes, with a nearly best point. *)
Theorem C86_test_problem : forall (om : Ex3 RNum), (-1 <= ex3_idx om < 4)%Z ->
  let options := mkOptions (N := RNum) 2000 (@nlit RNum 1 (-8)) in
  exists e : Ell RNum, ell_new_with_scalar (N := RNum) (100 : R) origin2 = Ok e /\
  exists b', bsearch (assess_bs (ex3_oracle (N := RNum)) (ell_space (N := RNum) single)) options (mkAdaptor om e options) ((-100, 100) : RNum * RNum) = Ok (b', (-100, 100), (true, 34%nat)) /\
    let x := coords (e_xc (ba_space b')) in
    prob4 (x 0%nat) (x 1%nat) /\ -8 <= obj4 (x 0%nat) (x 1%nat) <= -8 + 2 / 1000.
Proof. exact ex3_test. Qed.
Print Assumptions C86_test_problem.
Example C86_case : (-1 <= ex3_idx (ex3_default (N := RNum)) < 4)%Z /\ (exists x y, prob4 x y /\ obj4 x y = -8) /\ (forall x y, prob4 x y -> -8 <= obj4 x y).
Proof. split; [cbn; lia|]. split; [exists (-1), 2; unfold prob4, obj4; lra|exact prob4_least]. Qed.
