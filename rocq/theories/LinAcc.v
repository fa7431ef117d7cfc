(** The linear examples in binary64 (C119). *)
From Coq Require Import ZArith Reals Lra Lia Psatz List Bool Arith.
From Flocq Require Import Core IEEE754.BinarySingleNaN.
From Verif Require Import Num Res Arr ArrLemmas CuttingPlane Spec EllReal Examples ExSpec ExProofs FloatLemmas FloatErr FcosAcc StepAccSpec ProfitSpec ProfAccSpec ProfAcc QcAcc LinAccSpec.
Import ListNotations.
Local Open Scope R_scope.

(** * Which test decides, over any number type *)
Section Any.
Context {N : Num}.
Definition picks (tests : list (N * Arr N)) (f0 : N) (gl : Arr N) (ga ga' : N) (g : Arr N) (beta : N) (sh : bool) : Prop :=
  (sh = false /\ ga' = ga /\ In (beta, g) tests /\ (n0 <?! beta) = true) \/
  (sh = true /\ ga' = f0 /\ beta = n0 /\ g = gl /\ forall t, In t tests -> (n0 <?! fst t) = false).
Ltac pk := first [left; split; [reflexivity|split; [reflexivity|split; [cbn [In]; tauto|first [assumption|reflexivity]]]]
  | right; split; [reflexivity|split; [reflexivity|split; [reflexivity|split; [reflexivity|cbn [In]; intros t Ht; decompose [or] Ht; subst; try tauto; cbn [fst]; first [assumption|reflexivity]]]]]].
Lemma ex1_picks (xc : Arr N) ga x y : a_idx xc 0 = Ok x -> a_idx xc 1 = Ok y ->
  exists ga' g beta b, ex1_assess tt xc ga = Ok (tt, ga', ((g, mkSingle beta), b)) /\
    picks [(x +! y -! nZ 3, vec2 n1 n1); (-! x +! y +! n1, vec2 nm1 n1); (ga -! (x +! y), vec2 nm1 nm1)] (x +! y) (vec2 nm1 nm1) ga ga' g beta b.
Proof.
  intros Hx Hy. unfold ex1_assess. rewrite Hx, Hy. cbn [bind].
  ifs; do 4 eexists; (split; [reflexivity|]); pk.
Qed.
Lemma ex1rr_picks idx (xc : Arr N) ga x y : (-1 <= idx < 3)%Z -> a_idx xc 0 = Ok x -> a_idx xc 1 = Ok y ->
  exists idx' ga' g beta b, ex1rr_assess idx xc ga = Ok (idx', ga', ((g, mkSingle beta), b)) /\ (-1 <= idx' < 3)%Z /\
    picks [(x +! y -! nZ 3, vec2 n1 n1); (-! x +! y +! n1, vec2 nm1 n1); (ga -! (x +! y), vec2 nm1 nm1)] (x +! y) (vec2 nm1 nm1) ga ga' g beta b.
Proof.
  intros Hi Hx Hy. unfold ex1rr_assess. rewrite Hx, Hy. cbn [bind]. unfold round_robin, loop_range.
  idx_cases Hi; cbn -[nadd nsub nopp nZ n0 n1 nltb]; ifs; do 5 eexists; (split; [reflexivity|]); (split; [lia|]); pk.
Qed.
Lemma ex4_picks idx (xc : Arr N) ga x y : (-1 <= idx < 4)%Z -> a_idx xc 0 = Ok x -> a_idx xc 1 = Ok y ->
  exists idx' ga' g beta b, ex4_assess idx xc ga = Ok (idx', ga', ((g, mkSingle beta), b)) /\ (-1 <= idx' < 4)%Z /\
    picks [(-! x -! n1, vec2 nm1 n0); (-! y -! n2, vec2 n0 nm1); (x +! y -! n1, vec2 n1 n1); (ga -! (n2 *! x -! nZ 3 *! y), vec2 (-! n2) (nZ 3))]
      (n2 *! x -! nZ 3 *! y) (vec2 (-! n2) (nZ 3)) ga ga' g beta b.
Proof.
  intros Hi Hx Hy. unfold ex4_assess. rewrite Hx, Hy. cbn [bind]. unfold round_robin, loop_range.
  idx_cases Hi; cbn -[nadd nsub nopp nmul nZ n0 n1 n2 nltb]; ifs; do 5 eexists; (split; [reflexivity|]); (split; [lia|]); pk.
Qed.
Lemma ex3_picks (o : Ex3 N) (xc : Arr N) x y : (-1 <= ex3_idx o < 4)%Z -> a_idx xc 0 = Ok x -> a_idx xc 1 = Ok y ->
  let tests := [(-! x -! n1, vec2 nm1 n0); (-! y -! n2, vec2 n0 nm1); (x +! y -! n1, vec2 n1 n1); (n2 *! x -! nZ 3 *! y -! ex3_target o, vec2 n2 (-! nZ 3))] in
  exists o' r, ex3_assess o xc = Ok (o', r) /\ (-1 <= ex3_idx o' < 4)%Z /\ ex3_target o' = ex3_target o /\
    ((exists g beta, r = Some (g, mkSingle beta) /\ In (beta, g) tests /\ (n0 <?! beta) = true) \/ (r = None /\ forall t, In t tests -> (n0 <?! fst t) = false)).
Proof.
  intros Hi Hx Hy. cbv zeta. unfold ex3_assess. rewrite Hx, Hy. cbn [bind]. unfold round_robin, loop_range. destruct o as [idx tg]. cbn [ex3_idx ex3_target] in *.
  idx_cases Hi; cbn -[nadd nsub nopp nmul nZ n0 n1 n2 nltb]; ifs; do 2 eexists; (split; [reflexivity|]); (split; [cbn [ex3_idx]; lia|]); (split; [reflexivity|]);
  first [left; do 2 eexists; split; [reflexivity|split; [cbn [In]; tauto|first [assumption|reflexivity]]]
        |right; split; [reflexivity|cbn [In]; intros t Ht; decompose [or] Ht; subst; try tauto; cbn [fst]; first [assumption|reflexivity]]].
Qed.
End Any.

#[local] Opaque fadd fsub fmul fdiv fsqrt fofZ.
(** * Rounding *)
Lemma add_big (x y : f64) a b e f B : fin x = true -> fin y = true -> Rabs (val x - a) <= e -> Rabs (val y - b) <= f -> Rabs (a + b) + e + f <= B -> B <= bpow radix2 1010 ->
  fin (fadd x y) = true /\ Rabs (val (fadd x y) - (a + b)) <= e + f + uu * B + ee.
Proof.
  intros Fx Fy Hx Hy HB HM. assert (S : Rabs (val x + val y - (a + b)) <= e + f). { replace (val x + val y - (a + b)) with ((val x - a) + (val y - b)) by ring. eapply Rle_trans; [apply Rabs_triang|]. lra. }
  assert (M : Rabs (val x + val y) <= B). { replace (val x + val y) with ((val x + val y - (a + b)) + (a + b)) by ring. eapply Rle_trans; [apply Rabs_triang|]. lra. }
  destruct (fadd_fin x y Fx Fy (big_fin _ (Rle_trans _ _ _ M HM))) as [V Fr]. split; [exact Fr|]. rewrite V. pose proof (rnd_err (val x + val y)) as R. pose proof uu_small as U.
  assert (uu * Rabs (val x + val y) <= uu * B) by (apply Rmult_le_compat_l; lra). apply Rabs_le_inv in S, R. apply Rabs_le. lra.
Qed.
Lemma sub_big (x y : f64) a b e f B : fin x = true -> fin y = true -> Rabs (val x - a) <= e -> Rabs (val y - b) <= f -> Rabs (a - b) + e + f <= B -> B <= bpow radix2 1010 ->
  fin (fsub x y) = true /\ Rabs (val (fsub x y) - (a - b)) <= e + f + uu * B + ee /\ val (fsub x y) = rnd (val x + - val y).
Proof.
  intros Fx Fy Hx Hy HB HM. assert (S : Rabs (val x - val y - (a - b)) <= e + f). { replace (val x - val y - (a - b)) with ((val x - a) + - (val y - b)) by ring. eapply Rle_trans; [apply Rabs_triang|]. rewrite Rabs_Ropp. lra. }
  assert (M : Rabs (val x - val y) <= B). { replace (val x - val y) with ((val x - val y - (a - b)) + (a - b)) by ring. eapply Rle_trans; [apply Rabs_triang|]. lra. }
  destruct (fsub_fin x y Fx Fy (big_fin _ (Rle_trans _ _ _ M HM))) as [V Fr]. split; [exact Fr|]. rewrite V. split; [|reflexivity]. pose proof (rnd_err (val x - val y)) as R. pose proof uu_small as U.
  assert (uu * Rabs (val x - val y) <= uu * B) by (apply Rmult_le_compat_l; lra). apply Rabs_le_inv in S, R. apply Rabs_le. lra.
Qed.
Lemma mul_big (x y : f64) B : fin x = true -> fin y = true -> Rabs (val x * val y) <= B -> B <= bpow radix2 1010 -> fin (fmul x y) = true /\ Rabs (val (fmul x y) - val x * val y) <= uu * B + ee.
Proof.
  intros Fx Fy H HM. destruct (fmul_fin x y Fx Fy (big_fin _ (Rle_trans _ _ _ H HM))) as [V Fr]. split; [exact Fr|]. rewrite V. pose proof (rnd_err (val x * val y)) as R. pose proof uu_small as U.
  assert (uu * Rabs (val x * val y) <= uu * B) by (apply Rmult_le_compat_l; lra). lra.
Qed.

Section V.
Variable lm : Libm.
Notation F := (FNum lm).
Variables (X C : R).
Hypothesis HR : lin_range X C.
Notation mu := (lin_margin C).
Lemma lin_facts : mu = 8 * (uu * C) /\ 0 < uu * C /\ uu <= / 1000000000000 /\ 0 < uu /\ ee <= uu * C / 1000 /\ 0 < ee /\ uu * X <= uu * C / 6 /\ uu <= uu * C / 6 /\ 0 < uu * X /\ 12 * C <= bpow radix2 1010 /\ 1 <= X /\ 6 * X <= C /\ uu * X <= X / 1000 /\ uu * C <= C / 1000 /\ ee <= / 1000.
Proof.
  destruct HR as (H1 & H2 & H3). pose proof uu_small as [U1 U2]. pose proof ee_small as [V1 V2].
  assert (E50 : bpow radix2 (-50) = 8 * uu) by (change (-50)%Z with (3 + -53)%Z; rewrite bpow_plus; reflexivity).
  assert (UC : 0 < uu * C) by (apply Rmult_lt_0_compat; lra). assert (UX : 0 < uu * X) by (apply Rmult_lt_0_compat; lra).
  assert (E1 : ee <= uu / 1024). { assert (H : ee <= bpow radix2 (-63)) by (apply bpow_le; lia). assert (E : bpow radix2 (-63) = uu / 1024) by (change (-63)%Z with (-53 + -10)%Z; rewrite bpow_plus; reflexivity). lra. }
  assert (Q : bpow radix2 1010 = 1024 * bpow radix2 1000) by (change 1010%Z with (10 + 1000)%Z; rewrite bpow_plus; reflexivity). pose proof (bpow_gt_0 radix2 1000).
  unfold lin_margin. rewrite E50. repeat split; try lra; nra.
Qed.
(** a test value [f] with the gradient [g] at [y], for the affine function [A] *)
Definition ok_test (y : Arr F) (f : f64) (g : Arr F) (A : vec -> R) : Prop :=
  two g /\ all_finite g /\
  ((n0 <?! (f : F)) = true -> fin f = true /\ 0 < val f /\ forall z, A z + mu <= 0 -> along 2 (fcoords g) z (fcoords y) + val f <= 0) /\
  ((n0 <?! (f : F)) = false -> A (fcoords y) <= mu).
Lemma near_test (y : Arr F) (f : f64) (a b : F) (A : vec -> R) : fin f = true -> fin (a : f64) = true -> fin (b : f64) = true ->
  (forall z, val (a : f64) * (z 0%nat - fcoords y 0%nat) + val (b : f64) * (z 1%nat - fcoords y 1%nat) = A z - A (fcoords y)) ->
  Rabs (val f - A (fcoords y)) <= mu -> ok_test y f (vec2 a b) A.
Proof.
  intros Ff Fa Fb HA HE. apply Rabs_le_inv in HE. split; [split; reflexivity|]. split; [constructor; [exact Fa|constructor; [exact Fb|constructor]]|]. split.
  - intros K. pose proof (gt_val lm f Ff K). split; [exact Ff|]. split; [assumption|]. intros z Hz. unfold along, dot. cbn [Rsum]. specialize (HA z).
    change (fcoords (vec2 a b) 0%nat) with (val (a : f64)). change (fcoords (vec2 a b) 1%nat) with (val (b : f64)). lra.
  - intros K. pose proof (le_val lm f Ff K). lra.
Qed.
Lemma c1 : fin (n1 (N := F) : f64) = true /\ val (n1 (N := F) : f64) = 1. Proof. destruct (fofZ_small 1 ltac:(lia)). auto. Qed.
Lemma c2 : fin (n2 (N := F) : f64) = true /\ val (n2 (N := F) : f64) = 2. Proof. destruct (fofZ_small 2 ltac:(lia)). auto. Qed.
Lemma c3 : fin (nZ (n := F) 3 : f64) = true /\ val (nZ (n := F) 3 : f64) = 3. Proof. destruct (fofZ_small 3 ltac:(lia)). auto. Qed.
Lemma copp (a : F) v : fin (a : f64) = true /\ val (a : f64) = v -> fin (-! a : f64) = true /\ val (-! a : f64) = - v.
Proof. intros [A B]. split; [cbn; rewrite is_finite_Bopp; exact A|]. rewrite <- B. apply B2R_Bopp. Qed.
Section P.
Variables (y : Arr F) (x0 x1 : F).
Hypotheses (F0 : fin (x0 : f64) = true) (F1 : fin (x1 : f64) = true) (U0 : fcoords y 0%nat = val (x0 : f64)) (U1 : fcoords y 1%nat = val (x1 : f64)) (B0 : Rabs (val (x0 : f64)) <= X) (B1 : Rabs (val (x1 : f64)) <= X).
Ltac ctx := pose proof lin_facts as (MU & UC & Us & Up & Es & Ep & UX & UU & UX0 & BG & HX1 & HXC & SX & SC & SE); pose proof (Rabs_le_inv _ _ B0) as B0'; pose proof (Rabs_le_inv _ _ B1) as B1'; destruct c1 as [Fc1 Vc1]; destruct c2 as [Fc2 Vc2]; destruct c3 as [Fc3 Vc3]; destruct (copp n1 1 c1) as [Fm1 Vm1]; destruct (copp n2 2 c2) as [Fm2 Vm2]; destruct (copp (nZ 3) 3 c3) as [Fm3 Vm3]; destruct (copp x0 _ (conj F0 eq_refl)) as [Fn0 Vn0]; destruct (copp x1 _ (conj F1 eq_refl)) as [Fn1 Vn1].
Ltac ab := match goal with |- context [Rabs ?t] => let L := fresh in assert (L : Rabs t <= 6 * X) by (apply Rabs_le; lra); lra end.
Lemma s_val : fin (fadd x0 x1) = true /\ Rabs (val (fadd x0 x1) - (val (x0 : f64) + val (x1 : f64))) <= uu * C / 2.
Proof.
  ctx. destruct (add_big x0 x1 _ _ 0 0 (2 * X) F0 F1 (self0 _) (self0 _)) as [A B]; [|lra|split; [exact A|lra]].
  assert (Rabs (val (x0 : f64) + val (x1 : f64)) <= 2 * X) by (apply Rabs_le; lra). lra.
Qed.
Lemma d_val : fin (fsub (fmul (fofZ 2) x0) (fmul (fofZ 3) x1)) = true /\ Rabs (val (fsub (fmul (fofZ 2) x0) (fmul (fofZ 3) x1)) - (2 * val (x0 : f64) - 3 * val (x1 : f64))) <= 2 * (uu * C).
Proof.
  ctx. change (fin (fofZ 2) = true) in Fc2. change (fin (fofZ 3) = true) in Fc3. change (val (fofZ 2) = 2) in Vc2. change (val (fofZ 3) = 3) in Vc3.
  destruct (mul_big (fofZ 2) x0 (2 * X) Fc2 F0) as [P1 P2]; [rewrite Vc2; apply Rabs_le; lra|lra|]. destruct (mul_big (fofZ 3) x1 (3 * X) Fc3 F1) as [P3 P4]; [rewrite Vc3; apply Rabs_le; lra|lra|]. rewrite Vc2 in P2. rewrite Vc3 in P4.
  destruct (sub_big _ _ _ _ _ _ (6 * X) P1 P3 P2 P4) as (P5 & P6 & _); [|lra|split; [exact P5|lra]].
  assert (Rabs (2 * val (x0 : f64) - 3 * val (x1 : f64)) <= 5 * X) by (apply Rabs_le; lra). lra.
Qed.
Lemma t_11_3 : ok_test y (fsub (fadd x0 x1) (fofZ 3)) (vec2 n1 n1) (fun z => z 0%nat + z 1%nat - 3).
Proof.
  ctx. destruct s_val as [P1 P2]. destruct (sub_big _ (fofZ 3) _ 3 _ 0 C P1 Fc3 P2) as (P3 & P4 & _); [change (fofZ 3) with (nZ (n := F) 3 : f64); rewrite Vc3; apply self0| |lra|].
  - assert (Rabs (val (x0 : f64) + val (x1 : f64) - 3) <= 2 * X + 3) by (apply Rabs_le; lra). lra.
  - apply near_test; auto; [intros z; rewrite Vc1; ring|rewrite U0, U1; lra].
Qed.
Lemma t_11_1 : ok_test y (fsub (fadd x0 x1) (fofZ 1)) (vec2 n1 n1) (fun z => z 0%nat + z 1%nat - 1).
Proof.
  ctx. destruct s_val as [P1 P2]. destruct (sub_big _ (fofZ 1) _ 1 _ 0 C P1 Fc1 P2) as (P3 & P4 & _); [change (fofZ 1) with (n1 (N := F) : f64); rewrite Vc1; apply self0| |lra|].
  - assert (Rabs (val (x0 : f64) + val (x1 : f64) - 1) <= 2 * X + 1) by (apply Rabs_le; lra). lra.
  - apply near_test; auto; [intros z; rewrite Vc1; ring|rewrite U0, U1; lra].
Qed.
Lemma t_m1 : ok_test y (fadd (fadd (-! x0) x1) (fofZ 1)) (vec2 nm1 n1) (fun z => - z 0%nat + z 1%nat + 1).
Proof.
  ctx. destruct (add_big (-! x0) x1 _ _ 0 0 (2 * X) Fn0 F1 (self0 _) (self0 _)) as [P1 P2]; [|lra|].
  { assert (Rabs (val (-! x0 : f64) + val (x1 : f64)) <= 2 * X) by (rewrite Vn0; apply Rabs_le; lra). lra. }
  destruct (add_big _ (fofZ 1) _ 1 _ 0 C P1 Fc1 P2) as (P3 & P4); [change (fofZ 1) with (n1 (N := F) : f64); rewrite Vc1; apply self0| |lra|].
  - assert (Rabs (val (-! x0 : f64) + val (x1 : f64) + 1) <= 2 * X + 1) by (rewrite Vn0; apply Rabs_le; lra). lra.
  - rewrite Vn0 in P4. destruct (m1_val lm) as [Fm Vm]. apply near_test; auto; [intros z; rewrite Vc1, Vm; ring|rewrite U0, U1; lra].
Qed.
Lemma t_x : ok_test y (fsub (-! x0) (fofZ 1)) (vec2 nm1 n0) (fun z => - z 0%nat - 1).
Proof.
  ctx. destruct (sub_big (-! x0) (fofZ 1) _ 1 0 0 (2 * X) Fn0 Fc1 (self0 _)) as (P1 & P2 & _); [change (fofZ 1) with (n1 (N := F) : f64); rewrite Vc1; apply self0| |lra|].
  - assert (Rabs (val (-! x0 : f64) - 1) <= X + 1) by (rewrite Vn0; apply Rabs_le; lra). lra.
  - rewrite Vn0 in P2. destruct (m1_val lm) as [Fm Vm]. apply near_test; auto; [intros z; rewrite Vm, n0_val; ring|rewrite U0; lra].
Qed.
Lemma t_y : ok_test y (fsub (-! x1) (fofZ 2)) (vec2 n0 nm1) (fun z => - z 1%nat - 2).
Proof.
  ctx. destruct (sub_big (-! x1) (fofZ 2) _ 2 0 0 (3 * X) Fn1 Fc2 (self0 _)) as (P1 & P2 & _); [change (fofZ 2) with (n2 (N := F) : f64); rewrite Vc2; apply self0| |lra|].
  - assert (Rabs (val (-! x1 : f64) - 2) <= X + 2) by (rewrite Vn1; apply Rabs_le; lra). lra.
  - rewrite Vn1 in P2. destruct (m1_val lm) as [Fm Vm]. apply near_test; auto; [intros z; rewrite Vm, n0_val; ring|rewrite U1; lra].
Qed.
(** the test against the level: [f0] is the computed and [v] the exact value *)
Lemma t_level (ga f0 : f64) (a b : F) (v : vec -> R) : lin_level C ga -> fin f0 = true -> Rabs (v (fcoords y)) <= 5 * X -> Rabs (val f0 - v (fcoords y)) <= 2 * (uu * C) ->
  fin (a : f64) = true -> fin (b : f64) = true -> (forall z, val (a : f64) * (z 0%nat - fcoords y 0%nat) + val (b : f64) * (z 1%nat - fcoords y 1%nat) = v (fcoords y) - v z) ->
  ok_test y (fsub ga f0) (vec2 a b) (fun z => if fin ga then val ga - v z else - mu) /\ ((n0 <?! (fsub ga f0 : F)) = false -> fin ga = true -> val ga <= val f0).
Proof.
  ctx. intros HL Ff0 Bv Ev Fa Fb HA. destruct HL as [->|[Fg Bg]].
  - assert (K : fsub (B754_infinity true) f0 = B754_infinity true) by (destruct f0; try discriminate; reflexivity). rewrite K. cbn [is_finite]. split; [|discriminate].
    split; [split; reflexivity|]. split; [constructor; [exact Fa|constructor; [exact Fb|constructor]]|]. split; [|intros _; lra]. intros K'. exfalso. revert K'. clear. vm_compute. discriminate.
  - rewrite Fg. apply Rabs_le_inv in Bg. apply Rabs_le_inv in Bv. destruct (sub_big ga f0 _ _ 0 _ (2 * C) Fg Ff0 (self0 _) Ev) as (P1 & P2 & P3); [|lra|].
    + assert (Rabs (val ga - v (fcoords y)) <= C + 5 * X) by (apply Rabs_le; lra). lra.
    + split.
      * apply near_test; auto; [intros z; rewrite HA; ring|lra].
      * intros K _. pose proof (le_val lm _ P1 K) as Q. rewrite P3 in Q. apply rnd_sign in Q; [lra|apply val_generic|apply generic_format_opp, val_generic].
Qed.
End P.
(** From the tests to the answer. *)
Lemma answer_of (room : R -> vec -> Prop) (goal : vec -> R) (As : list (vec -> R)) (y : Arr F) (ga f0 ga' : f64) (fs : list F) (fl : F) (gs : list (Arr F)) gl g (b : f64) sh :
  (forall z, room mu z <-> forall A, In A As -> A z + mu <= 0) -> (room (- mu) (fcoords y) <-> forall A, In A As -> A (fcoords y) <= mu) ->
  length fs = length As -> length gs = length As ->
  (forall i, (i < length As)%nat -> ok_test y (nth i fs fl : f64) (nth i gs gl) (nth i As (fun _ => 0))) ->
  lin_level C ga -> fin f0 = true -> Rabs (val f0) <= C -> Rabs (val f0 - goal (fcoords y)) <= mu ->
  ok_test y fl gl (fun z => if fin ga then val ga - goal z else - mu) -> ((n0 <?! (fl : F)) = false -> fin ga = true -> val ga <= val f0) ->
  (forall z, along 2 (fcoords gl) z (fcoords y) = goal (fcoords y) - goal z) ->
  picks (N := F) (combine fs gs ++ [(fl : F, gl)]) f0 gl ga ga' g b sh -> lin_answer room goal C y ga ga' g b sh.
Proof.
  intros R1 R2 L1 L2 HT HL Ff Bf Ef TL UP AL [(-> & -> & HI & K)|(-> & -> & -> & -> & K)].
  - apply in_app_or in HI as [HI|[HI|[]]].
    + apply (In_nth _ _ (fl : F, gl)) in HI as (i & Hi & E). rewrite combine_nth in E by congruence. rewrite combine_length, L1, L2, Nat.min_id in Hi. inversion E; subst g b. clear E.
      specialize (HT i Hi). destruct HT as (T1 & T2 & T3 & _). destruct (T3 K) as (T4 & T5 & T6). split; auto; try discriminate; [intros; split; [auto|lra]|].
      intros z Hz _. apply T6. apply (proj1 (R1 z) Hz). now apply nth_In.
    + inversion HI; subst g b. destruct TL as (T1 & T2 & T3 & _). destruct (T3 K) as (T4 & T5 & T6). split; auto; try discriminate; [intros; split; [auto|lra]|].
      intros z _ Ha. apply T6. unfold above in Ha. destruct (fin ga) eqn:Fg; [specialize (Ha eq_refl)|]; lra.
  - destruct TL as (T1 & T2 & _ & T3). pose proof (K (fl : F, gl) ltac:(apply in_or_app; right; left; reflexivity)) as KL. cbn [fst] in KL.
    split; [split; [exact T1|split; [exact T2|apply n0_fin]]|right; auto|discriminate| | |].
    + intros _. split; [|split; [exact Ff|split; [exact Ef|apply n0_val]]]. apply R2. intros A HA. apply (In_nth _ _ (fun _ => 0)) in HA as (i & Hi & <-). destruct (HT i Hi) as (_ & _ & _ & T4). apply T4.
      assert (KI := K (nth i (combine fs gs) (fl : F, gl)) ltac:(apply in_or_app; left; apply nth_In; rewrite combine_length, L1, L2, Nat.min_id; exact Hi)). rewrite combine_nth in KI by congruence. exact KI.
    + intros Fg. split; [exact Ff|]. apply UP; auto.
    + intros z _ Ha. specialize (Ha Ff). rewrite AL, n0_val. apply Rabs_le_inv in Ef. lra.
Qed.
End V.
