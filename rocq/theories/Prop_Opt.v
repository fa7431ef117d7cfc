(** C95: the switch [use_parallel_cut]; C96: the new ellipsoid is the smallest one.
    [calc_with n flag] is [EllCalc::new(n)] with the public field set to [flag];
    [vol2 n e] is the square of the volume of [e] in units of the unit ball. *)
From Coq Require Import ZArith Reals List Arith Lia Lra.
From Flocq Require Import Core IEEE754.BinarySingleNaN.
From Verif Require Import Num Res Arr CuttingPlane EllCalc Ell EllRun Spec RealLin EllSpec EllCuts EllMore EllWitness Det RunSpec VolProofs RunWitness
  CalcFlag OptCuts OptEx OptCase Replay.
Import ListNotations.
Open Scope R_scope.

(** With the switch off a pair of cuts is rejected if it is contradictory and
    otherwise treated as its first cut alone; the switch is on in a new
    calculator and does not matter for single cuts.  Any number type. *)
Theorem C95_bias : forall (N : Num) n (b0 b1 tsq : N),
  calc_single_or_parallel_bias_cut (calc_with n false) (mkParallel b0 (Some b1)) tsq =
  if nltb b1 b0 then (NoSoln, (n0, n0, n0)) else calc_single_or_parallel_bias_cut (calc_new n) (mkParallel b0 None) tsq.
Proof. exact @off_bias. Qed.
Print Assumptions C95_bias.
Theorem C95_quantised : forall (N : Num) n (b0 b1 tsq : N),
  calc_single_or_parallel_q (calc_with n false) (mkParallel b0 (Some b1)) tsq =
  if nltb b1 b0 then (NoSoln, (n0, n0, n0)) else calc_single_or_parallel_q (calc_new n) (mkParallel b0 None) tsq.
Proof. exact @off_q. Qed.
Print Assumptions C95_quantised.
Theorem C95_central : forall (N : Num) n (b0 b1 tsq : N),
  calc_single_or_parallel_central_cut (calc_with n false) (mkParallel b0 (Some b1)) tsq =
  if nltb b1 n0 then (NoSoln, (n0, n0, n0)) else calc_single_or_parallel_central_cut (calc_new n) (mkParallel b0 None) tsq.
Proof. exact @off_central. Qed.
Print Assumptions C95_central.
Theorem C95_default_on : forall (N : Num) n, calc_with (N := N) n true = calc_new n.
Proof. exact @with_on. Qed.
Print Assumptions C95_default_on.
Theorem C95_single : forall (N : Num) n flag (b0 tsq : N),
  calc_single_or_parallel_bias_cut (calc_with n flag) (mkParallel b0 None) tsq = calc_single_or_parallel_bias_cut (calc_new n) (mkParallel b0 None) tsq /\
  calc_single_or_parallel_q (calc_with n flag) (mkParallel b0 None) tsq = calc_single_or_parallel_q (calc_new n) (mkParallel b0 None) tsq /\
  calc_single_or_parallel_central_cut (calc_with n flag) (mkParallel b0 None) tsq = calc_single_or_parallel_central_cut (calc_new n) (mkParallel b0 None) tsq.
Proof. exact @flag_single. Qed.
Print Assumptions C95_single.
(** case, in binary64, n = 4, offsets 0.01 and 0.04, tsq = 0.01 (the numbers of the
    repository's tests): the switch changes the answer *)
Example C95_case : let cut b := calc_single_or_parallel_bias_cut (N := F) (calc_with 4 b) (mkParallel (N := F) (flit 1 (-2)) (Some (flit 4 (-2) : num F))) (flit 1 (-2)) in
  match cut true, cut false with
  | (Success, (r1, s1, d1)), (Success, (r2, s2, d2)) => nltb (n := F) d2 d1 = true /\ nltb (n := F) s2 s1 = true
  | _, _ => False end.
Proof. vm_compute. auto. Qed.

(** Smallest: no ellipsoid that contains what the cut keeps has a smaller volume,
    and one of the same volume is the same set.  [f] is any nondegenerate
    ellipsoid, of any centre and shape. *)
Theorem C96_single : forall m n e g beta e' st f, (2 <= n)%nat -> proper n e -> vecn n g -> (exists i, (i < n)%nat /\ coords g i <> 0) -> proper n f ->
  match m with
  | Bias => - sqrt (width2 n e g) / INR n <= beta < sqrt (width2 n e g)
  | Central => True
  | Quantised => beta < sqrt (width2 n e g)
  end ->
  apply_cut (N := RNum) single m e (g, SC beta) = Ok (e', st) ->
  (forall x, pts n e x -> along n (coords g) x (centre e) + offset m beta <= 0 -> pts n f x) ->
  vol2 n e' <= vol2 n f /\ (vol2 n f <= vol2 n e' -> forall x, pts n f x <-> pts n e' x).
Proof. exact single_smallest. Qed.
Print Assumptions C96_single.
Theorem C96_parallel : forall m n e g b0 b1 e' st f, (2 <= n)%nat -> proper n e -> vecn n g -> (exists i, (i < n)%nat /\ coords g i <> 0) -> proper n f ->
  offset m b0 < b1 /\ - sqrt (width2 n e g) < b1 /\ - sqrt (width2 n e g) <= offset m b0 < sqrt (width2 n e g) /\
    (m = Bias -> 0 <= width2 n e g + INR n * (b0 * b1)) ->
  apply_cut (N := RNum) parallel m e (g, PC b0 (Some b1)) = Ok (e', st) ->
  (forall x, slab n e g (offset m b0) b1 x -> pts n f x) ->
  vol2 n e' <= vol2 n f /\ (vol2 n f <= vol2 n e' -> forall x, pts n f x <-> pts n e' x).
Proof. exact parallel_smallest. Qed.
Print Assumptions C96_parallel.
(** hence a pair of cuts is never worse than its first cut alone *)
Theorem C96_pair : forall m n e g b0 b1 e1 s1 e2 s2, (2 <= n)%nat -> proper n e -> vecn n g -> (exists i, (i < n)%nat /\ coords g i <> 0) ->
  match m with
  | Bias => - sqrt (width2 n e g) / INR n <= b0 < sqrt (width2 n e g)
  | Central => True
  | Quantised => b0 < sqrt (width2 n e g)
  end ->
  offset m b0 < b1 /\ - sqrt (width2 n e g) < b1 /\ - sqrt (width2 n e g) <= offset m b0 < sqrt (width2 n e g) /\
    (m = Bias -> 0 <= width2 n e g + INR n * (b0 * b1)) ->
  apply_cut (N := RNum) single m e (g, SC b0) = Ok (e1, s1) ->
  apply_cut (N := RNum) parallel m e (g, PC b0 (Some b1)) = Ok (e2, s2) -> vol2 n e2 <= vol2 n e1.
Proof. exact pair_smaller. Qed.
Print Assumptions C96_pair.
(** The condition -tau <= b0 is needed: with b0 = -5 on the unit disc the pair keeps
    half of the disc in an ellipse that is not the smallest. *)
Theorem C96_below_refuted : exists e' f, ubias parallel disc (gx, PC (-5) (Some 0)) = Ok (e', Success) /\ proper 2 e' /\ proper 2 f /\
  (forall x, slab 2 disc gx (-5) 0 x -> pts 2 f x) /\ vol2 2 f < vol2 2 e'.
Proof. exact below_not_best. Qed.
Print Assumptions C96_below_refuted.

Example C96_case : proper 2 egg /\ vecn 2 g12 /\ (exists i, (i < 2)%nat /\ coords g12 i <> 0) /\ width2 2 egg g12 = 40 /\
  (- sqrt 40 / INR 2 <= 1 < sqrt 40) /\
  (offset Bias 1 < 3 /\ - sqrt 40 < 3 /\ - sqrt 40 <= offset Bias 1 < sqrt 40 /\ (Bias = Bias -> 0 <= 40 + INR 2 * (1 * 3))) /\
  (forall x, slab 2 egg g12 1 3 x -> pts 2 egg x).
Proof.
  split; [exact egg_proper|]. split; [exact g12_vec|]. split; [exact g12_nz|]. split; [exact egg_width|].
  pose proof six_seven. cbn [offset]. change (INR 2) with 2. split; [lra|]. split; [repeat split; try lra; intros; lra|exact (egg_covers 1 3)].
Qed.
