(** C110: sequences of pairs of parallel cuts and runs with them in binary64. *)
From Coq Require Import ZArith Reals List.
From Flocq Require Import Core IEEE754.BinarySingleNaN.
From Verif Require Import Num Res Arr CuttingPlane EllCalc Ell EllRun Spec RunSpec AccSpec StepAccSpec StepRunSpec ParAccSpec ParRunSpec ParRun StepRunEx ParRunEx Replay.
Local Open Scope R_scope.

(** A point between the cuts of every pair stays within the excess of every later
    ellipsoid. *)
Theorem C110_keeps (lm : Libm) n s G cuts (e e' : Ell (FNum lm)) log d z : s <= 1 / 10 ->
  run_cuts parallel_cut e cuts = Ok (e', log) -> pair_run n s G e cuts -> in_slabs n z e cuts ->
  0 <= d -> fpts n e (1 + d) z -> fpts n e' (1 + ((G * (1 + s)) ^ length cuts * d + excess s G (length cuts))) z.
Proof. exact (fun H => pairs_keep lm n s G cuts H e e' log d z). Qed.
Print Assumptions C110_keeps.

(** The volume shrinks geometrically. *)
Theorem C110_shrinks (lm : Libm) n s G cuts (e e' : Ell (FNum lm)) log : s <= 1 / 10 ->
  run_cuts parallel_cut e cuts = Ok (e', log) -> pair_run n s G e cuts ->
  0 < fvol2 n e' <= ((1 + s) ^ n * exp (- / (INR n + 1))) ^ length cuts * fvol2 n e.
Proof. exact (fun H => pairs_shrink lm n s G cuts H e e' log). Qed.
Print Assumptions C110_shrinks.

(** The feasibility driver: what it has cut away, and how many iterations it can take. *)
Theorem C110_feas (lm : Libm) O n ok K s G (ora : OracleFeas (FNum lm) (Arr (FNum lm)) (ParallelCut (FNum lm)) O) opt o (e : Ell (FNum lm)) o' e' ans k :
  s <= 1 / 10 -> feas_pairs n ok K ora ->
  (forall l o1 e1, asked parallel_cut (tolerance opt) ora o e l o1 e1 -> (length l <= max_iters opt)%nat ->
    pair_run n s G e l /\ ((length l < max_iters opt)%nat -> ok o1 (e_xc e1))) ->
  cutting_plane_feas ora (ell_space parallel_cut) opt o e = Ok (o', e', (ans, k)) ->
  (ans <> None \/ k = max_iters opt -> forall z, K z -> fpts n e 1 z -> fpts n e' (1 + excess s G k) z) /\
  (forall z r, 0 < r -> (forall x, ball n z r x -> K x /\ fpts n e 1 x) ->
    (r * r) ^ n <= ((1 + excess s G k) ^ n * ((1 + s) ^ n * exp (- / (INR n + 1))) ^ k) * fvol2 n e).
Proof. exact (feas_pairs_run lm n ok K s G ora opt o e o' e' ans k). Qed.
Print Assumptions C110_feas.

(** The optimisation driver, with the points that beat the level it returns. *)
Theorem C110_optim (lm : Libm) O n ok beats s G (ora : OracleOptim (FNum lm) (Arr (FNum lm)) (ParallelCut (FNum lm)) O) opt o (e : Ell (FNum lm)) (ga : FNum lm) o' e' ga' ans k :
  s <= 1 / 10 -> opt_pairs n ok beats ora ->
  (forall l o1 e1 ga1 xb1, asked_opt parallel_cut (tolerance opt) ora o e ga None l o1 e1 ga1 xb1 -> (length l <= max_iters opt)%nat ->
    pair_run n s G e l /\ ((length l < max_iters opt)%nat -> ok o1 (e_xc e1) ga1)) ->
  cutting_plane_optim ora (ell_space parallel_cut) opt o e ga = Ok (o', e', ga', (ans, k)) ->
  (k = max_iters opt -> forall z, beats z ga' -> fpts n e 1 z -> fpts n e' (1 + excess s G k) z) /\
  (forall z r, 0 < r -> (forall x, ball n z r x -> beats x ga' /\ fpts n e 1 x) ->
    (r * r) ^ n <= ((1 + excess s G k) ^ n * ((1 + s) ^ n * exp (- / (INR n + 1))) ^ k) * fvol2 n e).
Proof. exact (optim_pairs_run lm n ok beats s G ora opt o e ga o' e' ga' ans k). Qed.
Print Assumptions C110_optim.

(** Two pairs of cuts, an oracle for a square and one for a linear function over a half
    plane to which these apply. *)
Example C110_case_cuts : exists cuts e' log, length cuts = 2%nat /\ run_cuts parallel_cut qe cuts = Ok (e', log) /\ pair_run 2 (1 / 1000) 4 qe cuts /\
  forall x, ball 2 zc 1 x -> fpts 2 qe 1 x /\ in_slabs 2 x qe cuts.
Proof. exact pairs_case. Qed.
Example C110_case_feas : feas_pairs 2 sq_ok in_square square /\
  (forall l o1 e1, asked parallel_cut (tolerance (qopt 9)) square tt qe l o1 e1 -> (length l <= max_iters (qopt 9))%nat ->
    pair_run 2 (1 / 1000) 4 qe l /\ ((length l < max_iters (qopt 9))%nat -> sq_ok o1 (e_xc e1))) /\
  (exists o' e' x, cutting_plane_feas square (ell_space parallel_cut) (qopt 9) tt qe = Ok (o', e', (Some x, 2%nat))) /\
  (forall x, ball 2 zc 1 x -> in_square x /\ fpts 2 qe 1 x).
Proof. exact feas_pairs_case. Qed.
Example C110_case_optim : opt_pairs 2 sl_ok right_of slope /\
  (forall l o1 e1 ga1 xb1, asked_opt parallel_cut (tolerance (qopt 2)) slope tt qe (fofZ 7 : F) None l o1 e1 ga1 xb1 -> (length l <= max_iters (qopt 2))%nat ->
    pair_run 2 (1 / 1000) 4 qe l /\ ((length l < max_iters (qopt 2))%nat -> sl_ok o1 (e_xc e1) ga1)) /\
  exists o' e' ga x, cutting_plane_optim slope (ell_space parallel_cut) (qopt 2) tt qe (fofZ 7 : F) = Ok (o', e', ga, (Some x, 2%nat)).
Proof. exact optim_pairs_case. Qed.
