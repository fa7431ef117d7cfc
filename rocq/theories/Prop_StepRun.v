(** C104: sequences of cuts and runs of the drivers in binary64. *)
From Coq Require Import ZArith Reals List.
From Flocq Require Import Core IEEE754.BinarySingleNaN.
From Verif Require Import Num Res Arr CuttingPlane EllCalc Ell EllRun Spec RunSpec AccSpec StepAccSpec StepRunSpec StepRun StepRunEx Replay.
Local Open Scope R_scope.

(** A point that satisfies every cut stays within the excess of every later ellipsoid. *)
Theorem C104_keeps (lm : Libm) n s G cuts (e e' : Ell (FNum lm)) log d z : s <= 1 / 10 ->
  run_cuts single_cut e cuts = Ok (e', log) -> tame_run n s G e cuts -> satisfies n z e cuts ->
  0 <= d -> fpts n e (1 + d) z -> fpts n e' (1 + ((G * (1 + s)) ^ length cuts * d + excess s G (length cuts))) z.
Proof. exact (fun H => run_keeps lm n s G cuts H e e' log d z). Qed.
Print Assumptions C104_keeps.

(** The volume shrinks geometrically. *)
Theorem C104_shrinks (lm : Libm) n s G cuts (e e' : Ell (FNum lm)) log : s <= 1 / 10 ->
  run_cuts single_cut e cuts = Ok (e', log) -> tame_run n s G e cuts ->
  0 < fvol2 n e' <= ((1 + s) ^ n * exp (- / (INR n + 1))) ^ length cuts * fvol2 n e.
Proof. exact (fun H => run_shrinks lm n s G cuts H e e' log). Qed.
Print Assumptions C104_shrinks.

(** The feasibility driver: what it has cut away, and how many iterations it can take. *)
Theorem C104_feas (lm : Libm) O n K s G (ora : OracleFeas (FNum lm) (Arr (FNum lm)) (SingleCut (FNum lm)) O) opt o (e : Ell (FNum lm)) o' e' ans k :
  s <= 1 / 10 -> feas_valid n K ora ->
  (forall l o1 e1, asked single_cut (tolerance opt) ora o e l o1 e1 -> (length l <= max_iters opt)%nat -> tame_run n s G e l) ->
  cutting_plane_feas ora (ell_space single_cut) opt o e = Ok (o', e', (ans, k)) ->
  (ans <> None \/ k = max_iters opt -> forall z, K z -> fpts n e 1 z -> fpts n e' (1 + excess s G k) z) /\
  (forall z r, 0 < r -> (forall x, ball n z r x -> K x /\ fpts n e 1 x) ->
    (r * r) ^ n <= ((1 + excess s G k) ^ n * ((1 + s) ^ n * exp (- / (INR n + 1))) ^ k) * fvol2 n e).
Proof. exact (feas_run lm n K s G ora opt o e o' e' ans k). Qed.
Print Assumptions C104_feas.

(** The optimisation driver, with the points that beat the level it returns. *)
Theorem C104_optim (lm : Libm) O n beats s G (ora : OracleOptim (FNum lm) (Arr (FNum lm)) (SingleCut (FNum lm)) O) opt o (e : Ell (FNum lm)) ga o' e' ga' ans k :
  s <= 1 / 10 -> opt_valid n beats ora ->
  (forall l o1 e1 ga1 xb1, asked_opt single_cut (tolerance opt) ora o e ga None l o1 e1 ga1 xb1 -> (length l <= max_iters opt)%nat -> tame_run n s G e l) ->
  cutting_plane_optim ora (ell_space single_cut) opt o e ga = Ok (o', e', ga', (ans, k)) ->
  (k = max_iters opt -> forall z, beats z ga' -> fpts n e 1 z -> fpts n e' (1 + excess s G k) z) /\
  (forall z r, 0 < r -> (forall x, ball n z r x -> beats x ga' /\ fpts n e 1 x) ->
    (r * r) ^ n <= ((1 + excess s G k) ^ n * ((1 + s) ^ n * exp (- / (INR n + 1))) ^ k) * fvol2 n e).
Proof. exact (optim_run lm n beats s G ora opt o e ga o' e' ga' ans k). Qed.
Print Assumptions C104_optim.

(** Two cuts, an oracle for a quadrant and one for a linear function to which these apply. *)
Example C104_case_cuts : exists cuts e' log, length cuts = 2%nat /\ run_cuts single_cut qe cuts = Ok (e', log) /\ tame_run 2 (/ 1000000) 4 qe cuts /\
  forall x, ball 2 zc 1 x -> fpts 2 qe 1 x /\ satisfies 2 x qe cuts.
Proof. exact cuts_case. Qed.
Example C104_case_feas : feas_valid 2 in_quadrant quadrant /\
  (forall l o1 e1, asked single_cut (tolerance (qopt 9)) quadrant tt qe l o1 e1 -> (length l <= max_iters (qopt 9))%nat -> tame_run 2 (/ 1000000) 4 qe l) /\
  (exists o' e' x, cutting_plane_feas quadrant (ell_space single_cut) (qopt 9) tt qe = Ok (o', e', (Some x, 2%nat))) /\
  (forall x, ball 2 zc 1 x -> in_quadrant x /\ fpts 2 qe 1 x).
Proof. exact feas_case. Qed.
Example C104_case_optim : opt_valid 2 lower downhill /\
  (forall l o1 e1 ga1 xb1, asked_opt single_cut (tolerance (qopt 2)) downhill tt qe (fofZ 7 : F) None l o1 e1 ga1 xb1 -> (length l <= max_iters (qopt 2))%nat -> tame_run 2 (/ 1000000) 4 qe l) /\
  exists o' e' ga x, cutting_plane_optim downhill (ell_space single_cut) (qopt 2) tt qe (fofZ 7 : F) = Ok (o', e', ga, (Some x, 2%nat)).
Proof. exact optim_case. Qed.
