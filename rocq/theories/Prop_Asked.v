(** C103: the drivers apply the cuts the oracle asks for, one per iteration, and stop for a stated reason. *)
From Coq Require Import ZArith List.
From Flocq Require Import IEEE754.BinarySingleNaN.
From Verif Require Import Num Res Arr CuttingPlane EllCalc Ell EllRun StepRunSpec StepRun StepRunEx Replay.

(** In every arithmetic, for every oracle and either kind of cut. *)
Theorem C103_feas (N : Num) (C O : Type) (ct : CutType N C) (ora : OracleFeas N (Arr N) C O) opt o (e : Ell N) o' e' ans k :
  cutting_plane_feas ora (ell_space ct) opt o e = Ok (o', e', (ans, k)) -> feas_ends ct (tolerance opt) ora (max_iters opt) o e o' e' ans k.
Proof. exact (feas_asked ct (tolerance opt) ora opt o e o' e' ans k eq_refl). Qed.
Print Assumptions C103_feas.

Theorem C103_optim (N : Num) (C O : Type) (ct : CutType N C) (ora : OracleOptim N (Arr N) C O) opt o (e : Ell N) ga o' e' ga' ans k :
  cutting_plane_optim ora (ell_space ct) opt o e ga = Ok (o', e', ga', (ans, k)) -> opt_ends ct (tolerance opt) ora (max_iters opt) o e ga o' e' ga' ans k.
Proof. exact (optim_asked ct (tolerance opt) ora opt o e ga o' e' ga' ans k eq_refl). Qed.
Print Assumptions C103_optim.

(** The discrete driver, with its retry flag. *)
Theorem C103_q (N : Num) (C O : Type) (ct : CutType N C) (ora : OracleOptimQ N (Arr N) C O) opt o (e : Ell N) ga o' e' ga' ans k :
  cutting_plane_optim_q ora (ell_space ct) opt o e ga = Ok (o', e', ga', (ans, k)) -> q_ends ct (tolerance opt) ora (max_iters opt) o e ga o' e' ga' ans k.
Proof. exact (q_asked ct (tolerance opt) ora opt o e ga o' e' ga' ans k eq_refl). Qed.
Print Assumptions C103_q.

Example C103_case : (exists o' e' x, cutting_plane_feas quadrant (ell_space single_cut) (qopt 9) tt qe = Ok (o', e', (Some x, 2%nat))) /\
  (exists o' e' ga x, cutting_plane_optim downhill (ell_space single_cut) (qopt 2) tt qe (fofZ 7 : F) = Ok (o', e', ga, (Some x, 2%nat))) /\
  exists o' e' ga x, cutting_plane_optim_q downhill_q (ell_space single_cut) (qopt 4) tt qe (fofZ 7 : F) = Ok (o', e', ga, (Some x, 4%nat)).
Proof. exact asked_case. Qed.
