(** C107: the feasibility driver with the LMI oracles in binary64. *)
From Coq Require Import ZArith Reals List.
From Flocq Require Import Core IEEE754.BinarySingleNaN.
From Verif Require Import Num Res Arr CuttingPlane EllCalc Ell EllRun Spec Det RunSpec LdltSpec Ldlt Lmi LmiSpec LmiProofs AccSpec StepAccSpec StepRunSpec StepRunEx LmiAccSpec LmiAccRun LmiRunEx Replay.
Local Open Scope R_scope.

(** A point found satisfies the inequality up to the tolerance; the points that satisfy it
    with the tolerance to spare are not lost; and a ball of such points limits the number
    of iterations. *)
Theorem C107_run (lm : Libm) n k r M s G opt o (e : Ell (FNum lm)) o' e' ans it : lmi_fits n k r M o -> s <= 1 / 10 ->
  (forall l o1 e1, asked single_cut (tolerance opt) (lmi_oracle (N := FNum lm)) o e l o1 e1 -> (length l <= max_iters opt)%nat -> tame_run k s G e l /\ calm n k r (lmi_oracle (N := FNum lm)) o1 e1) ->
  cutting_plane_feas (lmi_oracle (N := FNum lm)) (ell_space single_cut) opt o e = Ok (o', e', (ans, it)) ->
  (forall x, ans = Some x -> pd n (shift (lmi_tol n k M) (fpencil n k o (fcoords x)))) /\
  (ans <> None \/ it = max_iters opt -> forall z, in_box k r z -> psd n (shift (- lmi_tol n k M) (fpencil n k o z)) -> fpts k e 1 z -> fpts k e' (1 + excess s G it) z) /\
  (forall z rho, 0 < rho -> (forall x, ball k z rho x -> in_box k r x /\ psd n (shift (- lmi_tol n k M) (fpencil n k o x)) /\ fpts k e 1 x) ->
    (rho * rho) ^ k <= ((1 + excess s G it) ^ k * ((1 + s) ^ k * exp (- / (INR k + 1))) ^ it) * fvol2 k e).
Proof. exact (lmi_feas_run lm n k r M s G (lmi_oracle (N := FNum lm)) (fun _ _ _ _ => eq_refl) opt o e o' e' ans it). Qed.
Print Assumptions C107_run.

(** The same for the oracle that assembles the matrix first. *)
Theorem C107_run_old (lm : Libm) n k r M s G opt o (e : Ell (FNum lm)) o' e' ans it : lmi_fits n k r M o -> s <= 1 / 10 ->
  (forall l o1 e1, asked single_cut (tolerance opt) (lmi_old_oracle (N := FNum lm)) o e l o1 e1 -> (length l <= max_iters opt)%nat -> tame_run k s G e l /\ calm n k r (lmi_old_oracle (N := FNum lm)) o1 e1) ->
  cutting_plane_feas (lmi_old_oracle (N := FNum lm)) (ell_space single_cut) opt o e = Ok (o', e', (ans, it)) ->
  (forall x, ans = Some x -> pd n (shift (lmi_tol n k M) (fpencil n k o (fcoords x)))) /\
  (ans <> None \/ it = max_iters opt -> forall z, in_box k r z -> psd n (shift (- lmi_tol n k M) (fpencil n k o z)) -> fpts k e 1 z -> fpts k e' (1 + excess s G it) z) /\
  (forall z rho, 0 < rho -> (forall x, ball k z rho x -> in_box k r x /\ psd n (shift (- lmi_tol n k M) (fpencil n k o x)) /\ fpts k e 1 x) ->
    (rho * rho) ^ k <= ((1 + excess s G it) ^ k * ((1 + s) ^ k * exp (- / (INR k + 1))) ^ it) * fvol2 k e).
Proof. exact (lmi_feas_run lm n k r M s G (lmi_old_oracle (N := FNum lm)) (lmi_old_same (N := FNum lm) n) opt o e o' e' ans it). Qed.
Print Assumptions C107_run_old.

(** The quadrant x_0 < 0, x_1 < 0 as an LMI: from the disc of radius 4 around (1, 1) a
    point is found after two cuts. *)
Example C107_case : lmi_fits 2 2 (fun _ => 5) 5 q_o /\
  (forall l o1 e1, asked single_cut (tolerance (qopt 9)) (lmi_oracle (N := F)) q_o qe l o1 e1 -> (length l <= max_iters (qopt 9))%nat ->
    tame_run 2 (/ 1000000) 4 qe l /\ calm 2 2 (fun _ => 5) (lmi_oracle (N := F)) o1 e1) /\
  (exists o' e' x, cutting_plane_feas (lmi_oracle (N := F)) (ell_space single_cut) (qopt 9) q_o qe = Ok (o', e', (Some x, 2%nat))) /\
  (forall x, ball 2 zc (1 / 2) x -> in_box 2 (fun _ => 5) x /\ psd 2 (shift (- lmi_tol 2 2 5) (fpencil 2 2 q_o x)) /\ fpts 2 qe 1 x).
Proof. exact lmi_run_case. Qed.
