(** C106: what the answers of the LMI oracle mean in binary64.  [fpencil n k o y] is
    B - y_0 F_0 - ... - y_{k-1} F_{k-1}, evaluated without rounding. *)
From Coq Require Import ZArith Reals List.
From Flocq Require Import Core IEEE754.BinarySingleNaN.
From Verif Require Import Num Res Arr CuttingPlane Spec LdltSpec Ldlt Lmi LmiSpec StepAccSpec LmiAccSpec LmiMain LmiAccEx Replay.
Local Open Scope R_scope.

(** It always answers and keeps the problem. *)
Theorem C106_answers (lm : Libm) n k r M (o : LMI (FNum lm)) x : lmi_fits n k r M o -> point_ok k r x ->
  exists o' c, lmi_assess (N := FNum lm) o x = Ok (o', c) /\ lmi_fits n k r M o' /\ lmi_f o' = lmi_f o /\ lmi_b o' = lmi_b o.
Proof. exact (lmi_fits_next lm n k r M o x). Qed.
Print Assumptions C106_answers.

(** No cut: the matrix is positive definite up to the tolerance. *)
Theorem C106_accepts (lm : Libm) n k r M (o : LMI (FNum lm)) x o' : lmi_fits n k r M o -> point_ok k r x ->
  lmi_assess (N := FNum lm) o x = Ok (o', None) -> pivots_ok n n o' -> pd n (shift (lmi_tol n k M) (fpencil n k o (fcoords x))).
Proof. exact (fun FT PT => lmi_accepts lm n k r M o x FT PT o'). Qed.
Print Assumptions C106_accepts.

(** A cut: its offset is a finite number and not negative, and no point of the box whose
    matrix is positive semidefinite with the tolerance to spare is cut off. *)
Theorem C106_cut (lm : Libm) n k r M (o : LMI (FNum lm)) x o' g bt : lmi_fits n k r M o -> point_ok k r x ->
  lmi_assess (N := FNum lm) o x = Ok (o', Some (g, bt)) -> pivots_ok n (snd (l_pos (lmi_mgr o'))) o' -> all_finite g ->
  length (adata g) = k /\ acols g = 0%nat /\ is_finite (sc_beta bt : f64) = true /\ 0 <= B2R (sc_beta bt : f64) /\
  forall y, in_box k r y -> psd n (shift (- lmi_tol n k M) (fpencil n k o y)) -> along k (fcoords g) y (fcoords x) + B2R (sc_beta bt : f64) < 0.
Proof. exact (fun FT PT E Hp Fg => lmi_cut_sound lm n k r M o x o' g bt FT PT E Hp Fg). Qed.
Print Assumptions C106_cut.

(** A cut is justified: at the point asked about, the matrix is not positive semidefinite
    with the tolerance to spare. *)
Theorem C106_rejects (lm : Libm) n k r M (o : LMI (FNum lm)) x o' g bt : lmi_fits n k r M o -> point_ok k r x ->
  lmi_assess (N := FNum lm) o x = Ok (o', Some (g, bt)) -> pivots_ok n (snd (l_pos (lmi_mgr o'))) o' -> all_finite g ->
  ~ psd n (shift (- lmi_tol n k M) (fpencil n k o (fcoords x))).
Proof. exact (lmi_cut_right lm n k r M o x o' g bt). Qed.
Print Assumptions C106_rejects.

(** How deep the cut is: with the direction [v] of the oracle's certificate, the cut's
    left-hand side is [- v'P(y)v] up to the tolerance. *)
Theorem C106_certificate (lm : Libm) n k r M (o : LMI (FNum lm)) x o' g bt : lmi_fits n k r M o -> point_ok k r x ->
  lmi_assess (N := FNum lm) o x = Ok (o', Some (g, bt)) -> pivots_ok n (snd (l_pos (lmi_mgr o'))) o' -> all_finite g ->
  exists v : vec, 1 <= dot n v v /\ forall y, in_box k r y ->
    Rabs (along k (fcoords g) y (fcoords x) + B2R (sc_beta bt : f64) + quad n (fpencil n k o y) v) < lmi_tol n k M * dot n v v.
Proof. exact (fun FT PT E Hp Fg => lmi_certificate lm n k r M o x FT PT o' g bt E Hp Fg). Qed.
Print Assumptions C106_certificate.

(** The matrices of the repository's test with coordinates up to 10: the origin is
    accepted, (1, 1, 1) is cut off, and the tolerance is below 10^-10. *)
Example C106_case : lmi_fits 2 3 (fun _ => 10) 500 t_o /\
  (point_ok 3 (fun _ => 10) (t_pt 0 0 0) /\ exists o', lmi_assess (N := F) t_o (t_pt 0 0 0) = Ok (o', None) /\ pivots_ok 2 2 o') /\
  (point_ok 3 (fun _ => 10) (t_pt 1 1 1) /\ exists o' g bt, lmi_assess (N := F) t_o (t_pt 1 1 1) = Ok (o', Some (g, bt)) /\ pivots_ok 2 (snd (l_pos (lmi_mgr o'))) o' /\ all_finite g) /\
  lmi_tol 2 3 500 <= 1 / 10000000000.
Proof. exact t_case. Qed.
