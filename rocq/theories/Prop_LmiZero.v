(** C108: what the answers of the homogeneous LMI oracle mean in binary64.
    [fpencil0 n k o y] is y_0 F_0 + ... + y_{k-1} F_{k-1}, evaluated without rounding. *)
From Coq Require Import ZArith Reals List.
From Flocq Require Import Core IEEE754.BinarySingleNaN.
From Verif Require Import Num Res Arr CuttingPlane Spec LdltSpec Ldlt Lmi LmiSpec StepAccSpec LmiAccSpec LmiZero LmiAccEx LmiZeroEx Replay.
Local Open Scope R_scope.

(** It always answers and keeps the problem. *)
Theorem C108_answers (lm : Libm) n k r M (o : LMI0 (FNum lm)) x : lmi0_fits n k r M o -> point_ok k r x ->
  exists o' c, lmi0_assess (N := FNum lm) o x = Ok (o', c) /\ lmi0_fits n k r M o' /\ lmi0_f o' = lmi0_f o.
Proof. exact (lmi0_fits_next lm n k r M o x). Qed.
Print Assumptions C108_answers.

(** No cut: the matrix is positive definite up to the tolerance. *)
Theorem C108_accepts (lm : Libm) n k r M (o : LMI0 (FNum lm)) x o' : lmi0_fits n k r M o -> point_ok k r x ->
  lmi0_assess (N := FNum lm) o x = Ok (o', None) -> pivots0_ok n n o' -> pd n (shift (lmi_tol n k M) (fpencil0 n k o (fcoords x))).
Proof. exact (fun FT PT => lmi0_accepts lm n k r M o x FT PT o'). Qed.
Print Assumptions C108_accepts.

(** A cut: its offset is a finite number and not negative, and no point of the box whose
    matrix is positive semidefinite with the tolerance to spare is cut off. *)
Theorem C108_cut (lm : Libm) n k r M (o : LMI0 (FNum lm)) x o' g ep : lmi0_fits n k r M o -> point_ok k r x ->
  lmi0_assess (N := FNum lm) o x = Ok (o', Some (g, ep)) -> pivots0_ok n (snd (l_pos (lmi0_mgr o'))) o' -> all_finite g ->
  length (adata g) = k /\ acols g = 0%nat /\ is_finite (ep : f64) = true /\ 0 <= B2R (ep : f64) /\
  forall y, in_box k r y -> psd n (shift (- lmi_tol n k M) (fpencil0 n k o y)) -> along k (fcoords g) y (fcoords x) + B2R (ep : f64) < 0.
Proof. exact (fun FT PT => lmi0_cut lm n k r M o x FT PT o' g ep). Qed.
Print Assumptions C108_cut.

(** A cut is justified: at the point asked about, the matrix is not positive semidefinite
    with the tolerance to spare. *)
Theorem C108_rejects (lm : Libm) n k r M (o : LMI0 (FNum lm)) x o' g ep : lmi0_fits n k r M o -> point_ok k r x ->
  lmi0_assess (N := FNum lm) o x = Ok (o', Some (g, ep)) -> pivots0_ok n (snd (l_pos (lmi0_mgr o'))) o' -> all_finite g ->
  ~ psd n (shift (- lmi_tol n k M) (fpencil0 n k o (fcoords x))).
Proof. exact (fun FT PT => lmi0_right lm n k r M o x FT PT o' g ep). Qed.
Print Assumptions C108_rejects.

(** How deep the cut is: with the direction [v] of the oracle's certificate, the cut's
    left-hand side is [- v'P(y)v] up to the tolerance. *)
Theorem C108_certificate (lm : Libm) n k r M (o : LMI0 (FNum lm)) x o' g ep : lmi0_fits n k r M o -> point_ok k r x ->
  lmi0_assess (N := FNum lm) o x = Ok (o', Some (g, ep)) -> pivots0_ok n (snd (l_pos (lmi0_mgr o'))) o' -> all_finite g ->
  exists v : vec, 1 <= dot n v v /\ forall y, in_box k r y ->
    Rabs (along k (fcoords g) y (fcoords x) + B2R (ep : f64) + quad n (fpencil0 n k o y) v) < lmi_tol n k M * dot n v v.
Proof. exact (fun FT PT E Hp Fg => proj2 (proj2 (proj2 (proj2 (lmi0_certificate lm n k r M o x FT PT o' g ep E Hp Fg))))). Qed.
Print Assumptions C108_certificate.

(** The matrices of the repository's test with coordinates up to 10: (2, 3, -10) is
    accepted, (0, 1, 0) is cut off, and the tolerance is below 10^-10. *)
Example C108_case : lmi0_new (N := F) t_f = Ok z_o /\ lmi0_fits 2 3 (fun _ => 10) 500 z_o /\
  (point_ok 3 (fun _ => 10) (t_pt 2 3 (-10)) /\ exists o', lmi0_assess (N := F) z_o (t_pt 2 3 (-10)) = Ok (o', None) /\ pivots0_ok 2 2 o') /\
  (point_ok 3 (fun _ => 10) (t_pt 0 1 0) /\ exists o' g ep, lmi0_assess (N := F) z_o (t_pt 0 1 0) = Ok (o', Some (g, ep)) /\ pivots0_ok 2 (snd (l_pos (lmi0_mgr o'))) o' /\ all_finite g) /\
  lmi_tol 2 3 500 <= 1 / 10000000000.
Proof. exact z_case. Qed.
