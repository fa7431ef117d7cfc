(** The tests of /repo/tests that minimise sums of squares, and those of
    tests/cutting_plane_tests.rs, recomputed by the model in binary64.  These are
    checks of the model, not properties. *)
From Coq Require Import ZArith List Bool Arith.
From Flocq Require Import Core IEEE754.BinarySingleNaN.
From Verif Require Import Num Res Arr CuttingPlane EllCalc Ell Replay Squares.
Import ListNotations.

Definition fgt (a b : f64) : bool := nltb (n := F) b a.
Definition sq_run (ora : OracleOptim F (Arr F) (SingleCut F) unit) (val : f64) (x : Arr F) (m : nat) (tol : f64) :=
  e <- ell_new_with_scalar (N := F) val x ;; cutting_plane_optim (N := F) ora space (mkOptions (N := F) m tol) tt e inf.
Definition sq_test (r : res (unit * Ell F * f64 * (option (Arr F) * nat))) (ok : Arr F -> f64 -> nat -> bool) : bool :=
  match r with Ok (_, _, gamma, (Some x, k)) => ok x gamma k | _ => false end.
Definition small (b : f64) (x : Arr F) : bool := forallb (fun v => nltb (n := F) (nabs (n := F) v) b) (adata x).
Definition is_fin (v : f64) : bool := is_finite v.
Definition zpos (v : f64) : bool := nleb (n := F) (fofZ 0) v.
(** tests/integration_test.rs 5-37 *)
Example replay_sq1 : sq_test (sq_run sq2_assess (fofZ 10) (ints [5; 5]%Z) 1000 (flit 1 (-10))) (fun x g k => small (flit 5 (-1)) x && fgt (fofZ 1) g) = true.
Proof. vm_cast_no_check (eq_refl true). Qed.
(** 39-81, 84-132 *)
Definition err2 (x t : Arr F) : f64 := match (d <- a_sub x t ;; a_dot d d) with Ok v => v | Panic => B754_nan end.
Example replay_sq2 : let t := a_from (N := F) [flit 2 0; flit (-15) (-1)] in
  sq_test (sq_run (sqt_assess t) (fofZ 20) (ints [10; 10]%Z) 1000 (flit 1 (-10))) (fun x g k => fgt (fofZ 225) (err2 x t)) = true.
Proof. vm_cast_no_check (eq_refl true). Qed.
Example replay_sq3 : let t := ints [1; 2; 3; 4; 5]%Z in
  sq_test (sq_run (sqt_assess t) (fofZ 10) (ints [0; 0; 0; 0; 0]%Z) 2000 (flit 1 (-10))) (fun x g k => fgt (fofZ 45) (err2 x t)) = true.
Proof. vm_cast_no_check (eq_refl true). Qed.
(** 134-169, 171-220 *)
Example replay_sq4 : sq_test (sq_run sq2_assess (fofZ 10) (ints [3; 3]%Z) 500 (flit 1 (-12))) (fun x g k => is_fin g && zpos g && fgt (fofZ 10) g) = true.
Proof. vm_cast_no_check (eq_refl true). Qed.
Example replay_sq5 : forallb (fun x0 => sq_test (sq_run sq2_assess (fofZ 10) (ints x0) 1000 (flit 1 (-10))) (fun x g k => fgt (fofZ 100) g))
  [[1; 1]; [-1; -1]; [5; -5]; [10; 0]]%Z = true.
Proof. vm_cast_no_check (eq_refl true). Qed.
(** tests/regression_tests.rs 5-40, 43-89, 168-212 *)
Example replay_sq6 : sq_test (sq_run sq2_assess (fofZ 10) (ints [3; 3]%Z) 1000 (flit 1 (-10))) (fun x g k => (k <? 1000) && fgt (fofZ 10) g) = true.
Proof. vm_cast_no_check (eq_refl true). Qed.
Example replay_sq7 : forallb (fun x0 => sq_test (sq_run sq2_assess (fofZ 20) (ints x0) 2000 (flit 1 (-10))) (fun x g k => small (fofZ 10) x))
  [[3; 3]; [-5; 5]; [10; -10]]%Z = true.
Proof. vm_cast_no_check (eq_refl true). Qed.
Example replay_sq8 : forallb (fun n => sq_test (sq_run (sqn_assess n) (fofZ 10) (a_from (N := F) (repeat (fofZ 3) n)) 3000 (flit 1 (-10))) (fun x g k => k <? 3000))
  [2; 4; 8] = true.
Proof. vm_cast_no_check (eq_refl true). Qed.
(** tests/numerical_stability.rs 5-48, 87-121, 123-157, 159-193 *)
Example replay_sq9 : forallb (fun c => sq_test (sq_run (sqc_assess (N := F) (flit 1 c)) (fofZ 10) (ints [1; 1]%Z) 2000 (flit 1 (-12))) (fun x g k => is_fin g))
  [3; 5; 7]%Z = true.
Proof. vm_cast_no_check (eq_refl true). Qed.
Example replay_sq10 : forallb (fun c => let s := flit 1 c in sq_test (sq_run (sqs_assess (N := F) s) (nmul (n := F) (fofZ 10) (nsqrt (n := F) s)) (a_from (N := F) [s; s]) 2000 (flit 1 (-10))) (fun x g k => true))
  [-6; 6]%Z = true.
Proof. vm_cast_no_check (eq_refl true). Qed.
Example replay_sq11 : forallb (fun c => sq_test (sq_run sq2_assess (fofZ 10) (ints [3; 3]%Z) 2000 (flit 1 c)) (fun x g k => true))
  [-6; -10; -14]%Z = true.
Proof. vm_cast_no_check (eq_refl true). Qed.
Example replay_sq12 : sq_test (sq_run sq2_assess (fofZ 10) (ints [1000; -1000]%Z) 3000 (flit 1 (-12))) (fun x g k => fgt (fofZ 2000000) g) = true.
Proof. vm_cast_no_check (eq_refl true). Qed.

(** tests/cutting_plane_tests.rs 9-42: x + y <= 3; an oracle that always cuts *)
Definition cp_feas : OracleFeas F (Arr F) (SingleCut F) unit := mkOracleFeas F _ _ _ (fun o xc =>
  x <- a_idx xc 0 ;; y <- a_idx xc 1 ;;
  let fj := nsub (n := F) (nadd (n := F) x y) (fofZ 3) in
  Ok (o, if nltb (n := F) (fofZ 0) fj then Some (ints [1; 1]%Z, mkSingle (N := F) fj) else None)) (fun o _ => o).
Definition cp_infeas : OracleFeas F (Arr F) (SingleCut F) unit := mkOracleFeas F _ _ _ (fun o xc =>
  Ok (o, Some (ints [1; 1]%Z, mkSingle (N := F) (fofZ 1)))) (fun o _ => o).
(** tests/cutting_plane_tests.rs 47-72 *)
Definition cp_optim (o : unit) (xc : Arr F) (gamma : f64) : res (unit * f64 * ((Arr F * SingleCut F) * bool)) :=
  x <- a_idx xc 0 ;; y <- a_idx xc 1 ;;
  let f0 := nadd (n := F) x y in
  let f1 := nsub (n := F) x (fofZ 1) in
  if nltb (n := F) (fofZ 0) f1 then Ok (o, gamma, ((ints [1; 0]%Z, mkSingle (N := F) f1), false)) else
  let f2 := nsub (n := F) y (fofZ 1) in
  if nltb (n := F) (fofZ 0) f2 then Ok (o, gamma, ((ints [0; 1]%Z, mkSingle (N := F) f2), false)) else
  let f3 := nsub (n := F) f0 gamma in
  if nltb (n := F) f3 (fofZ 0) then Ok (o, gamma, ((ints [-1; -1]%Z, mkSingle (N := F) (nopp (n := F) f3)), false)) else
  Ok (o, gamma, ((ints [-1; -1]%Z, mkSingle (N := F) (fofZ 0)), true)).
(** tests/cutting_plane_tests.rs 89-120 *)
Definition cp_optim2 (o : unit) (xc : Arr F) (gamma : f64) : res (unit * f64 * ((Arr F * SingleCut F) * bool)) :=
  Ok (o, gamma, ((ints [1; 1]%Z, mkSingle (N := F) (fofZ 1)), false)).
Definition cp_q2 (o : unit) (xc : Arr F) (gamma : f64) (retry : bool) : res (unit * f64 * ((Arr F * SingleCut F) * bool * Arr F * bool)) :=
  Ok (o, gamma, ((ints [1; 1]%Z, mkSingle (N := F) (fofZ 1)), false, xc, true)).
(** tests/cutting_plane_tests.rs 193-270 *)
Definition cp_q3 (o : unit) (xc : Arr F) (gamma : f64) (retry : bool) : res (unit * f64 * ((Arr F * SingleCut F) * bool * Arr F * bool)) :=
  x <- a_idx xc 0 ;; y <- a_idx xc 1 ;;
  let pos v := nltb (n := F) (fofZ 0) v in
  let f1 := nsub (n := F) x (fofZ 1) in
  if pos f1 then Ok (o, gamma, ((ints [1; 0]%Z, mkSingle (N := F) f1), false, xc, true)) else
  let f2 := nsub (n := F) y (fofZ 1) in
  if pos f2 then Ok (o, gamma, ((ints [0; 1]%Z, mkSingle (N := F) f2), false, xc, true)) else
  let f3 := nsub (n := F) (nadd (n := F) x y) gamma in
  if nltb (n := F) f3 (fofZ 0) then Ok (o, gamma, ((ints [-1; -1]%Z, mkSingle (N := F) (nopp (n := F) f3)), false, xc, true)) else
  let xq := nround (n := F) x in let yq := nround (n := F) y in
  let x_q := a_from (N := F) [xq; yq] in
  let f1q := nsub (n := F) xq (fofZ 1) in
  if pos f1q then Ok (o, gamma, ((ints [1; 0]%Z, mkSingle (N := F) f1q), false, x_q, negb retry)) else
  let f2q := nsub (n := F) yq (fofZ 1) in
  if pos f2q then Ok (o, gamma, ((ints [0; 1]%Z, mkSingle (N := F) f2q), false, x_q, negb retry)) else
  let f3q := nsub (n := F) (nadd (n := F) xq yq) gamma in
  if nltb (n := F) f3q (fofZ 0) then Ok (o, gamma, ((ints [-1; -1]%Z, mkSingle (N := F) (nopp (n := F) f3q)), false, x_q, negb retry)) else
  Ok (o, nadd (n := F) xq yq, ((ints [-1; -1]%Z, mkSingle (N := F) (fofZ 0)), true, x_q, negb retry)).
Definition copts (m : nat) (e : Z) : Options F := mkOptions (N := F) m (flit 1 e).
Definition at0 := ell_at 10 (ints [0; 0]%Z).
(** tests/cutting_plane_tests.rs 128-190 *)
Example replay_cp1 : foutcome (e <- at0 ;; cutting_plane_feas (N := F) cp_feas space (copts 200 (-20)) tt e) = Some (true, 0).
Proof. vm_compute. reflexivity. Qed.
Example replay_cp2 : foutcome (e <- at0 ;; cutting_plane_feas (N := F) cp_infeas space (copts 200 (-20)) tt e) = Some (false, 2).
Proof. vm_compute. reflexivity. Qed.
Example replay_cp3 : option_map fst (outcome (e <- at0 ;; cutting_plane_optim (N := F) cp_optim space (copts 200 (-20)) tt e (fofZ 0))) = Some true.
Proof. vm_compute. reflexivity. Qed.
Example replay_cp4 : outcome (e <- at0 ;; cutting_plane_optim (N := F) cp_optim space (copts 4 (-20)) tt e (fofZ 100)) = Some (false, 0).
Proof. vm_compute. reflexivity. Qed.
Example replay_cp5 : outcome (e <- at0 ;; cutting_plane_optim (N := F) cp_optim2 space (copts 5 (-20)) tt e (fofZ 0)) = Some (false, 2).
Proof. vm_compute. reflexivity. Qed.
Example replay_cp6 : foutcome (e <- at0 ;; cutting_plane_feas (N := F) cp_infeas space (copts 5 (-20)) tt e) = Some (false, 2).
Proof. vm_compute. reflexivity. Qed.
(** 272-305 *)
Example replay_cp7 : option_map fst (outcome (e <- at0 ;; cutting_plane_optim_q (N := F) cp_q3 space (copts 200 (-20)) tt e (fofZ 0))) = Some true.
Proof. vm_compute. reflexivity. Qed.
Example replay_cp8 : outcome (e <- at0 ;; cutting_plane_optim_q (N := F) cp_q3 space (copts 20 (-20)) tt e (fofZ 100)) = Some (false, 0).
Proof. vm_compute. reflexivity. Qed.
Example replay_cp9 : outcome (e <- at0 ;; cutting_plane_optim_q (N := F) cp_q2 space (copts 5 (-20)) tt e (fofZ 0)) = Some (false, 2).
Proof. vm_compute. reflexivity. Qed.
(** 311-330: [MyOracleBS2] accepts every positive gamma *)
Definition cp_bs (o : unit) (gamma : f64) : res (unit * bool) := Ok (o, nltb (n := F) (fofZ 0) gamma).
Example replay_cp10 : match bsearch (N := F) cp_bs (copts 2000 (-7)) tt (fofZ (-100), fofZ 100) with Ok (_, _, r) => r = (true, 30) | Panic => False end.
Proof. vm_compute. reflexivity. Qed.
Example replay_cp11 : match bsearch (N := F) cp_bs (copts 20 (-20)) tt (fofZ (-100), fofZ (-50)) with Ok (_, _, r) => r = (false, 20) | Panic => False end.
Proof. vm_compute. reflexivity. Qed.
(** 357-367 *)
Example replay_cp12 : match (e <- at0 ;; bsearch (N := F) (assess_bs (N := F) cp_feas space) (copts 2000 (-8)) (mkAdaptor (N := F) tt e opts0) (fofZ (-100), fofZ 100)) with
  | Ok (_, _, (b, _)) => b = true | Panic => False end.
Proof. vm_compute. reflexivity. Qed.
