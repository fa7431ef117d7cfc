(** The tests of the repository that use exp and ln and record a number of iterations,
    recomputed by the model in binary64.  The exp and ln used here are not those of a C
    library, but good enough for the runs to take the same course.  These are checks of
    the model, not properties. *)
From Coq Require Import ZArith List Bool Arith.
From Flocq Require Import IEEE754.BinarySingleNaN.
From Verif Require Import Num Res Arr CuttingPlane EllCalc Ell Examples Profit Replay.
Import ListNotations.

(** 14 terms of the series at x/64, squared six times *)
Definition fexp_ser (x : f64) : f64 :=
  let h := fdiv x (fofZ 64) in
  Nat.iter 6 (fun z => fmul z z) (fold_left (fun s k => fadd (fofZ 1) (fdiv (fmul h s) (fofZ k))) [14; 13; 12; 11; 10; 9; 8; 7; 6; 5; 4; 3; 2; 1]%Z (fofZ 1)).
(** a Halley step from the rough logarithm of Num.v *)
Definition fln_ser (x : f64) : f64 :=
  let y := fln x in let e := fexp_ser y in
  fadd y (fdiv (fmul (fofZ 2) (fsub x e)) (fadd x e)).
Definition lm2 : Libm := mkLibm fexp_ser fln_ser fcos false.
Notation P := (FNum lm2).
Definition farr (l : list f64) : Arr P := a_from (N := P) l.
(** profit_oracle.rs 174-176 *)
Definition pr_el := farr [flit 1 (-1); flit 4 (-1)].
Definition pr_po := farr [fofZ 10; fofZ 35].
Definition pr_ell : res (Ell P) := ell_new (N := P) (farr [fofZ 100; fofZ 100]) (farr [fofZ 0; fofZ 0]).
(** the number of iterations, and whether the test's check of the answer passes *)
Definition ended {O S} (chk : Arr P -> bool) (r : res (O * S * f64 * (option (Arr P) * nat))) : option (bool * nat) :=
  match r with Ok (_, _, _, (Some x, k)) => Some (chk x, k) | Ok (_, _, _, (None, k)) => Some (false, k) | Panic => None end.
Definition below_limit (y : Arr P) : bool := match a_idx y 0 with Ok v => Bleb v (fln_ser (flit 305 (-1))) | Panic => false end.

(** profit_oracle.rs 172-188 *)
Example replay_profit : ended below_limit (e <- pr_ell ;;
  cutting_plane_optim (N := P) profit_assess (ell_space single_cut) (options_default (N := P)) (profit_new (N := P) (fofZ 20) (fofZ 40) (flit 305 (-1)) pr_el pr_po) e (fofZ 0)) = Some (true, 83).
Proof. vm_compute. reflexivity. Qed.
(** profit_oracle.rs 190-207 *)
Example replay_profit_rb : ended below_limit (e <- pr_ell ;; o <- profit_rb_new (N := P) (fofZ 20) (fofZ 40) (flit 305 (-1)) pr_el pr_po (flit 3 (-3)) (flit 7 (-3)) (fofZ 1) (fofZ 1) (fofZ 1) ;;
  cutting_plane_optim (N := P) profit_rb_assess (ell_space single_cut) (options_default (N := P)) o e (fofZ 0)) = Some (true, 90).
Proof. vm_compute. reflexivity. Qed.
(** profit_oracle.rs 209-225 *)
Example replay_profit_q : ended below_limit (e <- pr_ell ;;
  cutting_plane_optim_q (N := P) profit_q_assess (ell_space single_cut) (options_default (N := P)) (profit_q_new (N := P) (fofZ 20) (fofZ 40) (flit 305 (-1)) pr_el pr_po) e (fofZ 0)) = Some (true, 29).
Proof. vm_compute. reflexivity. Qed.
(** profit_oracle.rs 227-242 *)
Example replay_profit_direct :
  match profit_assess (N := P) (profit_new (N := P) (fofZ 20) (fofZ 40) (flit 305 (-1)) pr_el pr_po) (farr [flit 35 (-1); fofZ 2]) (fofZ 0) with
  | Ok (o, ga, ((_, c), false)) => Beqb (sc_beta c) (fsub (flit 35 (-1)) (fln_ser (flit 305 (-1)))) &&
      match profit_assess (N := P) o (farr [fofZ 3; fofZ 2]) ga with Ok (_, _, ((_, c), true)) => Beqb (sc_beta c) (fofZ 0) | _ => false end
  | _ => false
  end = true.
Proof. vm_compute. reflexivity. Qed.
(** quasicvx.rs 60-78 *)
Definition qcvx_chk (x : Arr P) : bool :=
  match a_idx x 0, a_idx x 1 with
  | Ok a, Ok b => Bleb (flit 49 (-2)) (fmul a a) && Bleb (fmul a a) (flit 51 (-2)) && Bleb (flit 16 (-1)) (fexp_ser b) && Bleb (fexp_ser b) (flit 17 (-1))
  | _, _ => false
  end.
Example replay_quasicvx : ended qcvx_chk (e <- ell_new (N := P) (farr [fofZ 10; fofZ 10]) (farr [fofZ 0; fofZ 0]) ;;
  cutting_plane_optim (N := P) qcvx_assess (ell_space single_cut) (mkOptions (N := P) 2000 (flit 1 (-8))) (-1)%Z e (fofZ 0)) = Some (true, 35).
Proof. vm_compute. reflexivity. Qed.
