(** The unit tests of the repository that need no libm function, recomputed by
    the model in binary64.  These are checks of the model, not properties. *)
From Coq Require Import ZArith List Bool Arith.
From Flocq Require Import Core IEEE754.BinarySingleNaN.
From Verif Require Import Num Res Arr CuttingPlane EllCalc Ell EllStable Examples Ldlt Lmi.
Import ListNotations.

Notation F := (FNum lm0).
Definition ints (l : list Z) : Arr F := a_from (N := F) (map fofZ l).
Definition opts (e : Z) : Options F := mkOptions (N := F) 2000 (flit 1 e).
Definition opts0 : Options F := options_default.
Definition outcome {O S} (r : res (O * S * f64 * (option (Arr F) * nat))) : option (bool * nat) :=
  match r with Ok (_, _, _, (Some _, k)) => Some (true, k) | Ok (_, _, _, (None, k)) => Some (false, k) | Panic => None end.
Definition inf : f64 := B754_infinity false.
Definition neginf : f64 := B754_infinity true.
Definition ell_at (v : Z) (xc : Arr F) := ell_new_with_scalar (N := F) (fofZ v) xc.
Definition space := ell_space (N := F) single_cut.

(** example1.rs 38-70 *)
Example replay_ex1 : outcome (e <- ell_at 10 (ints [0; 0]%Z) ;; cutting_plane_optim (N := F) ex1_assess space (opts (-10)) tt e neginf) = Some (true, 25).
Proof. vm_compute. reflexivity. Qed.
Example replay_ex1_infeasible1 : option_map fst (outcome (e <- ell_new (N := F) (ints [10; 10]%Z) (ints [100; 100]%Z) ;;
  cutting_plane_optim (N := F) ex1_assess space opts0 tt e neginf)) = Some false.
Proof. vm_compute. reflexivity. Qed.
Example replay_ex1_infeasible2 : option_map fst (outcome (e <- ell_new (N := F) (ints [10; 10]%Z) (ints [0; 0]%Z) ;;
  cutting_plane_optim (N := F) ex1_assess space opts0 tt e (fofZ 100))) = Some false.
Proof. vm_compute. reflexivity. Qed.
(** example1_rr.rs 62-74 *)
Example replay_ex1rr : outcome (e <- ell_at 10 (ints [0; 0]%Z) ;; cutting_plane_optim (N := F) ex1rr_assess space (opts (-10)) (-1)%Z e neginf) = Some (true, 25).
Proof. vm_compute. reflexivity. Qed.
(** example4.rs 65-77 *)
Example replay_ex4 : outcome (e <- ell_at 10 (ints [0; 0]%Z) ;; cutting_plane_optim (N := F) ex4_assess space (opts (-10)) (-1)%Z e neginf) = Some (true, 82).
Proof. vm_compute. reflexivity. Qed.
(** example3.rs 68-85 *)
Example replay_ex3 : match
    (e <- ell_at 100 (ints [0; 0]%Z) ;;
     bsearch (N := F) (assess_bs (N := F) ex3_oracle space) (opts (-8)) (mkAdaptor (N := F) (ex3_default (N := F)) e (opts (-8))) (fofZ (-100), fofZ 100)) with
  | Ok (_, _, r) => r = (true, 34) | Panic => False end.
Proof. vm_compute. reflexivity. Qed.

(** the test oracle of tests/example2_tests.rs 10-48 *)
Definition ex2_assess (idx : Z) (xc : Arr F) : res (Z * option (Arr F * SingleCut F)) :=
  x <- a_idx xc 0 ;; y <- a_idx xc 1 ;;
  c <- round_robin (N := F) 2 (fun i (s : unit) =>
         match i with 0%Z => Ok (s, nsub (n := F) (x +! y) (nZ 3)) | 1%Z => Ok (s, -! x +! y +! n1) | _ => Panic end) idx tt ;;
  match c with
  | Done (i, _, f) => Ok (i, Some (ints (if (i =? 0)%Z then [1; 1]%Z else [-1; 1]%Z), mkSingle f))
  | Next (i, _) => Ok (i, None)
  end.
Definition ex2_oracle : OracleFeas F (Arr F) (SingleCut F) Z := mkOracleFeas F _ _ _ ex2_assess (fun o _ => o).
Definition foutcome {O S} (r : res (O * S * (option (Arr F) * nat))) : option (bool * nat) :=
  match r with Ok (_, _, (Some _, k)) => Some (true, k) | Ok (_, _, (None, k)) => Some (false, k) | Panic => None end.
(** tests/example2_tests.rs 50-68 *)
Example replay_ex2 : foutcome (e <- ell_at 10 (ints [0; 0]%Z) ;; cutting_plane_feas (N := F) ex2_oracle space opts0 (-1)%Z e) = Some (true, 1).
Proof. vm_compute. reflexivity. Qed.
Example replay_ex2_infeasible : foutcome (e <- ell_at 10 (ints [100; 100]%Z) ;; cutting_plane_feas (N := F) ex2_oracle space opts0 (-1)%Z e) = Some (false, 0).
Proof. vm_compute. reflexivity. Qed.

(** tests/lmi_tests.rs 14-53 *)
Definition sq (n : nat) (l : list Z) : Arr F := mkArr (N := F) (map fofZ l) n n.
Definition f1 := [sq 2 [-7; -11; -11; 3]; sq 2 [7; -18; -18; 8]; sq 2 [-2; -8; -8; 1]]%Z.
Definition b1 := sq 2 [33; -9; -9; 26]%Z.
Definition f2 := [sq 3 [-21; -11; 0; -11; 10; 8; 0; 8; 5]; sq 3 [0; 10; 16; 10; -10; -10; 16; -10; 3];
                  sq 3 [-5; 2; -17; 2; -6; 8; -17; 8; 6]]%Z.
Definition b2 := sq 3 [14; 9; 40; 9; 91; 10; 40; 10; 15]%Z.
(** tests/lmi_tests.rs 122-168, with the LMI oracle passed as a function; the
    test sets [gamma] inside the loop, the only place it can be followed by a
    cut is visible here *)
Definition lmi_test_assess (lmi : LMI F -> Arr F -> res (LMI F * option (Arr F * SingleCut F)))
    (o : Z * LMI F * LMI F) (xc : Arr F) (gamma : f64)
  : res ((Z * LMI F * LMI F) * f64 * ((Arr F * SingleCut F) * bool)) :=
  let c := ints [1; -1; 1]%Z in
  f0 <- a_dot c xc ;;
  r <- loop_range 0 3 (fun _ '(idx, l1, l2, gamma) =>
         let idx := if (idx =? 2)%Z then 0%Z else (idx + 1)%Z in
         match idx with
         | 0%Z => '(l1, r) <- lmi l1 xc ;;
             match r with Some cut => Ok (Done (idx, l1, l2, gamma, cut)) | None => Ok (Next (idx, l1, l2, gamma)) end
         | 1%Z => '(l2, r) <- lmi l2 xc ;;
             match r with Some cut => Ok (Done (idx, l1, l2, gamma, cut)) | None => Ok (Next (idx, l1, l2, gamma)) end
         | 2%Z => let fj := nsub (n := F) f0 gamma in
             if nltb (n := F) (n0 (N := F)) fj then Ok (Done (idx, l1, l2, gamma, (c, mkSingle (N := F) fj)))
             else Ok (Next (idx, l1, l2, f0))
         | _ => Panic
         end) (fst (fst o), snd (fst o), snd o, gamma) ;;
  match r with
  | Done (idx, l1, l2, gamma, cut) => Ok ((idx, l1, l2), gamma, (cut, false))
  | Next (idx, l1, l2, gamma) => Ok ((idx, l1, l2), gamma, ((c, mkSingle (N := F) (n0 (N := F))), true))
  end.
Definition lmi_start : Z * LMI F * LMI F := ((-1)%Z, lmi_new (N := F) f1 b1, lmi_new (N := F) f2 b2).
(** tests/lmi_tests.rs 200-225 *)
Definition solved_within (m : nat) (r : option (bool * nat)) : bool := match r with Some (true, k) => k <? m | _ => false end.
Definition lmi_run (lmi : LMI F -> Arr F -> res (LMI F * option (Arr F * SingleCut F))) :=
  outcome (e <- ell_at 10 (ints [0; 0; 0]%Z) ;; cutting_plane_optim (N := F) (lmi_test_assess lmi) space opts0 lmi_start e inf).
Definition lmi_run_stable (lmi : LMI F -> Arr F -> res (LMI F * option (Arr F * SingleCut F))) :=
  outcome (e <- stable_new_with_scalar (N := F) (fofZ 10) (ints [0; 0; 0]%Z) ;;
           cutting_plane_optim (N := F) (lmi_test_assess lmi) (stable_space (N := F) single_cut) opts0 lmi_start e inf).
Example replay_lmi_lazy : solved_within 300 (lmi_run (lmi_assess (N := F))) = true.
Proof. vm_compute. reflexivity. Qed.
Example replay_lmi_old : solved_within 300 (lmi_run (lmi_old_assess (N := F))) = true.
Proof. vm_compute. reflexivity. Qed.
Example replay_lmi_lazy_stable : solved_within 400 (lmi_run_stable (lmi_assess (N := F))) = true.
Proof. vm_compute. reflexivity. Qed.
Example replay_lmi_old_stable : solved_within 400 (lmi_run_stable (lmi_old_assess (N := F))) = true.
Proof. vm_compute. reflexivity. Qed.
(** tests/lmi_tests.rs 58-112 *)
Example replay_lmi_feasible : match lmi_assess (N := F) (lmi_new (N := F) f1 b1) (a_new (N := F) 3) with Ok (_, None) => True | _ => False end.
Proof. vm_compute. exact I. Qed.
Definition lmi0s := [sq 2 [1; 0; 0; 0]; sq 2 [0; 1; 1; 0]; sq 2 [0; 0; 0; 1]]%Z.
Example replay_lmi0 : match (o <- lmi0_new (N := F) lmi0s ;; lmi0_assess (N := F) o (ints [1; 0; 1]%Z)),
    (o <- lmi0_new (N := F) lmi0s ;; lmi0_assess (N := F) o (ints [-1; 0; -1]%Z)),
    (o <- lmi0_new (N := F) lmi0s ;; lmi0_assess (N := F) o (ints [1; 1; 1]%Z)) with
  | Ok (_, None), Ok (_, Some (g, ep)), Ok (_, Some _) => map ftrunc (adata g) = [-1; 0; 0]%Z /\ ftrunc ep = 1%Z
  | _, _, _ => False end.
Proof. vm_compute. auto. Qed.

(** ell.rs 246-326 and ell_stable.rs 225-298 *)
Definition near (a b : f64) : bool := nltb (n := F) (nabs (n := F) (nsub (n := F) a b)) (flit 1 (-15)).
Definition half4 : Arr F := a_muls (N := F) (a_ones (N := F) 4) (nhalf (N := F)).
Definition one_cut {C S} (sp : SearchSpace F (Arr F) C S) (upd : S -> Arr F * C -> res (S * CutStatus)) (kappa : S -> f64) (s : res S) (c : C)
    (st : CutStatus) (x k tsq : f64) : bool :=
  match (e <- s ;; upd e (half4, c)) with
  | Ok (e, st') => match st, st' with Success, Success | NoEffect, NoEffect => true | _, _ => false end
      && forallb (fun v => near v x) (adata (sp_xc sp e)) && near (kappa e) k && near (sp_tsq sp e) tsq
  | Panic => false end.
Definition ell4 := ell_new_with_scalar (N := F) (flit 1 (-2)) (a_new (N := F) 4).
Definition stable4 := stable_new_with_scalar (N := F) (flit 1 (-2)) (a_new (N := F) 4).
Definition par (b0 b1 : f64) : ParallelCut F := mkParallel (N := F) b0 (Some b1).
Definition sgl (b : f64) : SingleCut F := mkSingle (N := F) b.
Definition pspace := ell_space (N := F) parallel_cut.
Definition sspace := stable_space (N := F) single_cut.
Definition spspace := stable_space (N := F) parallel_cut.
Example replay_central : one_cut space (sp_update_central_cut space) e_kappa ell4 (sgl (fofZ 0)) Success (flit (-1) (-2)) (fdiv (flit 16 (-2)) (fofZ 15)) (flit 1 (-2)) = true.
Proof. vm_compute. reflexivity. Qed.
Example replay_bias : one_cut space (sp_update_bias_cut space) e_kappa ell4 (sgl (flit 5 (-2))) Success (flit (-3) (-2)) (flit 8 (-3)) (flit 1 (-2)) = true.
Proof. vm_compute. reflexivity. Qed.
Example replay_par_central : one_cut pspace (sp_update_central_cut pspace) e_kappa ell4 (par (fofZ 0) (flit 5 (-2))) Success (flit (-1) (-2)) (flit 12 (-3)) (flit 1 (-2)) = true.
Proof. vm_compute. reflexivity. Qed.
Example replay_par : one_cut pspace (sp_update_bias_cut pspace) e_kappa ell4 (par (flit 1 (-2)) (flit 4 (-2))) Success (flit (-116) (-4)) (flit 1232 (-5)) (flit 1 (-2)) = true.
Proof. vm_compute. reflexivity. Qed.
Example replay_par_no_effect : one_cut pspace (sp_update_bias_cut pspace) e_kappa ell4 (par (flit (-4) (-2)) (flit 625 (-4))) Success (fofZ 0) (flit 1 (-2)) (flit 1 (-2)) = true.
Proof. vm_compute. reflexivity. Qed.
Example replay_q_no_effect : one_cut pspace (sp_update_q pspace) e_kappa ell4 (par (flit (-4) (-2)) (flit 625 (-4))) NoEffect (fofZ 0) (flit 1 (-2)) (flit 1 (-2)) = true.
Proof. vm_compute. reflexivity. Qed.
Example replay_q : one_cut pspace (sp_update_q pspace) e_kappa ell4 (par (flit 1 (-2)) (flit 4 (-2))) Success (flit (-116) (-4)) (flit 1232 (-5)) (flit 1 (-2)) = true.
Proof. vm_compute. reflexivity. Qed.
Example replay_stable_central : one_cut sspace (sp_update_central_cut sspace) s_kappa stable4 (sgl (fofZ 0)) Success (flit (-1) (-2)) (fdiv (flit 16 (-2)) (fofZ 15)) (flit 1 (-2)) = true.
Proof. vm_compute. reflexivity. Qed.
Example replay_stable_bias : one_cut sspace (sp_update_bias_cut sspace) s_kappa stable4 (sgl (flit 5 (-2))) Success (flit (-3) (-2)) (flit 8 (-3)) (flit 1 (-2)) = true.
Proof. vm_compute. reflexivity. Qed.
Example replay_stable_par_central : one_cut spspace (sp_update_central_cut spspace) s_kappa stable4 (par (fofZ 0) (flit 5 (-2))) Success (flit (-1) (-2)) (flit 12 (-3)) (flit 1 (-2)) = true.
Proof. vm_compute. reflexivity. Qed.
Example replay_stable_par : one_cut spspace (sp_update_bias_cut spspace) s_kappa stable4 (par (flit 1 (-2)) (flit 4 (-2))) Success (flit (-116) (-4)) (flit 1232 (-5)) (flit 1 (-2)) = true.
Proof. vm_compute. reflexivity. Qed.
Example replay_stable_q_no_effect : one_cut spspace (sp_update_q spspace) s_kappa stable4 (par (flit (-4) (-2)) (flit 625 (-4))) NoEffect (fofZ 0) (flit 1 (-2)) (flit 1 (-2)) = true.
Proof. vm_compute. reflexivity. Qed.
