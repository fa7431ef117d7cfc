(** EllStable in f64 arithmetic: concrete executions. *)
From Coq Require Import List ZArith Bool.
From Flocq Require Import Core IEEE754.BinarySingleNaN.
From Verif Require Import Num Res Arr CuttingPlane EllCalc Ell EllStable ArrLemmas.
Import ListNotations.

Notation F0 := (FNum lm0).
Definition vF (l : list Z) : Arr F0 := mkArr (N := F0) (map fofZ l) (length l) 0.
Definition q8 (z : Z) : f64 := fdiv (fofZ z) (fofZ 8).

(** Two constraints in the plane: 3 x + 4 y <= -1/8 and x >= 3/4.  The first one
    violated is returned with its violation. *)
Definition two_lines : OracleFeas F0 (Arr F0) (SingleCut F0) unit :=
  mkOracleFeas F0 (Arr F0) (SingleCut F0) unit
    (fun _ x =>
       let f1 := (fofZ 3 : F0) *! vget x 0 +! (fofZ 4 : F0) *! vget x 1 +! (q8 1 : F0) in
       let f2 := (q8 6 : F0) -! vget x 0 in
       if f1 >?! n0 then Ok (tt, Some (vF [3; 4]%Z, mkSingle (N := F0) f1))
       else if f2 >?! n0 then Ok (tt, Some (vF [-1; 0]%Z, mkSingle (N := F0) f2))
       else Ok (tt, None))
    (fun o _ => o).
Definition opts : Options F0 := mkOptions (N := F0) 50 (nlit 1 (-20)).
Definition feas_point : Arr F0 := mkArr (N := F0) [q8 6; fdiv (fofZ (-19)) (fofZ 32)] 2 0.

Lemma stable_gives_up : exists (ora : OracleFeas F0 (Arr F0) (SingleCut F0) unit) (x : Arr F0),
  (match of_assess ora tt x with Ok (_, None) => True | _ => False end) /\
  (match e <- stable_new_with_scalar (N := F0) (fofZ 1) (vF [0; 0]%Z) ;; cutting_plane_feas ora (stable_space single_cut) opts tt e with
   | Ok (_, _, (None, 1%nat)) => True | _ => False end) /\
  (match e <- ell_new_with_scalar (N := F0) (fofZ 1) (vF [0; 0]%Z) ;; cutting_plane_feas ora (ell_space single_cut) opts tt e with
   | Ok (_, _, (Some _, 2%nat)) => True | _ => False end).
Proof. exists two_lines, feas_point. split; [|split]; vm_compute; auto. Qed.

(** the crate's test_update_parallel_no_effect (ell_stable.rs 270-277), followed
    by one more update *)
Definition quiet : Arr F0 * ParallelCut F0 :=
  (a_muls (a_ones (N := F0) 4) (fdiv (fofZ 1) (fofZ 2)),
   mkParallel (N := F0) (fdiv (fofZ (-4)) (fofZ 100)) (Some (fdiv (fofZ 625) (fofZ 10000)))).
Lemma quiet_poisons : exists (kappa : F0) (quiet : Arr F0 * ParallelCut F0),
  match e <- stable_new_with_scalar (N := F0) kappa (a_new (N := F0) 4) ;; stable_update_bias parallel_cut e quiet with
  | Ok (e1, Success) =>
      forallb is_finite (adata (s_xc e1)) = true /\ is_nan (mget 4 (adata (s_mq e1)) 0 0) = true /\
      match stable_update_central parallel_cut e1 quiet with
      | Ok (e2, _) => forallb is_nan (adata (s_xc e2)) = true
      | Panic => False
      end
  | _ => False
  end.
Proof. exists (fdiv (fofZ 1) (fofZ 100)), quiet. vm_compute. auto. Qed.
