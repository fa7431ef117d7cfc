(** Properties C60, C61 and C70: the example oracles. *)
From Coq Require Import ZArith Reals List Bool Arith.
From Flocq Require Import Core IEEE754.BinarySingleNaN.
From Verif Require Import Num Res Arr CuttingPlane EllCalc Ell Spec LmiSpec Examples ExSpec ExProofs ExRun Replay ExWitness.
Import ListNotations.
Open Scope nat_scope.

(** ** C61, exact arithmetic: decisions, gamma and cuts *)
Theorem C61_example1 : forall (xc : Arr RNum) (gamma : R), 2 <= length (adata xc) ->
  exists gamma' g beta b, ex1_assess (N := RNum) tt xc gamma = Ok (tt, gamma', ((g, mkSingle (N := RNum) beta), b)) /\
    good_answer prob1 obj1 (xvec xc) gamma gamma' g beta b.
Proof. exact ex1_good. Qed.
Print Assumptions C61_example1.
Theorem C61_example1_rr : forall idx (xc : Arr RNum) (gamma : R), (-1 <= idx < 3)%Z -> 2 <= length (adata xc) ->
  exists idx' gamma' g beta b, ex1rr_assess (N := RNum) idx xc gamma = Ok (idx', gamma', ((g, mkSingle (N := RNum) beta), b)) /\ (-1 <= idx' < 3)%Z /\
    good_answer prob1 obj1 (xvec xc) gamma gamma' g beta b.
Proof. exact ex1rr_good. Qed.
Print Assumptions C61_example1_rr.
Theorem C61_example4 : forall idx (xc : Arr RNum) (gamma : R), (-1 <= idx < 4)%Z -> 2 <= length (adata xc) ->
  exists idx' gamma' g beta b, ex4_assess (N := RNum) idx xc gamma = Ok (idx', gamma', ((g, mkSingle (N := RNum) beta), b)) /\ (-1 <= idx' < 4)%Z /\
    good_answer prob4 obj4 (xvec xc) gamma gamma' g beta b.
Proof. exact ex4_good. Qed.
Print Assumptions C61_example4.
Theorem C61_example3 : forall (o : Ex3 RNum) (xc : Arr RNum), (-1 <= ex3_idx o < 4)%Z -> 2 <= length (adata xc) ->
  exists o' r, ex3_assess (N := RNum) o xc = Ok (o', r) /\ (-1 <= ex3_idx o' < 4)%Z /\ ex3_target o' = ex3_target o /\
    let S := fun u : vec => prob4 (u 0%nat) (u 1%nat) /\ (obj4 (u 0%nat) (u 1%nat) <= ex3_target o)%R in
    (r = None <-> S (xvec xc)) /\
    forall g beta, r = Some (g, mkSingle (N := RNum) beta) ->
      length (adata g) = 2 /\ acols g = 0 /\ (0 < beta)%R /\ valid_cut 2 (xvec g) (xvec xc) beta S.
Proof. exact ex3_good. Qed.
Print Assumptions C61_example3.

(** ** C61, any number type: the decisions are those of the tests as computed *)
Theorem C61_example1_tests : forall (N : Num) (xc : Arr N) gamma x y, a_idx xc 0 = Ok x -> a_idx xc 1 = Ok y ->
  exists gamma' g beta b, ex1_assess tt xc gamma = Ok (tt, gamma', ((g, mkSingle beta), b)) /\
    decides [x +! y -! nZ 3; -! x +! y +! n1; gamma -! (x +! y)] (x +! y) gamma gamma' beta b.
Proof. exact @ex1_decides. Qed.
Print Assumptions C61_example1_tests.
Theorem C61_example4_tests : forall (N : Num) idx (xc : Arr N) gamma x y, (-1 <= idx < 4)%Z -> a_idx xc 0 = Ok x -> a_idx xc 1 = Ok y ->
  exists idx' gamma' g beta b, ex4_assess idx xc gamma = Ok (idx', gamma', ((g, mkSingle beta), b)) /\ (-1 <= idx' < 4)%Z /\
    decides [-! x -! n1; -! y -! n2; x +! y -! n1; gamma -! (n2 *! x -! nZ 3 *! y)] (n2 *! x -! nZ 3 *! y) gamma gamma' beta b.
Proof. exact @ex4_decides. Qed.
Print Assumptions C61_example4_tests.
Theorem C61_example3_tests : forall (N : Num) (o : Ex3 N) (xc : Arr N) x y, (-1 <= ex3_idx o < 4)%Z -> a_idx xc 0 = Ok x -> a_idx xc 1 = Ok y ->
  exists o' r, ex3_assess o xc = Ok (o', r) /\ (-1 <= ex3_idx o' < 4)%Z /\ ex3_target o' = ex3_target o /\
    let tests := [-! x -! n1; -! y -! n2; x +! y -! n1; n2 *! x -! nZ 3 *! y -! ex3_target o] in
    (r = None <-> none_positive tests) /\
    forall g beta, r = Some (g, mkSingle beta) -> In beta tests /\ (beta >?! n0) = true.
Proof. exact @ex3_decides. Qed.
Print Assumptions C61_example3_tests.
(** after an update the decision is about the new target *)
Theorem C61_example3_update : forall (N : Num) (o : Ex3 N) gamma (xc : Arr N) x y, (-1 <= ex3_idx o < 4)%Z -> a_idx xc 0 = Ok x -> a_idx xc 1 = Ok y ->
  exists o' r, of_assess ex3_oracle (of_update ex3_oracle o gamma) xc = Ok (o', r) /\ (-1 <= ex3_idx o' < 4)%Z /\ ex3_target o' = gamma /\
    let tests := [-! x -! n1; -! y -! n2; x +! y -! n1; n2 *! x -! nZ 3 *! y -! gamma] in
    (r = None <-> none_positive tests) /\
    forall g beta, r = Some (g, mkSingle beta) -> In beta tests /\ (beta >?! n0) = true.
Proof. exact @ex3_updated. Qed.
Print Assumptions C61_example3_update.
Theorem C61_rr_same : forall (N : Num) idx (xc : Arr N) gamma, (-1 <= idx < 3)%Z -> 2 <= length (adata xc) ->
  exists idx' gamma' cut cut' b,
    ex1_assess tt xc gamma = Ok (tt, gamma', (cut, b)) /\
    ex1rr_assess idx xc gamma = Ok (idx', gamma', (cut', b)) /\ (-1 <= idx' < 3)%Z /\
    (idx = -1 \/ idx = 2 \/ b = true -> cut' = cut)%Z.
Proof. exact @ex1_same. Qed.
Print Assumptions C61_rr_same.

Example C61_case_problems : prob1 2 1 /\ obj1 2 1 = 3%R /\ prob4 1 (-2) /\ obj4 1 (-2) = 8%R /\ probq (1 / 2) 1 /\ (0 < objq (1 / 2) 1)%R.
Proof. exact probs_inhabited. Qed.
Example C61_case_1 : match ex1_assess (N := F) tt (ints [5; 6]%Z) neginf, ex1rr_assess (N := F) 0%Z (ints [5; 6]%Z) neginf,
    ex1_assess (N := F) tt (ints [2; 1]%Z) neginf, ex1rr_assess (N := F) 1%Z (ints [2; 1]%Z) neginf with
  | Ok (_, _, ((g1, b1), false)), Ok (i2, _, ((g2, b2), false)), Ok (_, g3, (_, true)), Ok (i4, g4, (_, true)) =>
      map ftrunc (adata g1) = [1; 1]%Z /\ ftrunc (sc_beta b1) = 8%Z /\ i2 = 1%Z /\ map ftrunc (adata g2) = [-1; 1]%Z /\ ftrunc (sc_beta b2) = 2%Z /\
      ftrunc g3 = 3%Z /\ ftrunc g4 = 3%Z /\ i4 = 1%Z
  | _, _, _, _ => False end.
Proof. exact ex1_queries. Qed.
Example C61_case_4 : match ex4_assess (N := F) (-1)%Z (ints [-5; 0]%Z) neginf, ex4_assess (N := F) 3%Z (ints [1; -2]%Z) (fofZ 5), ex4_assess (N := F) 3%Z (ints [1; -2]%Z) (fofZ 9) with
  | Ok (_, _, ((g1, b1), false)), Ok (_, g2, (_, true)), Ok (i3, g3, ((_, b3), false)) =>
      map ftrunc (adata g1) = [-1; 0]%Z /\ ftrunc (sc_beta b1) = 4%Z /\ ftrunc g2 = 8%Z /\ ftrunc g3 = 9%Z /\ ftrunc (sc_beta b3) = 1%Z /\ i3 = 3%Z
  | _, _, _ => False end.
Proof. exact ex4_queries. Qed.
Example C61_case_3 : match ex3_assess (N := F) (mkEx3 (N := F) 2%Z (fofZ 0)) (ints [1; 0]%Z), ex3_assess (N := F) (mkEx3 (N := F) 2%Z (fofZ 3)) (ints [1; 0]%Z) with
  | Ok (o1, Some (g, b)), Ok (o2, None) => ex3_idx o1 = 3%Z /\ map ftrunc (adata g) = [2; -3]%Z /\ ftrunc (sc_beta b) = 2%Z /\ ex3_idx o2 = 2%Z
  | _, _ => False end.
Proof. exact ex3_queries. Qed.

(** ** C60 *)
Theorem C60_quasicvx : forall idx (xc : Arr RNum) (gamma : R), (-1 <= idx < 2)%Z -> 2 <= length (adata xc) -> (0 <= gamma)%R ->
  exists idx' gamma' g beta b, qcvx_assess (N := RNum) idx xc gamma = Ok (idx', gamma', ((g, mkSingle (N := RNum) beta), b)) /\ (-1 <= idx' < 2)%Z /\
    (gamma <= gamma')%R /\ good_answer probq objq (xvec xc) gamma gamma' g beta b.
Proof. exact qcvx_good. Qed.
Print Assumptions C60_quasicvx.
Theorem C60_quasicvx_tests : forall (N : Num) idx (xc : Arr N) gamma s l, (-1 <= idx < 2)%Z -> a_idx xc 0 = Ok s -> a_idx xc 1 = Ok l ->
  exists idx' gamma' g beta b, qcvx_assess idx xc gamma = Ok (idx', gamma', ((g, mkSingle beta), b)) /\ (-1 <= idx' < 2)%Z /\
    decides [s *! s -! l; -! s +! gamma *! nexp l] (s /! nexp l) gamma gamma' beta b.
Proof. exact @qcvx_decides. Qed.
Print Assumptions C60_quasicvx_tests.
(** with a negative gamma the cut of a fresh oracle can exclude a better point *)
Theorem C60_negative_gamma_refuted : exists xc (gamma : R) idx' gamma' g beta b u, length (adata xc) = 2 /\ (gamma < 0)%R /\
  qcvx_assess (N := RNum) (-1) xc gamma = Ok (idx', gamma', ((g, mkSingle (N := RNum) beta), b)) /\
  probq (u 0%nat) (u 1%nat) /\ (gamma < objq (u 0%nat) (u 1%nat))%R /\ (gamma' < objq (u 0%nat) (u 1%nat))%R /\
  (0 < dot 2 (xvec g) (fun i => u i - xvec xc i)%R + beta)%R.
Proof. exact qcvx_negative. Qed.
Print Assumptions C60_negative_gamma_refuted.

(** ** C70: what the optimiser reports on these oracles, with any search space
    and any number type, is feasible, and gamma is its objective value *)
Theorem C70_example1 : forall (N : Num) (S : Type) (sp : SearchSpace N (Arr N) (SingleCut N) S) opt s gamma o' s' gamma' x k,
  cutting_plane_optim ex1_assess sp opt tt s gamma = Ok (o', s', gamma', (Some x, k)) ->
  let a := nth 0 (adata x) n0 in let b := nth 1 (adata x) n0 in
  2 <= length (adata x) /\ gamma' = a +! b /\ none_positive [a +! b -! nZ 3; -! a +! b +! n1].
Proof. exact @ex1_best. Qed.
Print Assumptions C70_example1.
Theorem C70_example1_rr : forall (N : Num) (S : Type) (sp : SearchSpace N (Arr N) (SingleCut N) S) opt idx s gamma o' s' gamma' x k, (-1 <= idx < 3)%Z ->
  cutting_plane_optim ex1rr_assess sp opt idx s gamma = Ok (o', s', gamma', (Some x, k)) ->
  let a := nth 0 (adata x) n0 in let b := nth 1 (adata x) n0 in
  2 <= length (adata x) /\ gamma' = a +! b /\ none_positive [a +! b -! nZ 3; -! a +! b +! n1].
Proof. exact @ex1rr_best. Qed.
Print Assumptions C70_example1_rr.
Theorem C70_example4 : forall (N : Num) (S : Type) (sp : SearchSpace N (Arr N) (SingleCut N) S) opt idx s gamma o' s' gamma' x k, (-1 <= idx < 4)%Z ->
  cutting_plane_optim ex4_assess sp opt idx s gamma = Ok (o', s', gamma', (Some x, k)) ->
  let a := nth 0 (adata x) n0 in let b := nth 1 (adata x) n0 in
  2 <= length (adata x) /\ gamma' = n2 *! a -! nZ 3 *! b /\ none_positive [-! a -! n1; -! b -! n2; a +! b -! n1].
Proof. exact @ex4_best. Qed.
Print Assumptions C70_example4.
Example C70_case : match (e <- ell_at 10 (ints [0; 0]%Z) ;; cutting_plane_optim (N := F) ex4_assess space (opts (-10)) (-1)%Z e neginf) with
  | Ok (_, _, g, (Some x, k)) => ftrunc (nmul (n := F) g (fofZ 1000)) = 11999%Z /\ length (adata x) = 2%nat /\ k = 82%nat
  | _ => False end.
Proof. exact ex4_run. Qed.
