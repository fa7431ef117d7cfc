(** C119: the linear examples (example1, example1_rr, example3, example4) in binary64. *)
From Coq Require Import ZArith Reals List.
From Flocq Require Import Core IEEE754.BinarySingleNaN.
From Verif Require Import Num Res Arr CuttingPlane EllCalc Ell EllRun Spec RunSpec AccSpec StepAccSpec StepRunSpec Examples ProfitSpec ProfAccSpec LinAccSpec LinAcc LinAccRun Replay StepEx StepRunEx ProfAccEx LinAccEx.
Import ListNotations.
Local Open Scope R_scope.

(** One call answers, and the answer is good up to the margin. *)
Theorem C119_example1 (lm : Libm) X C (y : Arr (FNum lm)) (ga : f64) : lin_range X C -> in_square X y -> lin_level C ga ->
  exists (ga' : f64) g (b : f64) better, ex1_assess tt y (ga : FNum lm) = Ok (tt, (ga' : FNum lm), ((g, mkSingle (N := FNum lm) b), better)) /\ lin_answer room1 goal1 C y ga ga' g b better.
Proof. exact (fun H => ex1_call lm X C H y ga). Qed.
Print Assumptions C119_example1.
Theorem C119_example1_rr (lm : Libm) X C idx (y : Arr (FNum lm)) (ga : f64) : lin_range X C -> (-1 <= idx < 3)%Z -> in_square X y -> lin_level C ga ->
  exists idx' (ga' : f64) g (b : f64) better, ex1rr_assess idx y (ga : FNum lm) = Ok (idx', (ga' : FNum lm), ((g, mkSingle (N := FNum lm) b), better)) /\ (-1 <= idx' < 3)%Z /\ lin_answer room1 goal1 C y ga ga' g b better.
Proof. exact (fun H => ex1rr_call lm X C H idx y ga). Qed.
Print Assumptions C119_example1_rr.
Theorem C119_example4 (lm : Libm) X C idx (y : Arr (FNum lm)) (ga : f64) : lin_range X C -> (-1 <= idx < 4)%Z -> in_square X y -> lin_level C ga ->
  exists idx' (ga' : f64) g (b : f64) better, ex4_assess idx y (ga : FNum lm) = Ok (idx', (ga' : FNum lm), ((g, mkSingle (N := FNum lm) b), better)) /\ (-1 <= idx' < 4)%Z /\ lin_answer room4 goal4 C y ga ga' g b better.
Proof. exact (fun H => ex4_call lm X C H idx y ga). Qed.
Print Assumptions C119_example4.
(** Example 3 has a target instead of a level: no cut means feasible and not above the
    target up to the margin; a cut leaves what is feasible and below the target with the
    margin to spare. *)
Theorem C119_example3 (lm : Libm) X C (o : Ex3 (FNum lm)) (y : Arr (FNum lm)) : lin_range X C -> (-1 <= ex3_idx o < 4)%Z -> in_square X y -> is_finite (ex3_target o : f64) = true -> Rabs (B2R (ex3_target o : f64)) <= C ->
  exists o' r, ex3_assess o y = Ok (o', r) /\ (-1 <= ex3_idx o' < 4)%Z /\ ex3_target o' = ex3_target o /\
    (r = None -> room4 (- lin_margin C) (fcoords y) /\ goal4 (fcoords y) <= B2R (ex3_target o : f64) + lin_margin C) /\
    (forall g c, r = Some (g, c) -> two g /\ all_finite g /\ is_finite (sc_beta c : f64) = true /\ 0 < B2R (sc_beta c : f64) /\
      forall z, room4 (lin_margin C) z -> goal4 z + lin_margin C <= B2R (ex3_target o : f64) -> along 2 (fcoords g) z (fcoords y) + B2R (sc_beta c : f64) <= 0).
Proof. exact (fun H => ex3_call lm X C H o y). Qed.
Print Assumptions C119_example3.

(** A whole optimisation run whose query points stay in the square, from minus infinity or
    any finite level: the level does not fall, no answer means it is unchanged, a level above
    the optimum (3 resp. 12) gives no answer, and an answer is feasible and the level
    returned is its objective, all up to the margin. *)
Theorem C119_values1 (lm : Libm) X C opt (e : Ell (FNum lm)) (ga : FNum lm) e' (ga' : FNum lm) ans k : lin_range X C -> lin_level C (ga : f64) ->
  (forall l o1 e1 (ga1 : FNum lm) xb1, asked_opt single_cut (tolerance opt) ex1_assess tt e ga None l o1 e1 ga1 xb1 -> (length l < max_iters opt)%nat -> in_square X (e_xc e1)) ->
  cutting_plane_optim ex1_assess (ell_space single_cut) opt tt e ga = Ok (tt, e', ga', (ans, k)) ->
  (is_finite (ga : f64) = true -> is_finite (ga' : f64) = true /\ B2R (ga : f64) <= B2R (ga' : f64)) /\ (ans = None -> ga' = ga) /\
  (is_finite (ga : f64) = true -> 3 + 8 * lin_margin C < B2R (ga : f64) -> ans = None) /\
  (forall x, ans = Some x -> room1 (- lin_margin C) (fcoords x) /\ is_finite (ga' : f64) = true /\ Rabs (B2R (ga' : f64) - goal1 (fcoords x)) <= lin_margin C).
Proof. exact (fun H => lin_values lm X C unit ex1_assess (fun _ => True) room1 goal1 3 (ex1_call' lm X C H) (top1 X C H) opt tt e ga tt e' ga' ans k I). Qed.
Print Assumptions C119_values1.
Theorem C119_values1_rr (lm : Libm) X C opt o (e : Ell (FNum lm)) (ga : FNum lm) o' e' (ga' : FNum lm) ans k : lin_range X C -> (-1 <= o < 3)%Z -> lin_level C (ga : f64) ->
  (forall l o1 e1 (ga1 : FNum lm) xb1, asked_opt single_cut (tolerance opt) ex1rr_assess o e ga None l o1 e1 ga1 xb1 -> (length l < max_iters opt)%nat -> in_square X (e_xc e1)) ->
  cutting_plane_optim ex1rr_assess (ell_space single_cut) opt o e ga = Ok (o', e', ga', (ans, k)) ->
  (is_finite (ga : f64) = true -> is_finite (ga' : f64) = true /\ B2R (ga : f64) <= B2R (ga' : f64)) /\ (ans = None -> ga' = ga) /\
  (is_finite (ga : f64) = true -> 3 + 8 * lin_margin C < B2R (ga : f64) -> ans = None) /\
  (forall x, ans = Some x -> room1 (- lin_margin C) (fcoords x) /\ is_finite (ga' : f64) = true /\ Rabs (B2R (ga' : f64) - goal1 (fcoords x)) <= lin_margin C).
Proof. exact (fun H => lin_values lm X C Z ex1rr_assess (fun i => (-1 <= i < 3)%Z) room1 goal1 3 (ex1rr_call lm X C H) (top1 X C H) opt o e ga o' e' ga' ans k). Qed.
Print Assumptions C119_values1_rr.
Theorem C119_values4 (lm : Libm) X C opt o (e : Ell (FNum lm)) (ga : FNum lm) o' e' (ga' : FNum lm) ans k : lin_range X C -> (-1 <= o < 4)%Z -> lin_level C (ga : f64) ->
  (forall l o1 e1 (ga1 : FNum lm) xb1, asked_opt single_cut (tolerance opt) ex4_assess o e ga None l o1 e1 ga1 xb1 -> (length l < max_iters opt)%nat -> in_square X (e_xc e1)) ->
  cutting_plane_optim ex4_assess (ell_space single_cut) opt o e ga = Ok (o', e', ga', (ans, k)) ->
  (is_finite (ga : f64) = true -> is_finite (ga' : f64) = true /\ B2R (ga : f64) <= B2R (ga' : f64)) /\ (ans = None -> ga' = ga) /\
  (is_finite (ga : f64) = true -> 12 + 8 * lin_margin C < B2R (ga : f64) -> ans = None) /\
  (forall x, ans = Some x -> room4 (- lin_margin C) (fcoords x) /\ is_finite (ga' : f64) = true /\ Rabs (B2R (ga' : f64) - goal4 (fcoords x)) <= lin_margin C).
Proof. exact (fun H => lin_values lm X C Z ex4_assess (fun i => (-1 <= i < 4)%Z) room4 goal4 12 (ex4_call lm X C H) (top4 X C H) opt o e ga o' e' ga' ans k). Qed.
Print Assumptions C119_values4.

(** The same runs with well conditioned ellipsoids: a feasible point better than the level
    returned, both with the margin to spare, has not been cut off; so a ball of such points
    bounds the number of rounds. *)
Theorem C119_run1 (lm : Libm) X C s G opt (e : Ell (FNum lm)) (ga : FNum lm) e' (ga' : FNum lm) ans k : lin_range X C -> s <= 1 / 10 -> lin_level C (ga : f64) ->
  (forall l o1 e1 (ga1 : FNum lm) xb1, asked_opt single_cut (tolerance opt) ex1_assess tt e ga None l o1 e1 ga1 xb1 -> (length l <= max_iters opt)%nat ->
    tame_run 2 s G e l /\ ((length l < max_iters opt)%nat -> in_square X (e_xc e1))) ->
  cutting_plane_optim ex1_assess (ell_space single_cut) opt tt e ga = Ok (tt, e', ga', (ans, k)) ->
  (k = max_iters opt -> forall z, room1 (lin_margin C) z /\ above (lin_margin C) (ga' : f64) (goal1 z) -> fpts 2 e 1 z -> fpts 2 e' (1 + excess s G k) z) /\
  (forall z r, 0 < r -> (forall x, ball 2 z r x -> (room1 (lin_margin C) x /\ above (lin_margin C) (ga' : f64) (goal1 x)) /\ fpts 2 e 1 x) ->
    (r * r) ^ 2 <= ((1 + excess s G k) ^ 2 * ((1 + s) ^ 2 * exp (- / (INR 2 + 1))) ^ k) * fvol2 2 e).
Proof. exact (fun H Hs => lin_run lm X C unit ex1_assess (fun _ => True) room1 goal1 (ex1_call' lm X C H) s G opt tt e ga tt e' ga' ans k Hs I). Qed.
Print Assumptions C119_run1.
Theorem C119_run1_rr (lm : Libm) X C s G opt o (e : Ell (FNum lm)) (ga : FNum lm) o' e' (ga' : FNum lm) ans k : lin_range X C -> s <= 1 / 10 -> (-1 <= o < 3)%Z -> lin_level C (ga : f64) ->
  (forall l o1 e1 (ga1 : FNum lm) xb1, asked_opt single_cut (tolerance opt) ex1rr_assess o e ga None l o1 e1 ga1 xb1 -> (length l <= max_iters opt)%nat ->
    tame_run 2 s G e l /\ ((length l < max_iters opt)%nat -> in_square X (e_xc e1))) ->
  cutting_plane_optim ex1rr_assess (ell_space single_cut) opt o e ga = Ok (o', e', ga', (ans, k)) ->
  (k = max_iters opt -> forall z, room1 (lin_margin C) z /\ above (lin_margin C) (ga' : f64) (goal1 z) -> fpts 2 e 1 z -> fpts 2 e' (1 + excess s G k) z) /\
  (forall z r, 0 < r -> (forall x, ball 2 z r x -> (room1 (lin_margin C) x /\ above (lin_margin C) (ga' : f64) (goal1 x)) /\ fpts 2 e 1 x) ->
    (r * r) ^ 2 <= ((1 + excess s G k) ^ 2 * ((1 + s) ^ 2 * exp (- / (INR 2 + 1))) ^ k) * fvol2 2 e).
Proof. exact (fun H => lin_run lm X C Z ex1rr_assess (fun i => (-1 <= i < 3)%Z) room1 goal1 (ex1rr_call lm X C H) s G opt o e ga o' e' ga' ans k). Qed.
Print Assumptions C119_run1_rr.
Theorem C119_run4 (lm : Libm) X C s G opt o (e : Ell (FNum lm)) (ga : FNum lm) o' e' (ga' : FNum lm) ans k : lin_range X C -> s <= 1 / 10 -> (-1 <= o < 4)%Z -> lin_level C (ga : f64) ->
  (forall l o1 e1 (ga1 : FNum lm) xb1, asked_opt single_cut (tolerance opt) ex4_assess o e ga None l o1 e1 ga1 xb1 -> (length l <= max_iters opt)%nat ->
    tame_run 2 s G e l /\ ((length l < max_iters opt)%nat -> in_square X (e_xc e1))) ->
  cutting_plane_optim ex4_assess (ell_space single_cut) opt o e ga = Ok (o', e', ga', (ans, k)) ->
  (k = max_iters opt -> forall z, room4 (lin_margin C) z /\ above (lin_margin C) (ga' : f64) (goal4 z) -> fpts 2 e 1 z -> fpts 2 e' (1 + excess s G k) z) /\
  (forall z r, 0 < r -> (forall x, ball 2 z r x -> (room4 (lin_margin C) x /\ above (lin_margin C) (ga' : f64) (goal4 x)) /\ fpts 2 e 1 x) ->
    (r * r) ^ 2 <= ((1 + excess s G k) ^ 2 * ((1 + s) ^ 2 * exp (- / (INR 2 + 1))) ^ k) * fvol2 2 e).
Proof. exact (fun H => lin_run lm X C Z ex4_assess (fun i => (-1 <= i < 4)%Z) room4 goal4 (ex4_call lm X C H) s G opt o e ga o' e' ga' ans k). Qed.
Print Assumptions C119_run4.
(** Example 3 under cutting_plane_feas. *)
Theorem C119_run3 (lm : Libm) X C s G opt (o : Ex3 (FNum lm)) (e : Ell (FNum lm)) o' e' ans k : lin_range X C -> s <= 1 / 10 -> (-1 <= ex3_idx o < 4)%Z -> is_finite (ex3_target o : f64) = true -> Rabs (B2R (ex3_target o : f64)) <= C ->
  (forall l o1 e1, asked single_cut (tolerance opt) ex3_oracle o e l o1 e1 -> (length l <= max_iters opt)%nat ->
    tame_run 2 s G e l /\ ((length l < max_iters opt)%nat -> in_square X (e_xc e1))) ->
  cutting_plane_feas ex3_oracle (ell_space single_cut) opt o e = Ok (o', e', (ans, k)) ->
  (forall x, ans = Some x -> room4 (- lin_margin C) (fcoords x) /\ goal4 (fcoords x) <= B2R (ex3_target o : f64) + lin_margin C) /\
  (ans <> None \/ k = max_iters opt -> forall z, room4 (lin_margin C) z /\ goal4 z + lin_margin C <= B2R (ex3_target o : f64) -> fpts 2 e 1 z -> fpts 2 e' (1 + excess s G k) z) /\
  (forall z r, 0 < r -> (forall x, ball 2 z r x -> (room4 (lin_margin C) x /\ goal4 x + lin_margin C <= B2R (ex3_target o : f64)) /\ fpts 2 e 1 x) ->
    (r * r) ^ 2 <= ((1 + excess s G k) ^ 2 * ((1 + s) ^ 2 * exp (- / (INR 2 + 1))) ^ k) * fvol2 2 e).
Proof. exact (fun H => ex3_run lm X C H s G opt o e o' e' ans k). Qed.
Print Assumptions C119_run3.

(** Runs of two rounds from minus infinity (a cut for a constraint, then an improvement), with
    points they keep; a run of example 3 with one cut and an answer; runs from the level 100. *)
Example C119_case : (lin_range 5 100 /\ lin_margin 100 <= / 1000000000000) /\ (lin_level 100 neginf /\ lin_level 100 (fofZ 100)) /\
  (room1 (lin_margin 100) (fun i => if Nat.eqb i 0 then 2 else 0) /\ room4 (lin_margin 100) (fun i => if Nat.eqb i 0 then 1 else -1) /\ goal4 (fun i => if Nat.eqb i 0 then 1 else -1) = 5) /\
  (forall l o1 e1 (ga1 : F) xb1, asked_opt single_cut (tolerance (qopt 2)) ex4_assess (-1)%Z qe (neginf : F) None l o1 e1 ga1 xb1 -> (length l <= max_iters (qopt 2))%nat ->
    tame_run 2 (/ 1000000) 4 qe l /\ ((length l < max_iters (qopt 2))%nat -> in_square 5 (e_xc e1))) /\
  exists o' e' ga x, cutting_plane_optim ex4_assess (ell_space single_cut) (qopt 2) (-1)%Z qe (neginf : F) = Ok (o', e', ga, (Some x, 2%nat)) /\ 0 <= B2R (ga : f64) <= 1.
Proof. exact (conj lin_range_case (conj lin_level_case (conj room_case (conj (two_rounds_ok ex4_assess (-1)%Z neginf ex4_rounds) (ends_ok 0 1 _ ltac:(split; discriminate) ltac:(split; discriminate) ex4_ends))))). Qed.
Example C119_case1 : (forall l o1 e1 (ga1 : F) xb1, asked_opt single_cut (tolerance (qopt 2)) ex1_assess tt qe (neginf : F) None l o1 e1 ga1 xb1 -> (length l <= max_iters (qopt 2))%nat ->
    tame_run 2 (/ 1000000) 4 qe l /\ ((length l < max_iters (qopt 2))%nat -> in_square 5 (e_xc e1))) /\
  exists o' e' ga x, cutting_plane_optim ex1_assess (ell_space single_cut) (qopt 2) tt qe (neginf : F) = Ok (o', e', ga, (Some x, 2%nat)) /\ 1 <= B2R (ga : f64) <= 3.
Proof. exact (conj (two_rounds_ok ex1_assess tt neginf ex1_rounds) (ends_ok 1 3 _ ltac:(split; discriminate) ltac:(split; discriminate) ex1_ends)). Qed.
Example C119_case1_rr : (forall l o1 e1 (ga1 : F) xb1, asked_opt single_cut (tolerance (qopt 2)) ex1rr_assess (-1)%Z qe (neginf : F) None l o1 e1 ga1 xb1 -> (length l <= max_iters (qopt 2))%nat ->
    tame_run 2 (/ 1000000) 4 qe l /\ ((length l < max_iters (qopt 2))%nat -> in_square 5 (e_xc e1))) /\
  exists o' e' ga x, cutting_plane_optim ex1rr_assess (ell_space single_cut) (qopt 2) (-1)%Z qe (neginf : F) = Ok (o', e', ga, (Some x, 2%nat)) /\ 1 <= B2R (ga : f64) <= 3.
Proof. exact (conj (two_rounds_ok ex1rr_assess (-1)%Z neginf ex1rr_rounds) (ends_ok 1 3 _ ltac:(split; discriminate) ltac:(split; discriminate) ex1rr_ends)). Qed.
Example C119_case3 : (forall l o1 e1, asked single_cut (tolerance (qopt 2)) ex3_oracle o3 qe l o1 e1 -> (length l <= max_iters (qopt 2))%nat ->
    tame_run 2 (/ 1000000) 4 qe l /\ ((length l < max_iters (qopt 2))%nat -> in_square 5 (e_xc e1))) /\
  match cutting_plane_feas ex3_oracle (ell_space single_cut) (qopt 2) o3 qe with Ok (_, _, (Some _, 1%nat)) => true | _ => false end = true.
Proof. exact (conj ex3_case ex3_ends). Qed.
Example C119_high : 12 + 8 * lin_margin 100 < B2R (fofZ 100) /\
  (forall l o1 e1 (ga1 : F) xb1, asked_opt single_cut (tolerance (qopt 2)) ex1_assess tt qe (fofZ 100 : F) None l o1 e1 ga1 xb1 -> (length l < max_iters (qopt 2))%nat -> in_square 5 (e_xc e1)) /\
  (forall l o1 e1 (ga1 : F) xb1, asked_opt single_cut (tolerance (qopt 2)) ex1rr_assess (-1)%Z qe (fofZ 100 : F) None l o1 e1 ga1 xb1 -> (length l < max_iters (qopt 2))%nat -> in_square 5 (e_xc e1)) /\
  (forall l o1 e1 (ga1 : F) xb1, asked_opt single_cut (tolerance (qopt 2)) ex4_assess (-1)%Z qe (fofZ 100 : F) None l o1 e1 ga1 xb1 -> (length l < max_iters (qopt 2))%nat -> in_square 5 (e_xc e1)) /\
  nothing (cutting_plane_optim ex1_assess (ell_space single_cut) (qopt 2) tt qe (fofZ 100 : F)) = true /\ nothing (cutting_plane_optim ex1rr_assess (ell_space single_cut) (qopt 2) (-1)%Z qe (fofZ 100 : F)) = true /\ nothing (cutting_plane_optim ex4_assess (ell_space single_cut) (qopt 2) (-1)%Z qe (fofZ 100 : F)) = true.
Proof. exact (conj high_level (conj (high_round_ok ex1_assess tt (proj1 high_rounds)) (conj (high_round_ok ex1rr_assess (-1)%Z (proj1 (proj2 high_rounds))) (conj (high_round_ok ex4_assess (-1)%Z (proj2 (proj2 high_rounds))) high_ends)))). Qed.
