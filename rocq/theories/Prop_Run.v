(** Properties C27-C29, C80 and C81: whole runs of the drivers on an Ell, in exact
    arithmetic.  Vocabulary: RunSpec.v ([feas_cuts], [optim_cuts]: what the oracle
    promises; [ball]), EllSpec.v ([pts]: the points of an ellipsoid), Det.v ([vol2]). *)
From Coq Require Import ZArith Reals List Arith Lia Lra.
From Verif Require Import Num Res Arr CuttingPlane EllCalc Ell EllRun Spec EllSpec EllCuts EllMore Det RunSpec RunProofs Examples ExSpec ExConv RunWitness.
Open Scope R_scope.

(** ** C27: no point satisfying the cuts is lost; a rejected cut is a proof of infeasibility *)
Theorem C27_single : forall O n (Inv : O -> Prop) K (ora : OracleFeas RNum (Arr RNum) (SingleCut RNum) O) (opt : Options RNum) o (e : Ell RNum) o' e' ans k,
  (2 <= n)%nat -> feas_cuts single_sat single_deep n Inv K ora -> Inv o -> valid n e -> vecn n (e_xc e) -> 0 < tolerance opt ->
  cutting_plane_feas ora (ell_space (N := RNum) single) opt o e = Ok (o', e', (ans, k)) ->
  (e_tsq e' <> 0 \/ e' = e -> forall x, K x -> pts n e x -> pts n e' x) /\
  (ans = None -> (k < max_iters opt)%nat -> tolerance opt <= e_tsq e' -> forall x, K x -> ~ pts n e x).
Proof. exact (fun O n Inv K ora opt o e o' e' ans k Hn => feas_keeps single single_sat single_deep single_step n Inv Hn K ora opt o e o' e' ans k). Qed.
Print Assumptions C27_single.
Theorem C27_parallel : forall O n (Inv : O -> Prop) K (ora : OracleFeas RNum (Arr RNum) (ParallelCut RNum) O) (opt : Options RNum) o (e : Ell RNum) o' e' ans k,
  (2 <= n)%nat -> feas_cuts parallel_sat parallel_deep n Inv K ora -> Inv o -> valid n e -> vecn n (e_xc e) -> 0 < tolerance opt ->
  cutting_plane_feas ora (ell_space (N := RNum) parallel) opt o e = Ok (o', e', (ans, k)) ->
  (e_tsq e' <> 0 \/ e' = e -> forall x, K x -> pts n e x -> pts n e' x) /\
  (ans = None -> (k < max_iters opt)%nat -> tolerance opt <= e_tsq e' -> forall x, K x -> ~ pts n e x).
Proof. exact (fun O n Inv K ora opt o e o' e' ans k Hn => feas_keeps parallel parallel_sat parallel_deep parallel_step n Inv Hn K ora opt o e o' e' ans k). Qed.
Print Assumptions C27_parallel.
Example C27_case : (forall target, feas_cuts single_sat single_deep 2 (inv3 target) (set3 target) (ex3_oracle (N := RNum))) /\
  feas_cuts parallel_sat parallel_deep 2 (fun _ => True) slab24 slab_oracle.
Proof. split; [exact ex3_cuts|exact slab_feas_cuts]. Qed.

(** ** C28: the feasibility search succeeds, and how soon *)
Theorem C28_single : forall O n (Inv : O -> Prop) z r gmin K (ora : OracleFeas RNum (Arr RNum) (SingleCut RNum) O) (opt : Options RNum) o (e : Ell RNum),
  (2 <= n)%nat -> 0 < r -> feas_cuts single_sat single_deep n Inv K ora -> feas_total n Inv gmin ora -> 0 < gmin -> Inv o -> proper n e -> vecn n (e_xc e) ->
  (forall x, ball n z r x -> K x /\ pts n e x) -> tolerance opt <= (r * gmin) * (r * gmin) ->
  (INR n + 1) * ln (vol2 n e / (r * r) ^ n) < INR (max_iters opt) ->
  exists o' e' x k, cutting_plane_feas ora (ell_space (N := RNum) single) opt o e = Ok (o', e', (Some x, k)) /\
    INR k <= (INR n + 1) * ln (vol2 n e / (r * r) ^ n) /\ exists o1, Inv o1 /\ of_assess ora o1 x = Ok (o', None).
Proof. exact (fun O n Inv z r gmin K ora opt o e Hn Hr => feas_bound single single_sat single_deep n Inv Hn z r Hr single_shrink gmin K ora opt o e). Qed.
Print Assumptions C28_single.
Theorem C28_parallel : forall O n (Inv : O -> Prop) z r gmin K (ora : OracleFeas RNum (Arr RNum) (ParallelCut RNum) O) (opt : Options RNum) o (e : Ell RNum),
  (2 <= n)%nat -> 0 < r -> feas_cuts parallel_sat parallel_deep n Inv K ora -> feas_total n Inv gmin ora -> 0 < gmin -> Inv o -> proper n e -> vecn n (e_xc e) ->
  (forall x, ball n z r x -> K x /\ pts n e x) -> tolerance opt <= (r * gmin) * (r * gmin) ->
  (INR n + 1) * ln (vol2 n e / (r * r) ^ n) < INR (max_iters opt) ->
  exists o' e' x k, cutting_plane_feas ora (ell_space (N := RNum) parallel) opt o e = Ok (o', e', (Some x, k)) /\
    INR k <= (INR n + 1) * ln (vol2 n e / (r * r) ^ n) /\ exists o1, Inv o1 /\ of_assess ora o1 x = Ok (o', None).
Proof. exact (fun O n Inv z r gmin K ora opt o e Hn Hr => feas_bound parallel parallel_sat parallel_deep n Inv Hn z r Hr parallel_shrink gmin K ora opt o e). Qed.
Print Assumptions C28_parallel.
Example C28_case : feas_cuts parallel_sat parallel_deep 2 (fun _ => True) slab24 slab_oracle /\ feas_total 2 (fun _ => True) 1 slab_oracle /\
  (exists e, ell_new_with_scalar (N := RNum) 100 origin2 = Ok e /\ proper 2 e /\ vecn 2 (e_xc e) /\ vol2 2 e = 10000 /\
    forall y, ball 2 z33 (1 / 2) y -> slab_beats y 2 /\ pts 2 e y) /\
  (INR 2 + 1) * ln (10000 / (1 / 2 * (1 / 2)) ^ 2) < INR 100.
Proof. split; [exact slab_feas_cuts|]. split; [exact slab_feas_total|]. split; [exact slab_geometry|exact slab_bound]. Qed.

(** ** C29: the optimiser beats every level that a ball of points attains *)
Theorem C29_single : forall O n (Inv : O -> R -> Prop) z r gmin beats (ora : OracleOptim RNum (Arr RNum) (SingleCut RNum) O) (opt : Options RNum) o (e : Ell RNum) (gamma : R),
  (2 <= n)%nat -> 0 < r -> optim_cuts single_sat single_deep n Inv beats ora -> optim_total n Inv gmin ora -> 0 < gmin -> Inv o gamma -> proper n e -> vecn n (e_xc e) ->
  (forall y, ball n z r y -> beats y gamma /\ pts n e y) -> tolerance opt <= (r * gmin) * (r * gmin) ->
  (INR n + 1) * ln (vol2 n e / (r * r) ^ n) < INR (max_iters opt) ->
  exists o' e' gamma' x k, cutting_plane_optim ora (ell_space (N := RNum) single) opt o e gamma = Ok (o', e', gamma', (Some x, k)) /\
    ~ (forall y, ball n z r y -> beats y gamma') /\
    exists o1 g1 o2 cut, ora o1 x g1 = Ok (o2, gamma', (cut, true)).
Proof. exact (fun O n Inv z r gmin beats ora opt o e gamma Hn Hr => optim_bound single single_sat single_deep n Inv Hn z r Hr single_shrink gmin beats ora opt o e gamma). Qed.
Print Assumptions C29_single.
Theorem C29_parallel : forall O n (Inv : O -> R -> Prop) z r gmin beats (ora : OracleOptim RNum (Arr RNum) (ParallelCut RNum) O) (opt : Options RNum) o (e : Ell RNum) (gamma : R),
  (2 <= n)%nat -> 0 < r -> optim_cuts parallel_sat parallel_deep n Inv beats ora -> optim_total n Inv gmin ora -> 0 < gmin -> Inv o gamma -> proper n e -> vecn n (e_xc e) ->
  (forall y, ball n z r y -> beats y gamma /\ pts n e y) -> tolerance opt <= (r * gmin) * (r * gmin) ->
  (INR n + 1) * ln (vol2 n e / (r * r) ^ n) < INR (max_iters opt) ->
  exists o' e' gamma' x k, cutting_plane_optim ora (ell_space (N := RNum) parallel) opt o e gamma = Ok (o', e', gamma', (Some x, k)) /\
    ~ (forall y, ball n z r y -> beats y gamma') /\
    exists o1 g1 o2 cut, ora o1 x g1 = Ok (o2, gamma', (cut, true)).
Proof. exact (fun O n Inv z r gmin beats ora opt o e gamma Hn Hr => optim_bound parallel parallel_sat parallel_deep n Inv Hn z r Hr parallel_shrink gmin beats ora opt o e gamma). Qed.
Print Assumptions C29_parallel.
Theorem C29_single_margin : forall O n (Inv : O -> R -> Prop) z r rho beats (ora : OracleOptim RNum (Arr RNum) (SingleCut RNum) O) (opt : Options RNum) o (e : Ell RNum) (gamma : R),
  (2 <= n)%nat -> 0 < r -> optim_cuts single_sat single_deep n Inv beats ora -> optim_margin n Inv z r beats rho ora -> 0 < rho -> Inv o gamma -> proper n e -> vecn n (e_xc e) ->
  (forall y, ball n z r y -> beats y gamma /\ pts n e y) -> tolerance opt <= rho * rho ->
  (INR n + 1) * ln (vol2 n e / (r * r) ^ n) < INR (max_iters opt) ->
  exists o' e' gamma' x k, cutting_plane_optim ora (ell_space (N := RNum) single) opt o e gamma = Ok (o', e', gamma', (Some x, k)) /\
    ~ (forall y, ball n z r y -> beats y gamma') /\
    exists o1 g1 o2 cut, ora o1 x g1 = Ok (o2, gamma', (cut, true)).
Proof. exact (fun O n Inv z r rho beats ora opt o e gamma Hn Hr => optim_bound_margin single single_sat single_deep n Inv Hn z r Hr single_shrink rho beats ora opt o e gamma). Qed.
Print Assumptions C29_single_margin.
Theorem C29_parallel_margin : forall O n (Inv : O -> R -> Prop) z r rho beats (ora : OracleOptim RNum (Arr RNum) (ParallelCut RNum) O) (opt : Options RNum) o (e : Ell RNum) (gamma : R),
  (2 <= n)%nat -> 0 < r -> optim_cuts parallel_sat parallel_deep n Inv beats ora -> optim_margin n Inv z r beats rho ora -> 0 < rho -> Inv o gamma -> proper n e -> vecn n (e_xc e) ->
  (forall y, ball n z r y -> beats y gamma /\ pts n e y) -> tolerance opt <= rho * rho ->
  (INR n + 1) * ln (vol2 n e / (r * r) ^ n) < INR (max_iters opt) ->
  exists o' e' gamma' x k, cutting_plane_optim ora (ell_space (N := RNum) parallel) opt o e gamma = Ok (o', e', gamma', (Some x, k)) /\
    ~ (forall y, ball n z r y -> beats y gamma') /\
    exists o1 g1 o2 cut, ora o1 x g1 = Ok (o2, gamma', (cut, true)).
Proof. exact (fun O n Inv z r rho beats ora opt o e gamma Hn Hr => optim_bound_margin parallel parallel_sat parallel_deep n Inv Hn z r Hr parallel_shrink rho beats ora opt o e gamma). Qed.
Print Assumptions C29_parallel_margin.
Example C29_case : optim_cuts parallel_sat parallel_deep 2 (fun _ _ => True) slab_beats slab_optim /\ optim_total 2 (fun _ _ => True) 1 slab_optim.
Proof. split; [exact slab_optim_cuts|exact slab_optim_total]. Qed.

(** ** C80: nothing better than the reported level is lost; stopping on a rejected cut is a proof of optimality *)
Theorem C80_single : forall O n (Inv : O -> R -> Prop) beats (ora : OracleOptim RNum (Arr RNum) (SingleCut RNum) O) (opt : Options RNum) o (e : Ell RNum) (gamma : R) o' e' (gamma' : R) ans k,
  (2 <= n)%nat -> optim_cuts single_sat single_deep n Inv beats ora -> Inv o gamma -> valid n e -> vecn n (e_xc e) -> 0 < tolerance opt ->
  cutting_plane_optim ora (ell_space (N := RNum) single) opt o e gamma = Ok (o', e', gamma', (ans, k)) ->
  (e_tsq e' <> 0 \/ e' = e -> forall y, beats y gamma' -> pts n e y -> pts n e' y) /\
  ((k < max_iters opt)%nat -> tolerance opt <= e_tsq e' -> forall y, pts n e y -> ~ beats y gamma').
Proof. exact (fun O n Inv beats ora opt o e gamma o' e' gamma' ans k Hn => optim_keeps single single_sat single_deep single_step n Inv Hn beats ora opt o e gamma o' e' gamma' ans k). Qed.
Print Assumptions C80_single.
Theorem C80_parallel : forall O n (Inv : O -> R -> Prop) beats (ora : OracleOptim RNum (Arr RNum) (ParallelCut RNum) O) (opt : Options RNum) o (e : Ell RNum) (gamma : R) o' e' (gamma' : R) ans k,
  (2 <= n)%nat -> optim_cuts parallel_sat parallel_deep n Inv beats ora -> Inv o gamma -> valid n e -> vecn n (e_xc e) -> 0 < tolerance opt ->
  cutting_plane_optim ora (ell_space (N := RNum) parallel) opt o e gamma = Ok (o', e', gamma', (ans, k)) ->
  (e_tsq e' <> 0 \/ e' = e -> forall y, beats y gamma' -> pts n e y -> pts n e' y) /\
  ((k < max_iters opt)%nat -> tolerance opt <= e_tsq e' -> forall y, pts n e y -> ~ beats y gamma').
Proof. exact (fun O n Inv beats ora opt o e gamma o' e' gamma' ans k Hn => optim_keeps parallel parallel_sat parallel_deep parallel_step n Inv Hn beats ora opt o e gamma o' e' gamma' ans k). Qed.
Print Assumptions C80_parallel.
Example C80_case : optim_cuts single_sat single_deep 2 (fun _ _ => True) (at_least prob1 obj1) (ex1_assess (N := RNum)) /\
  optim_cuts single_sat single_deep 2 (fun i _ => (-1 <= i < 4)%Z) (at_least prob4 obj4) (ex4_assess (N := RNum)).
Proof. split; [exact (max2_cuts _ _ _ _ ex1_good1)|exact (max2_cuts _ _ _ _ ex4_good1)]. Qed.

(** ** C81: with default options the drivers solve the example problems *)
Theorem C81_example1 : forall val gamma : R, 20 <= val <= 10 ^ 20 -> gamma <= 2 ->
  exists e, ell_new_with_scalar (N := RNum) val (mkArr (N := RNum) (0 :: 0 :: nil) 2 0) = Ok e /\
  exists e' gamma' x k, cutting_plane_optim (ex1_assess (N := RNum)) (ell_space (N := RNum) single) options_default tt e gamma = Ok (tt, e', gamma', (Some x, k)) /\
    prob1 (coords x 0%nat) (coords x 1%nat) /\ gamma' = obj1 (coords x 0%nat) (coords x 1%nat) /\ 3 - 4 / 10 ^ 10 < gamma' <= 3.
Proof. exact ex1_converges. Qed.
Print Assumptions C81_example1.
Theorem C81_example1_rr : forall val gamma : R, 20 <= val <= 10 ^ 20 -> gamma <= 2 ->
  exists e, ell_new_with_scalar (N := RNum) val (mkArr (N := RNum) (0 :: 0 :: nil) 2 0) = Ok e /\
  exists i' e' gamma' x k, cutting_plane_optim (ex1rr_assess (N := RNum)) (ell_space (N := RNum) single) options_default (-1)%Z e gamma = Ok (i', e', gamma', (Some x, k)) /\
    prob1 (coords x 0%nat) (coords x 1%nat) /\ gamma' = obj1 (coords x 0%nat) (coords x 1%nat) /\ 3 - 4 / 10 ^ 10 < gamma' <= 3.
Proof. exact ex1rr_converges. Qed.
Print Assumptions C81_example1_rr.
Theorem C81_example4 : forall val gamma : R, 20 <= val <= 10 ^ 20 -> gamma <= 11 ->
  exists e, ell_new_with_scalar (N := RNum) val (mkArr (N := RNum) (0 :: 0 :: nil) 2 0) = Ok e /\
  exists i' e' gamma' x k, cutting_plane_optim (ex4_assess (N := RNum)) (ell_space (N := RNum) single) options_default (-1)%Z e gamma = Ok (i', e', gamma', (Some x, k)) /\
    prob4 (coords x 0%nat) (coords x 1%nat) /\ gamma' = obj4 (coords x 0%nat) (coords x 1%nat) /\ 12 - 14 / 10 ^ 10 < gamma' <= 12.
Proof. exact ex4_converges. Qed.
Print Assumptions C81_example4.
Theorem C81_example3 : forall val target : R, 20 <= val <= 10 ^ 20 -> -8 + 16 / 10 ^ 10 <= target ->
  exists e, ell_new_with_scalar (N := RNum) val (mkArr (N := RNum) (0 :: 0 :: nil) 2 0) = Ok e /\
  exists o' e' x k, cutting_plane_feas (ex3_oracle (N := RNum)) (ell_space (N := RNum) single) options_default (mkEx3 (N := RNum) (-1) target) e = Ok (o', e', (Some x, k)) /\
    prob4 (coords x 0%nat) (coords x 1%nat) /\ obj4 (coords x 0%nat) (coords x 1%nat) <= target.
Proof. exact ex3_converges. Qed.
Print Assumptions C81_example3.
Example C81_case : 20 <= 100 <= 10 ^ 20 /\ 0 <= 2 /\ 0 <= 11 /\ -8 + 16 / 10 ^ 10 <= 0.
Proof. lra. Qed.
