(** Property C85: whole runs of cutting_plane_optim_q (cuts that need not go
    through the centre, discrete designs) on an Ell, in exact arithmetic.
    Vocabulary: RunQSpec.v ([optim_q_cuts], [always_more]), EllSpec.v ([pts]). *)
From Coq Require Import ZArith Reals List Arith Lia Lra.
From Verif Require Import Num Res Arr CuttingPlane EllCalc Ell EllRun Spec EllSpec EllCuts EllReal EllMore RunSpec RunQSpec RunQ EllWitness RunQWitness.
Import ListNotations.
Open Scope R_scope.

(** No better design is lost, and a run that stops on a rejected cut has proved
    that there is none, provided the oracle always has an alternative. *)
Theorem C85_single : forall O n (Inv : O -> R -> Prop) beats (ora : OracleOptimQ RNum (Arr RNum) (SingleCut RNum) O) (opt : Options RNum) o (e : Ell RNum) (gamma : R) o' e' (gamma' : R) ans k,
  (2 <= n)%nat -> optim_q_cuts single_sat n Inv beats ora -> Inv o gamma -> valid n e -> vecn n (e_xc e) -> 0 < tolerance opt ->
  cutting_plane_optim_q ora (ell_space (N := RNum) single) opt o e gamma = Ok (o', e', gamma', (ans, k)) ->
  (e_tsq e' <> 0 \/ e' = e -> forall y, beats y gamma' -> pts n e y -> pts n e' y) /\
  (always_more ora -> (k < max_iters opt)%nat -> tolerance opt <= e_tsq e' -> forall y, pts n e y -> ~ beats y gamma').
Proof. exact (fun O n Inv beats ora opt o e gamma o' e' gamma' ans k Hn => optim_q_keeps single single_sat single_q_ok n Inv Hn beats ora opt o e gamma o' e' gamma' ans k). Qed.
Print Assumptions C85_single.
Theorem C85_parallel : forall O n (Inv : O -> R -> Prop) beats (ora : OracleOptimQ RNum (Arr RNum) (ParallelCut RNum) O) (opt : Options RNum) o (e : Ell RNum) (gamma : R) o' e' (gamma' : R) ans k,
  (2 <= n)%nat -> optim_q_cuts parallel_sat n Inv beats ora -> Inv o gamma -> valid n e -> vecn n (e_xc e) -> 0 < tolerance opt ->
  cutting_plane_optim_q ora (ell_space (N := RNum) parallel) opt o e gamma = Ok (o', e', gamma', (ans, k)) ->
  (e_tsq e' <> 0 \/ e' = e -> forall y, beats y gamma' -> pts n e y -> pts n e' y) /\
  (always_more ora -> (k < max_iters opt)%nat -> tolerance opt <= e_tsq e' -> forall y, pts n e y -> ~ beats y gamma').
Proof. exact (fun O n Inv beats ora opt o e gamma o' e' gamma' ans k Hn => optim_q_keeps parallel parallel_sat parallel_q_ok n Inv Hn beats ora opt o e gamma o' e' gamma' ans k). Qed.
Print Assumptions C85_parallel.

(** Minimising over integer designs with shallow cuts: the hypotheses hold, every
    run returns, and the design 1 beats level 2. *)
Example C85_case :
  optim_q_cuts single_sat 2 (fun _ _ => True) int_beats int_oracle /\ optim_q_cuts parallel_sat 2 (fun _ _ => True) int_beats int_slab /\
  (always_more int_oracle /\ always_more int_slab) /\ valid 2 disc /\ vecn 2 (e_xc disc) /\
  (forall (opt : Options RNum) (gamma : R),
    (exists o' e' (gamma' : R) ans k, cutting_plane_optim_q int_oracle (ell_space (N := RNum) single) opt tt disc gamma = Ok (o', e', gamma', (ans, k))) /\
    (exists o' e' (gamma' : R) ans k, cutting_plane_optim_q int_slab (ell_space (N := RNum) parallel) opt tt disc gamma = Ok (o', e', gamma', (ans, k)))) /\
  (int_beats (fun i => match i with 0%nat => 1 | _ => 0 end) 2 /\ pts 2 disc (fun i => match i with 0%nat => 1 | _ => 0 end)).
Proof.
  split; [exact int_cuts|]. split; [exact int_slab_cuts|]. split; [exact int_more|]. split; [exact (proj1 disc_proper)|].
  split; [split; reflexivity|]. split; [|split; [exact int_kept|apply disc_pts; lra]].
  intros opt gamma. apply int_runs; [exact (valid_wf _ _ (proj1 disc_proper))|split; reflexivity].
Qed.

(** Without that proviso an early stop proves nothing. *)
Theorem C85_stop_refuted : exists (O : Type) (Inv : O -> R -> Prop) beats (ora : OracleOptimQ RNum (Arr RNum) (SingleCut RNum) O) (opt : Options RNum) o (e : Ell RNum) (gamma : R) o' e' (gamma' : R) ans k y,
  optim_q_cuts single_sat 2 Inv beats ora /\ Inv o gamma /\ valid 2 e /\ vecn 2 (e_xc e) /\ 0 < tolerance opt /\
  cutting_plane_optim_q ora (ell_space (N := RNum) single) opt o e gamma = Ok (o', e', gamma', (ans, k)) /\
  (k < max_iters opt)%nat /\ tolerance opt <= e_tsq e' /\ pts 2 e y /\ beats y gamma'.
Proof. exact stops_early. Qed.
Print Assumptions C85_stop_refuted.
