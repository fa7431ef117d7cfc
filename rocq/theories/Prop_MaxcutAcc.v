(** C125: the max-cut oracle in double arithmetic, on graphs with whole weights. *)
From Coq Require Import ZArith Reals List Bool Arith.
From Flocq Require Import Core IEEE754.BinarySingleNaN.
From Verif Require Import Num Res Arr CuttingPlane Spec LmiSpec StepAccSpec Svm SvmSpec MaxcutAccSpec MaxcutAcc.
Import ListNotations.
Open Scope R_scope.

(** One call, at any point of any doubles: everything is exact. *)
Theorem C125_call : forall (lm : Libm) n B (o : Maxcut (FNum lm)) (x : Arr (FNum lm)), whole_graph n B o -> (n <= length (adata x))%nat -> forall gamma : FNum lm,
  let cut := cut_of n (fentry n (mc_weights o)) (fside x) in
  exists (gamma' : f64) g (beta : f64) b, maxcut_assess o x gamma = Ok (o, (gamma' : FNum lm), ((g, mkSingle (N := FNum lm) beta), b)) /\
  (is_finite (gamma : f64) = true -> (b = true <-> B2R (gamma : f64) < cut)) /\ ((gamma : f64) = B754_infinity true -> b = true) /\
  (b = true -> is_finite gamma' = true /\ B2R gamma' = cut /\ is_finite beta = true /\ B2R beta = - cut) /\ (b = false -> gamma' = gamma /\ beta = gamma) /\
  length (adata g) = n /\ acols g = 0%nat /\ all_finite g /\ (forall i, (i < n)%nat -> fcoords g i = - (2 * degree_of n (fentry n (mc_weights o)) (fside x) i)).
Proof. exact @maxcut_f. Qed.
Print Assumptions C125_call.

(** A whole optimisation with any search space, from minus infinity or a number: the
    reported level is exactly the weight of the reported cut, and never below the start. *)
Theorem C125_run : forall (lm : Libm) (S : Type) (sp : SearchSpace (FNum lm) (Arr (FNum lm)) (SingleCut (FNum lm)) S) opt n B (o : Maxcut (FNum lm)) s (gamma : FNum lm) o' s' (gamma' : FNum lm) xb k,
  whole_graph n B o -> is_finite (gamma : f64) = true \/ (gamma : f64) = B754_infinity true -> cutting_plane_optim maxcut_assess sp opt o s gamma = Ok (o', s', gamma', (xb, k)) ->
  o' = o /\ (is_finite (gamma : f64) = true -> is_finite (gamma' : f64) = true /\ B2R (gamma : f64) <= B2R (gamma' : f64)) /\
  match xb with None => gamma' = gamma | Some x => is_finite (gamma' : f64) = true /\ B2R (gamma' : f64) = cut_of n (fentry n (mc_weights o)) (fside x) end.
Proof. exact @maxcut_run. Qed.
Print Assumptions C125_run.

(** At a point of numbers this is the cut weight of C58. *)
Theorem C125_sides : forall (lm : Libm) n w (x : Arr (FNum lm)), (forall i, (i < n)%nat -> is_finite (nth i (adata x) (n0 (N := FNum lm)) : f64) = true) ->
  cut_of n w (fside x) = cut_weight n w (fcoords x).
Proof. exact @cut_fin. Qed.
Print Assumptions C125_sides.

(** The complete graph on three vertices with weights 1, 2 and 3: the cut at (1, 1, -1) is 5. *)
Example C125_case : whole_graph 3 3 tri /\ cut_is tri (mkArr (N := FNum lm0) [nZ 1; nZ 1; nZ (-1)] 3 0) (nZ 5) = true.
Proof. exact (conj tri_ok tri_run). Qed.
