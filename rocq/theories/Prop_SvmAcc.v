(** C124: the SVM oracle in double arithmetic. *)
From Coq Require Import ZArith Reals List Bool Arith.
From Flocq Require Import Core IEEE754.BinarySingleNaN.
From Verif Require Import Num Res Arr ArrLemmas CuttingPlane Spec LmiSpec StepAccSpec Svm SvmSpec SvmAccSpec SvmAcc SvmAccEx.
Import ListNotations.
Open Scope R_scope.

(** Every call on data and query points of moderate size returns finite numbers. Either all
    margins are at least 1 up to [svm_err] and the answer is zero, or the level is the
    smallest margin up to [svm_err], the gradient is exactly that of a sample with such a
    margin, and the half space through the query point keeps every point whose margins are
    all above the level by [svm_err]. *)
Theorem C124_call : forall (lm : Libm) r c X W (data : Arr (FNum lm)) labels (xc : Arr (FNum lm)), svm_range r c X W data labels xc -> forall gamma : FNum lm,
  let d := fsamples data labels r c in let x := fcoords xc in let E := svm_err c X W in
  exists (gamma' : f64) g (beta : f64), svm_assess (svm_new data labels) xc gamma = Ok (svm_new data labels, (gamma' : FNum lm), ((g, mkSingle (N := FNum lm) beta), true)) /\
  length (adata g) = (c + 1)%nat /\ acols g = 0%nat /\ all_finite g /\ is_finite gamma' = true /\ beta = gamma' /\
  ((B2R gamma' = 0 /\ (forall j, (j < c + 1)%nat -> fcoords g j = 0) /\ forall i, (i < r)%nat -> 1 - E <= margin d x i) \/
   (exists k, (k < r)%nat /\ B2R gamma' < 1 /\ Rabs (B2R gamma' - margin d x k) <= E /\ (forall i, (i < r)%nat -> B2R gamma' <= margin d x i + E) /\
     (forall j, (j < c)%nat -> fcoords g j = - (IZR (nth k labels 0%Z) * fentry c data k j)) /\ fcoords g c = - IZR (nth k labels 0%Z) /\
     forall u, (forall i, (i < r)%nat -> B2R gamma' + E <= margin d u i) -> dot (c + 1) (fcoords g) (fun j => u j - x j) <= 0)).
Proof. exact @svm_call. Qed.
Print Assumptions C124_call.

(** A whole optimisation with any search space: if the reported point is in range, the
    reported level is zero with all margins at least 1, or the smallest margin at that
    point, up to [svm_err]. *)
Theorem C124_run : forall (lm : Libm) (S : Type) (sp : SearchSpace (FNum lm) (Arr (FNum lm)) (SingleCut (FNum lm)) S) opt r c X W data labels s (gamma : FNum lm) o' s' (gamma' : FNum lm) x k,
  cutting_plane_optim svm_assess sp opt (svm_new data labels) s gamma = Ok (o', s', gamma', (Some x, k)) -> svm_range r c X W data labels x ->
  let d := fsamples data labels r c in let z := fcoords x in let E := svm_err c X W in
  o' = svm_new data labels /\ is_finite (gamma' : f64) = true /\
  ((B2R (gamma' : f64) = 0 /\ forall i, (i < r)%nat -> 1 - E <= margin d z i) \/
   (B2R (gamma' : f64) < 1 /\ (forall i, (i < r)%nat -> B2R (gamma' : f64) <= margin d z i + E) /\ exists i, (i < r)%nat /\ margin d z i <= B2R (gamma' : f64) + E)).
Proof. exact @svm_run_f. Qed.
Print Assumptions C124_run.

(** The data of the unit test: at (1, 0, 0) every margin is 1 and the answer is 0, at
    (0.5, 0, 0) the level is 0.5. *)
Example C124_case : svm_range 2 2 1 1 svm_data0 [1; -1]%Z svm_x0 /\
  svm_is (svm_new svm_data0 [1; -1]%Z) svm_x0 (nZ 0) = true /\ svm_is (svm_new svm_data0 [1; -1]%Z) (mkArr (N := F0) [nlit 5 (-1); nZ 0; nZ 0] 3 0) (nlit 5 (-1)) = true.
Proof. exact (conj svm_case_range svm_case_run). Qed.
