(** C57-C59: the SVM and max-cut oracles. *)
From Coq Require Import ZArith Reals List Bool.
From Flocq Require Import Core IEEE754.BinarySingleNaN.
From Verif Require Import Num Res Arr CuttingPlane Ell Spec LmiSpec ExtSpec Svm SvmSpec SvmProofs MaxcutProofs SvmWitness Replay.
Import ListNotations.
Open Scope R_scope.

(** ** C57 *)
(** extended reals, because the search for the minimum starts at infinity *)
Theorem C57_minimum_margin : forall (o : Svm ENum) d (x : Arr RNum) (gamma : ext), svm_about o d -> (s_cols d < length (adata x))%nat ->
  exists gamma' g beta, svm_assess (N := ENum) o (fin_arr x) gamma = Ok (o, Fin gamma', ((fin_arr g, mkSingle (N := ENum) (Fin beta)), true)) /\
    length (adata g) = (s_cols d + 1)%nat /\ acols g = 0%nat /\
    (s_rows d = 0%nat \/ exists k, weakest d (xvec x) k /\
       (1 <= margin d (xvec x) k \/
        (gamma' = margin d (xvec x) k /\ beta = gamma' /\
         (forall j, (j < s_cols d)%nat -> xvec g j = - (IZR (s_y d k) * s_x d k j)) /\ xvec g (s_cols d) = - IZR (s_y d k)))) /\
    ((forall i, (i < s_rows d)%nat -> 1 <= margin d (xvec x) i) -> gamma' = 0 /\ beta = 0 /\ forall j, xvec g j = 0) /\
    (forall z, (forall i, (i < s_rows d)%nat -> gamma' <= margin d z i) -> dot (s_cols d + 1) (xvec g) (fun i => z i - xvec x i) <= 0).
Proof. exact svm_answer. Qed.
Print Assumptions C57_minimum_margin.
Theorem C57_always_improves : forall (N : Num) (o : Svm N) xc gamma o' gamma' cut b,
  svm_assess o xc gamma = Ok (o', gamma', (cut, b)) -> b = true /\ o' = o.
Proof. exact @svm_always. Qed.
Print Assumptions C57_always_improves.
(** the beta in the answer would make a wrong cut (the optimiser ignores it,
    because every answer claims an improvement) *)
Theorem C57_beta_refuted : exists (o : Svm ENum) d (x : Arr RNum) (gamma' : R) g beta z, svm_about o d /\ length (adata x) = (s_cols d + 1)%nat /\
  svm_assess (N := ENum) o (fin_arr x) NInf = Ok (o, Fin gamma', ((fin_arr g, mkSingle (N := ENum) (Fin beta)), true)) /\
  (forall i, (i < s_rows d)%nat -> gamma' < margin d z i) /\ 0 < dot (s_cols d + 1) (xvec g) (fun i => z i - xvec x i) + beta.
Proof. exact svm_bias_wrong. Qed.
Print Assumptions C57_beta_refuted.
(** a run in binary64: gamma and the best point get worse, twice *)
Theorem C57_monotone_refuted : match svm_run 1, svm_run 2, svm_run 5, svm_run 6 with
  | Ok (_, _, g1, (Some x1, _)), Ok (_, _, g2, (Some x2, _)), Ok (_, _, g5, (Some x5, _)), Ok (_, _, g6, (Some x6, k)) =>
      milli g1 = 0%Z /\ map milli (adata x1) = [0; 0]%Z /\ milli g2 = (-2981)%Z /\ map milli (adata x2) = [745; 745]%Z /\
      milli g5 = 981%Z /\ milli g6 = 0%Z /\ k = 5%nat
  | _, _, _, _ => False end.
Proof. exact svm_gets_worse. Qed.
Print Assumptions C57_monotone_refuted.
Theorem C57_space_nan : match svm_run 6 with
  | Ok (_, e, _, (Some x, _)) => map (fun v : F => is_nan v) (adata (e_xc e)) = [true; true] /\ map (fun v : F => is_nan v) (adata x) = [false; false]
  | _ => False end.
Proof. exact svm_space_nan. Qed.
Print Assumptions C57_space_nan.

(** ** C58 *)
Theorem C58_cut_weight : forall n w (o : Maxcut RNum) (x : Arr RNum), mc_about o n w -> (n <= length (adata x))%nat -> forall gamma : R,
  exists gamma' g beta b, maxcut_assess (N := RNum) o x gamma = Ok (o, gamma', ((g, mkSingle (N := RNum) beta), b)) /\
  (b = true <-> gamma < cut_weight n w (xvec x)) /\
  (b = true -> gamma' = cut_weight n w (xvec x) /\ beta = - gamma') /\ (b = false -> gamma' = gamma /\ beta = gamma) /\
  length (adata g) = n /\ acols g = 0%nat /\ (forall i, (i < n)%nat -> xvec g i = - (2 * cut_degree n w (xvec x) i)).
Proof. exact maxcut_ok. Qed.
Print Assumptions C58_cut_weight.
Theorem C58_new : forall (N : Num) (w : Arr N), maxcut_new w = Panic <-> arows w <> acols w \/ acols w = 0%nat.
Proof. exact @maxcut_new_panic. Qed.
Print Assumptions C58_new.
Theorem C58_run : forall (S : Type) (sp : SearchSpace RNum (Arr RNum) (SingleCut RNum) S) opt n w (o : Maxcut RNum) s (gamma : R) o' s' gamma' xb k,
  mc_about o n w -> cutting_plane_optim (N := RNum) (maxcut_assess (N := RNum)) sp opt o s gamma = Ok (o', s', gamma', (xb, k)) ->
  o' = o /\ gamma <= gamma' /\ match xb with None => gamma' = gamma | Some x => gamma' = cut_weight n w (xvec x) /\ (n <= length (adata x))%nat end.
Proof. exact @maxcut_best. Qed.
Print Assumptions C58_run.

(** ** C59: also a concrete case for C58 *)
Theorem C59_valid_cut_refuted : exists o n w x (gamma gamma' : R) g beta z, mc_about o n w /\ length (adata x) = n /\
  maxcut_assess (N := RNum) o x gamma = Ok (o, gamma', ((g, mkSingle (N := RNum) beta), true)) /\
  gamma' < cut_weight n w z /\ 0 < dot n (xvec g) (fun i => z i - xvec x i) /\ 0 < dot n (xvec g) (fun i => z i - xvec x i) + beta.
Proof. exact maxcut_invalid. Qed.
Print Assumptions C59_valid_cut_refuted.
