(** Models of /repo/src/oracles/svm_oracle.rs and maxcut_oracle.rs. *)
From Coq Require Import ZArith List Bool Arith.
From Verif Require Import Num Res Arr CuttingPlane.
Import ListNotations.

(** svm_oracle.rs 4-8; [nfeat] is [data.cols()] *)
Record Svm (N : Num) := mkSvm { svm_data : Arr N; svm_labels : list Z; svm_nfeat : nat }.
Arguments mkSvm {N}. Arguments svm_data {N}. Arguments svm_labels {N}. Arguments svm_nfeat {N}.
(** maxcut_oracle.rs 4-7 *)
Record Maxcut (N : Num) := mkMaxcut { mc_weights : Arr N; mc_n : nat }.
Arguments mkMaxcut {N}. Arguments mc_weights {N}. Arguments mc_n {N}.

Section Model.
Context {N : Num}.
Notation arr := (Arr N).

(** svm_oracle.rs 11-18 *)
Definition svm_new (data : arr) (labels : list Z) : Svm N := mkSvm data labels (acols data).
(** svm_oracle.rs 29-40: the smallest margin and its sample *)
Definition svm_min (o : Svm N) (w : arr) (b : N) : res (N * nat) :=
  for_range 0 (arows (svm_data o)) (fun i '(min_val, min_idx) =>
    y <- rd (svm_labels o) i ;;
    xi <- a_row (svm_data o) i ;;
    d <- a_dot w xi ;;
    let margin := nZ y *! (d +! b) in
    if margin <?! min_val then Ok (margin, i) else Ok (min_val, min_idx)) (npinf, 0).
(** svm_oracle.rs 24-58; [Arr::from_fn] with the indexing closure of line 26 is
    written as the loop it performs *)
Definition svm_assess (o : Svm N) (xc : arr) (gamma : N) : res (Svm N * N * ((arr * SingleCut N) * bool)) :=
  let n := svm_nfeat o in
  w <- for_range 0 n (fun i a => v <- a_idx xc i ;; a_setidx a i v) (a_new n) ;;
  b <- a_idx xc n ;;
  '(min_val, min_idx) <- svm_min o w b ;;
  if min_val >=?! n1 then Ok (o, n0, ((a_new (n + 1), mkSingle n0), true))
  else
    y <- rd (svm_labels o) min_idx ;;
    xi <- a_row (svm_data o) min_idx ;;
    let g := a_from (map (fun x => -! nZ y *! x) (adata xi) ++ [-! nZ y]) in
    Ok (o, min_val, ((g, mkSingle min_val), true)).

(** maxcut_oracle.rs 10-16 *)
Definition maxcut_new (w : arr) : res (Maxcut N) :=
  assert (arows w =? acols w) (assert (a_is_2d w) (Ok (mkMaxcut w (arows w)))).
(** maxcut_oracle.rs 22 *)
Definition mc_sign (xc : arr) : arr := a_map (fun v => if v >=?! n0 then n1 else -! n1) xc.
(** maxcut_oracle.rs 24-31 *)
Definition mc_value (o : Maxcut N) (x : arr) : res N :=
  for_range 0 (mc_n o) (fun i c =>
    for_range (i + 1) (mc_n o) (fun j c =>
      a <- a_idx x i ;; b <- a_idx x j ;;
      if negb (a =?! b) then (w <- a_idx2 (mc_weights o) i j ;; Ok (c +! w)) else Ok c) c) n0.
(** maxcut_oracle.rs 33-41 *)
Definition mc_grad (o : Maxcut N) (x : arr) : res arr :=
  g <- for_range 0 (mc_n o) (fun i g =>
    for_range 0 (mc_n o) (fun j g =>
      a <- a_idx x i ;; b <- a_idx x j ;;
      if negb (a =?! b) then
        (w <- a_idx2 (mc_weights o) i j ;; v <- a_idx g i ;; a_setidx g i (v +! w))
      else Ok g) g) (a_new (mc_n o)) ;;
  Ok (a_muls g n2).
(** maxcut_oracle.rs 21-50 *)
Definition maxcut_assess (o : Maxcut N) (xc : arr) (gamma : N) : res (Maxcut N * N * ((arr * SingleCut N) * bool)) :=
  let x := mc_sign xc in
  c <- mc_value o x ;;
  g <- mc_grad o x ;;
  if c >?! gamma then Ok (o, c, ((a_neg g, mkSingle (-! c)), true))
  else Ok (o, gamma, ((a_neg g, mkSingle gamma), false)).
End Model.
