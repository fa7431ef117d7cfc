(** Specification of the SVM and max-cut oracles. *)
From Coq Require Import ZArith Reals List Bool Arith.
From Verif Require Import Num Res Arr CuttingPlane Spec LmiSpec ExtSpec Svm.
Import ListNotations.
Open Scope R_scope.

(** ** Support vector machine *)
(** A data set: [s_rows] samples with [s_cols] features and a label each. *)
Record samples := mkSamples { s_rows : nat; s_cols : nat; s_x : mtx; s_y : nat -> Z }.
(** The margin of sample [i] for the weights z_0 .. z_(cols-1) and the offset z_cols. *)
Definition margin (d : samples) (z : vec) (i : nat) : R := IZR (s_y d i) * (dot (s_cols d) z (s_x d i) + z (s_cols d)).
(** [k] is the first sample with the smallest margin. *)
Definition weakest (d : samples) (z : vec) (k : nat) : Prop :=
  (k < s_rows d)%nat /\ (forall i, (i < s_rows d)%nat -> margin d z k <= margin d z i) /\
  (forall i, (i < k)%nat -> margin d z k < margin d z i).
(** The oracle as constructed from finite data (in the extended reals): the label
    list may be longer than needed. *)
Definition svm_about (o : Svm ENum) (d : samples) : Prop := exists a : Arr RNum,
  o = svm_new (N := ENum) (fin_arr a) (svm_labels o) /\
  (0 < s_cols d)%nat /\ length (adata a) = (s_rows d * s_cols d)%nat /\ arows a = s_rows d /\ acols a = s_cols d /\
  (forall i j, (i < s_rows d)%nat -> (j < s_cols d)%nat -> nth (i * s_cols d + j) (adata a) 0 = s_x d i j) /\
  (s_rows d <= length (svm_labels o))%nat /\ (forall i, (i < s_rows d)%nat -> nth i (svm_labels o) 0%Z = s_y d i).

(** ** Max cut *)
(** The side of a vertex is given by the sign of its coordinate. *)
Definition side (x : vec) (i : nat) : bool := if Rle_dec 0 (x i) then true else false.
(** The weight of the edges between the two sides, each edge counted once. *)
Definition cut_weight (n : nat) (w : mtx) (x : vec) : R :=
  Rsum n (fun j => Rsum j (fun i => if Bool.eqb (side x i) (side x j) then 0 else w i j)).
(** The weight of the edges that leave vertex [i]. *)
Definition cut_degree (n : nat) (w : mtx) (x : vec) (i : nat) : R :=
  Rsum n (fun j => if Bool.eqb (side x i) (side x j) then 0 else w i j).
Definition mc_about (o : Maxcut RNum) (n : nat) (w : mtx) : Prop :=
  (0 < n)%nat /\ maxcut_new (N := RNum) (mc_weights o) = Ok o /\ mc_n o = n /\ length (adata (mc_weights o)) = (n * n)%nat /\
  forall i j, (i < n)%nat -> (j < n)%nat -> nth (i * n + j) (adata (mc_weights o)) 0 = w i j.
