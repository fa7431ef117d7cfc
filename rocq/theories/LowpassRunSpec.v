(** Whole runs of the lowpass designs. *)
From Coq Require Import Reals List Arith.
From Verif Require Import Num Res Arr CuttingPlane EllCalc Spec LmiSpec ExtSpec Lowpass LowpassSpec.
Open Scope R_scope.

(** lowpass_oracle.rs 56-131: LowpassOracle as an OracleFeas.  [update] is not
    overridden, so it does nothing (cutting_plane.rs 125). *)
Definition lowpass_oracle {N : Num} : OracleFeas N (Arr N) (ParallelCut N) (Lowpass N) :=
  {| of_assess := lowpass_feas; of_update := fun o _ => o |}.

(** every row of the response matrix starts with 1, as it does in the problems
    that LowpassOracle::new describes *)
Definition unit_column (f : filter) : Prop := forall k, (k < f_m f)%nat -> f_A f k 0%nat = 1.

(** [g] is a row of the response matrix, or the opposite of one, or the opposite
    of the first unit vector *)
Definition cut_row (f : filter) (g : vec) : Prop :=
  (exists k s, (k < f_m f)%nat /\ (s = 1 \/ s = -1) /\ forall j, (j < f_n f)%nat -> g j = s * f_A f k j) \/
  (g 0%nat = -1 /\ forall j, (0 < j < f_n f)%nat -> g j = 0).

(** [z] meets the specification with stop-band level [s] and room [d] to spare *)
Definition slack (f : filter) (s d : R) (z : vec) : Prop :=
  (forall k, (k < f_p f)%nat -> f_lp f + d <= response f z k <= f_up f - d) /\
  (forall k, (f_p f <= k < f_q f)%nat -> d <= response f z k) /\
  (forall k, (f_q f <= k < f_m f)%nat -> d <= response f z k <= s - d) /\
  d <= z 0%nat.
