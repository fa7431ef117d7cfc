(** Specification of the lowpass oracle. *)
From Coq Require Import ZArith Reals List Bool Arith.
From Verif Require Import Num Res Arr ArrLemmas CuttingPlane Spec LmiSpec ExtSpec Lowpass.
Import ListNotations.
Open Scope R_scope.

(** A design problem: [f_m] frequencies, the first [f_p] are the pass band, those
    from [f_q] on the stop band; row k of [f_A] gives the response at frequency k. *)
Record filter := mkFilter { f_n : nat; f_m : nat; f_p : nat; f_q : nat; f_A : mtx; f_lp : R; f_up : R }.
Definition response (f : filter) (y : vec) (k : nat) : R := dot (f_n f) (f_A f k) y.
(** [y] meets the specification with stop-band level [sp]. *)
Definition meets (f : filter) (sp : R) (y : vec) : Prop :=
  (forall k, (k < f_p f)%nat -> f_lp f <= response f y k <= f_up f) /\
  (forall k, (f_p f <= k < f_q f)%nat -> 0 <= response f y k) /\
  (forall k, (f_q f <= k < f_m f)%nat -> 0 <= response f y k <= sp) /\
  0 <= y 0%nat.
(** g . (y - x) + beta0 <= 0, and g . (y - x) + beta1 >= 0 if there is a beta1 *)
Definition keeps (n : nat) (g x : vec) (beta0 : R) (beta1 : option R) (Y : vec -> Prop) : Prop :=
  forall y, Y y -> dot n g (fun i => y i - x i) + beta0 <= 0 /\
    match beta1 with None => True | Some b => 0 <= dot n g (fun i => y i - x i) + b end.

(** Oracle states that calls can produce, for any number type. *)
Definition lw_ok {N : Num} (n : nat) (o : Lowpass N) : Prop :=
  (0 < n)%nat /\ (0 < length (lw_spectrum o))%nat /\ (forall r, In r (lw_spectrum o) -> is_vec n r) /\
  (0 <= lw_nwpass o <= lw_nwstop o)%Z /\ (lw_nwstop o <= Z.of_nat (length (lw_spectrum o)))%Z /\
  (-1 <= lw_idx1 o <= lw_nwpass o - 1 \/ lw_nwpass o = 0)%Z /\
  (lw_nwpass o - 1 <= lw_idx2 o <= lw_nwstop o - 1)%Z /\
  (lw_nwstop o - 1 <= lw_idx3 o <= Z.of_nat (length (lw_spectrum o)) - 1)%Z.
Definition lw_same {N : Num} (o o' : Lowpass N) : Prop :=
  lw_spectrum o' = lw_spectrum o /\ lw_nwpass o' = lw_nwpass o /\ lw_nwstop o' = lw_nwstop o /\ lw_lp o' = lw_lp o /\ lw_up o' = lw_up o.

(** What the code computes at a frequency, for any number type. *)
Definition v_resp {N : Num} (n : nat) (o : Lowpass N) (x : Arr N) (k : nat) : N :=
  accum nsum0 (fun j => vget (nth k (lw_spectrum o) (a_new 0)) j *! vget x j) n.
(** no test of the code fires *)
Definition v_meets {N : Num} (n : nat) (o : Lowpass N) (x : Arr N) : Prop :=
  let p := Z.to_nat (lw_nwpass o) in let q := Z.to_nat (lw_nwstop o) in
  (forall k, (k < p)%nat -> (v_resp n o x k >?! lw_up o) = false /\ (v_resp n o x k <?! lw_lp o) = false) /\
  (forall k, (p <= k < q)%nat -> (v_resp n o x k <?! n0) = false) /\
  (forall k, (q <= k < length (lw_spectrum o))%nat -> (v_resp n o x k >?! lw_sp o) = false /\ (v_resp n o x k <?! n0) = false) /\
  (vget x 0 <?! n0) = false.
(** one of the tests fires and the cut is built from it *)
Definition v_cut {N : Num} (n : nat) (o : Lowpass N) (x : Arr N) (g : Arr N) (c : ParallelCut N) : Prop :=
  let p := Z.to_nat (lw_nwpass o) in let q := Z.to_nat (lw_nwstop o) in
  let row k := nth k (lw_spectrum o) (a_new 0) in let v k := v_resp n o x k in
  (exists k, (k < p)%nat /\ (v k >?! lw_up o) = true /\ g = row k /\ c = mkParallel (v k -! lw_up o) (Some (v k -! lw_lp o))) \/
  (exists k, (k < p)%nat /\ (v k <?! lw_lp o) = true /\ g = neg_row (row k) /\ c = mkParallel (-! v k +! lw_lp o) (Some (-! v k +! lw_up o))) \/
  (exists k, (q <= k < length (lw_spectrum o))%nat /\ (v k >?! lw_sp o) = true /\ g = row k /\ c = mkParallel (v k -! lw_sp o) (Some (v k))) \/
  (exists k, (q <= k < length (lw_spectrum o))%nat /\ (v k <?! n0) = true /\ g = neg_row (row k) /\ c = mkParallel (-! v k) (Some (-! v k +! lw_sp o))) \/
  (exists k, (p <= k < q)%nat /\ (v k <?! n0) = true /\ g = neg_row (row k) /\ c = mkParallel (-! v k) None) \/
  ((vget x 0 <?! n0) = true /\ is_vec n g /\ adata g = (-! n1) :: repeat n0 (n - 1) /\ c = mkParallel (-! vget x 0) None).

(** The oracle over the extended reals holds the problem [f]; the stop-band
    level [lw_sp] changes from call to call and is not part of it. *)
Definition lw_about (o : Lowpass ENum) (f : filter) : Prop :=
  lw_ok (f_n f) o /\
  (exists rows : list (Arr RNum), lw_spectrum o = map fin_arr rows /\ length rows = f_m f /\
     forall k j, (k < f_m f)%nat -> (j < f_n f)%nat -> xvec (nth k rows (a_new (N := RNum) 0)) j = f_A f k j) /\
  lw_nwpass o = Z.of_nat (f_p f) /\ lw_nwstop o = Z.of_nat (f_q f) /\ lw_lp o = Fin (f_lp f) /\ lw_up o = Fin (f_up f).
(** [sp] is the largest stop-band response of [y] *)
Definition stop_level (f : filter) (y : vec) (sp : R) : Prop :=
  (exists k, (f_q f <= k < f_m f)%nat /\ response f y k = sp) /\ forall k, (f_q f <= k < f_m f)%nat -> response f y k <= sp.
Definition fin_par (b0 : R) (b1 : option R) : ParallelCut ENum :=
  mkParallel (N := ENum) (Fin b0) (match b1 with Some b => Some (Fin b) | None => None end).

(** The problem that LowpassOracle::new describes: 15 n frequencies, evenly spaced
    from 0 to pi, responses x_0 + 2 sum_j x_j cos (j w). *)
Definition lowpass_problem (n p q : nat) (lp up : R) : filter :=
  mkFilter n (15 * n) p q (fun k j => if (j =? 0)%nat then 1 else 2 * cos (PI * INR k / INR (15 * n - 1) * INR j)) lp up.
(** [p] of the frequencies 0, 1/(m-1), ..., 1 are at most [w] *)
Definition band (m : nat) (w : R) (p : nat) : Prop :=
  (p <= m)%nat /\ forall k, (k < m)%nat -> ((k < p)%nat <-> INR k / INR (m - 1) <= w).

(** a sequence of calls; [None] is assess_feas, [Some level] assess_optim *)
Fixpoint lw_calls {N : Num} (o : Lowpass N) (l : list (Arr N * option N)) : res (Lowpass N) :=
  match l with
  | [] => Ok o
  | (x, None) :: t => '(o, _) <- lowpass_feas o x ;; lw_calls o t
  | (x, Some sp) :: t => '(o, _, _) <- lowpass_assess o x sp ;; lw_calls o t
  end.
(** the level is an argument of assess_optim *)
Definition set_level {N : Num} (o : Lowpass N) (sp : N) : Lowpass N :=
  mkLowpass (lw_more_alt o) (lw_idx1 o) (lw_spectrum o) (lw_nwpass o) (lw_nwstop o) (lw_lp o) (lw_up o) sp
    (lw_idx2 o) (lw_idx3 o) (lw_fmax o) (lw_kmax o).
