(** C118: bsearch against a threshold oracle in binary64. *)
From Coq Require Import ZArith Reals List.
From Flocq Require Import Core IEEE754.BinarySingleNaN.
From Verif Require Import Num Res CuttingPlane BsAccSpec BsAcc Replay BsAccEx.
Local Open Scope R_scope.

(** The run returns; its ends are the given ones or probes with the right answer, they still
    enclose the threshold, and the bracket is halved in every round up to [bs_slack]; the
    number of rounds follows from the width and the tolerance in the same sense; the flag says
    whether the upper end moved. *)
Theorem C118_bracket (lm : Libm) (B : Type) (ora : OracleBS (FNum lm) B) (opt : Options (FNum lm)) (T : R) (l u : f64) (b : B) :
  is_finite l = true -> is_finite u = true -> is_finite (fsub u l) = true -> B2R l < T <= B2R u -> threshold lm ora T ->
  is_finite (tolerance opt : f64) = true ->
  exists b' flag k bs (gammas : nat -> f64) ans (lo hi : f64),
  bsearch ora opt b ((l, u) : FNum lm * FNum lm) = Ok (b', (l, u), (flag, k)) /\ (k <= max_iters opt)%nat /\
  bs 0%nat = b /\ bs k = b' /\
  (forall i, (i < k)%nat -> ora (bs i) (gammas i) = Ok (bs (1 + i)%nat, ans i) /\ is_finite (gammas i) = true) /\
  (lo = l \/ exists i, (i < k)%nat /\ ans i = false /\ lo = gammas i) /\
  (hi = u \/ exists i, (i < k)%nat /\ ans i = true /\ hi = gammas i) /\
  B2R l <= B2R lo /\ B2R lo < T <= B2R hi /\ B2R hi <= B2R u /\
  B2R hi - B2R lo <= (B2R u - B2R l) / 2 ^ k + bs_slack l u /\
  (forall i, (i < k)%nat -> 2 * B2R (tolerance opt : f64) <= (1 + bpow radix2 (-50)) * ((B2R u - B2R l) / 2 ^ i + bs_slack l u) + bpow radix2 (-1072)) /\
  (k = max_iters opt \/ (1 - bpow radix2 (-50)) * (B2R hi - B2R lo) <= 2 * B2R (tolerance opt : f64) + bpow radix2 (-1072)) /\
  (flag = true <-> B2R hi < B2R u).
Proof. exact (bs_float lm ora opt T l u b). Qed.
Print Assumptions C118_bracket.

(** A tolerance below the spacing of the doubles near the threshold is never met: all
    max_iters rounds are spent (the default 1e-20 is such a tolerance for thresholds of size
    1e-3 and more). *)
Theorem C118_stuck (lm : Libm) (B : Type) (ora : OracleBS (FNum lm) B) (opt : Options (FNum lm)) (T : R) (l u : f64) (b : B) b' iv flag k :
  is_finite l = true -> is_finite u = true -> is_finite (fsub u l) = true -> B2R l < T <= B2R u -> threshold lm ora T ->
  is_finite (tolerance opt : f64) = true -> B2R (tolerance opt : f64) <= bpow radix2 (-55) * Rabs T ->
  bsearch ora opt b ((l, u) : FNum lm * FNum lm) = Ok (b', iv, (flag, k)) -> k = max_iters opt.
Proof. exact (fun H1 H2 H3 H4 H5 => bs_stuck lm ora opt T l u b H1 H2 H3 H4 H5 b' iv flag k). Qed.
Print Assumptions C118_stuck.

(** Unlike in exact arithmetic (C07) the flag can be false although a probe was accepted, when
    the probe is rounded to the upper end: the oracle's state counts the accepted probes. *)
Theorem C118_flag_refuted : exists (ora : OracleBS (FNum lm0) nat) (l u : f64) n iv k,
  threshold lm0 ora (B2R u) /\ is_finite l = true /\ is_finite u = true /\ is_finite (fsub u l) = true /\ B2R l < B2R u /\
  (forall m g, ora m g = Ok ((if Bleb u g then S m else m), Bleb u g)) /\
  bsearch ora opts0 0%nat ((l, u) : FNum lm0 * FNum lm0) = Ok (n, iv, (false, k)) /\ (0 < n)%nat.
Proof. exact flag_refuted. Qed.
Print Assumptions C118_flag_refuted.

(** The threshold 3 on (0, 100): 33 probes with the tolerance 1e-8, 2000 with the default options. *)
Example C118_case : threshold lm0 (from3 : OracleBS (FNum lm0) nat) 3 /\
  (is_finite (fofZ 0) = true /\ is_finite (fofZ 100) = true /\ is_finite (fsub (fofZ 100) (fofZ 0)) = true /\
   B2R (fofZ 0) < 3 <= B2R (fofZ 100) /\ is_finite (tolerance opts0) = true /\ B2R (tolerance opts0) <= bpow radix2 (-55) * Rabs 3 /\
   bs_slack (fofZ 0) (fofZ 100) <= / 1000000000000) /\
  match bsearch (from3 : OracleBS (FNum lm0) nat) (mkOptions (N := FNum lm0) 2000 (flit 1 (-8))) 0%nat ((fofZ 0, fofZ 100) : FNum lm0 * FNum lm0) with
  | Ok (_, _, (true, k)) => Nat.eqb k 33 | _ => false end = true /\
  match bsearch (from3 : OracleBS (FNum lm0) nat) opts0 0%nat ((fofZ 0, fofZ 100) : FNum lm0 * FNum lm0) with
  | Ok (_, _, (true, k)) => Nat.eqb k (Nat.mul 20 100) | _ => false end = true.
Proof. exact (conj from3_thr (conj from3_hyp (conj from3_run from3_default))). Qed.
