(** Properties C62-C64, C72-C76: the power iterations. *)
From Coq Require Import Reals List Arith.
From Verif Require Import Num Res Arr Spec PowerIter PowerSpec PowerMore PowerConv PowerPanic PowerWitness Replay.
Open Scope R_scope.

(** C62: every run on a finite square matrix returns; the vector has unit
    length and the value is its quadratic form, unless M^m v = 0; the count is at
    most [m] and below it only if the test passed in that round. *)
Theorem C62_returns : forall n a x0 M v tol m, (0 < n)%nat -> holds_mat n a M -> holds n x0 v ->
  let returns (stop : nat -> Prop) run := exists x q k, run = Ok (x, (q, k)) /\ (k <= m)%nat /\ ((k < m)%nat -> stop k) /\
    ((exists u, holds n x u /\ dot n u u = 1 /\ q = Fin (quad n M u)) \/
     (undefined n x /\ q = Nan /\ k = m /\ forall i, (i < n)%nat -> pow_mv n M v m i = 0)) in
  let o := mkPOptions (N := ENum) m (Fin tol) in
  returns (dirs_agree2 n M v tol) (power_iteration (N := ENum) a x0 o) /\
  returns (dirs_agree1 n M v tol) (power_iteration4 (N := ENum) a x0 o) /\
  returns (levels_agree n M v tol) (power_iteration2 (N := ENum) a x0 o).
Proof. exact power_caller. Qed.
Print Assumptions C62_returns.

(** C62: exactly which vector, value and count. *)
Theorem C62_outcome : forall n a x0 M v tol m, (0 < n)%nat -> holds_mat n a M -> holds n x0 v ->
  power_outcome n M v m (dirs_agree2 n M v tol) (power_iteration (N := ENum) a x0 (mkPOptions (N := ENum) m (Fin tol))).
Proof. exact power1_outcome. Qed.
Print Assumptions C62_outcome.
Theorem C62_outcome2 : forall n a x0 M v tol m, (0 < n)%nat -> holds_mat n a M -> holds n x0 v ->
  power_outcome n M v m (levels_agree n M v tol) (power_iteration2 (N := ENum) a x0 (mkPOptions (N := ENum) m (Fin tol))).
Proof. exact power2_outcome. Qed.
Print Assumptions C62_outcome2.
Theorem C62_outcome4 : forall n a x0 M v tol m, (0 < n)%nat -> holds_mat n a M -> holds n x0 v ->
  power_outcome n M v m (dirs_agree1 n M v tol) (power_iteration4 (N := ENum) a x0 (mkPOptions (N := ENum) m (Fin tol))).
Proof. exact power4_outcome. Qed.
Print Assumptions C62_outcome4.

(** C63: variant 3 returns the Rayleigh quotient always; a unit vector when its
    test passes; otherwise a positive multiple of M^m v, M^m v itself unless some
    iterate was as long as 1e75. *)
Theorem C63_outcome : forall n a x0 M v tol m, (0 < n)%nat -> holds_mat n a M -> holds n x0 v ->
  let p := pow_mv n M v in let o := mkPOptions (N := ENum) m (Fin tol) in
  (forall k, first_below m (levels_agree n M v tol) k -> nonzero n (p (S k)) /\
     exists x, power_iteration3 (N := ENum) a x0 o = Ok (x, (Fin (rayleigh n M (p (S k))), k)) /\ holds n x (along2 n (p (S k)))) /\
  (none_below m (levels_agree n M v tol) ->
     exists x q c, power_iteration3 (N := ENum) a x0 o = Ok (x, (q, m)) /\
       (nonzero n (p m) -> q = Fin (rayleigh n M (p m))) /\ (~ nonzero n (p m) -> q = Nan) /\
       holds n x (fun i => c * p m i) /\ 0 < c /\
       ((forall j, (1 <= j <= m)%nat -> dot n (p j) (p j) < powerRZ 10 150) -> c = 1)).
Proof. exact power3_outcome. Qed.
Print Assumptions C63_outcome.
Theorem C63_normalised_refuted : exists a x0 m tol x q u,
  power_iteration3 (N := ENum) a x0 (mkPOptions (N := ENum) m (Fin tol)) = Ok (x, (q, m)) /\ holds 2 x u /\ dot 2 u u = 5.
Proof. exact power3_unnormalised. Qed.
Print Assumptions C63_normalised_refuted.

(** C64: started at an eigenvector with nonzero eigenvalue every variant stops in
    its first round with that eigenvalue and the normalised vector. *)
Theorem C64_eigenvector : forall n a x0 M v tol m, (0 < n)%nat -> holds_mat n a M -> holds n x0 v ->
  forall lam, lam <> 0 -> nonzero n v -> (forall i, (i < n)%nat -> mulmv n M v i = lam * v i) -> 0 <= tol -> (0 < m)%nat ->
  let o := mkPOptions (N := ENum) m (Fin tol) in
  forall run, run = power_iteration (N := ENum) a x0 o \/ run = power_iteration2 (N := ENum) a x0 o \/
              run = power_iteration3 (N := ENum) a x0 o \/ run = power_iteration4 (N := ENum) a x0 o ->
  exists x, run = Ok (x, (Fin lam, 0%nat)) /\ holds n x (fun i => lam / Rabs lam * (v i / norm2 n v)).
Proof. exact power_eigen. Qed.
Print Assumptions C64_eigenvector.
(** ... so the value need not be the dominant eigenvalue. *)
Theorem C64_dominant_refuted : exists a x0 M v, holds_mat 2 a M /\ holds 2 x0 v /\ nonzero 2 v /\
  (forall m tol run, (0 < m)%nat -> 0 <= tol -> variants a x0 (mkPOptions (N := ENum) m (Fin tol)) run ->
     exists x, run = Ok (x, (Fin 1, 0%nat))) /\
  exists u, dot 2 u u = 1 /\ quad 2 M u = 2.
Proof. exact not_dominant. Qed.
Print Assumptions C64_dominant_refuted.

(** C72: variants 2 and 3 report the same value and the same count. *)
Theorem C72_same : forall n a x0 M v tol m, (0 < n)%nat -> holds_mat n a M -> holds n x0 v ->
  let o := mkPOptions (N := ENum) m (Fin tol) in
  exists x2 x3 q k, power_iteration2 (N := ENum) a x0 o = Ok (x2, (q, k)) /\ power_iteration3 (N := ENum) a x0 o = Ok (x3, (q, k)).
Proof. exact power_2_3_agree. Qed.
Print Assumptions C72_same.

(** C73: when the direction test passes, value and vector are an approximate
    eigenpair; when the value test passes they need not be. *)
Theorem C73_residual : forall n a x0 M v tol m x q k, (0 < n)%nat -> holds_mat n a M -> holds n x0 v ->
  power_iteration (N := ENum) a x0 (mkPOptions (N := ENum) m (Fin tol)) = Ok (x, (q, k)) -> (k < m)%nat ->
  exists u lam, holds n x u /\ q = Fin lam /\ dot n u u = 1 /\ norm2 n (fun i => mulmv n M u i - lam * u i) <= frob n M * tol.
Proof. exact power1_residual. Qed.
Print Assumptions C73_residual.
Theorem C73_residual4 : forall n a x0 M v tol m x q k, (0 < n)%nat -> holds_mat n a M -> holds n x0 v ->
  power_iteration4 (N := ENum) a x0 (mkPOptions (N := ENum) m (Fin tol)) = Ok (x, (q, k)) -> (k < m)%nat ->
  exists u lam, holds n x u /\ q = Fin lam /\ dot n u u = 1 /\
    norm2 n (fun i => mulmv n M u i - lam * u i) <= sqrt (INR n) * (frob n M * tol).
Proof. exact power4_residual. Qed.
Print Assumptions C73_residual4.
Theorem C73_value_test_refuted : exists a x0 M v, holds_mat 2 a M /\ holds 2 x0 v /\ sym 2 M /\
  forall m tol run, (0 < m)%nat -> 0 <= tol ->
  (run = power_iteration2 (N := ENum) a x0 (mkPOptions (N := ENum) m (Fin tol)) \/
   run = power_iteration3 (N := ENum) a x0 (mkPOptions (N := ENum) m (Fin tol))) ->
  exists x u, run = Ok (x, (Fin 0, 0%nat)) /\ holds 2 x u /\ dot 2 u u = 1 /\
    norm2 2 (fun i => mulmv 2 M u i - 0 * u i) = 1 /\ forall w, nonzero 2 w -> ~ forall i, (i < 2)%nat -> mulmv 2 M w i = 0 * w i.
Proof. exact levels_mislead. Qed.
Print Assumptions C73_value_test_refuted.

(** C74: on symmetric positive semidefinite matrices the reported value is at
    least the Rayleigh quotient of the start. *)
Theorem C74_grows : forall n a x0 M v tol m run x lam k, (0 < n)%nat -> holds_mat n a M -> holds n x0 v -> sym n M -> psd n M ->
  variants a x0 (mkPOptions (N := ENum) m (Fin tol)) run -> run = Ok (x, (Fin lam, k)) -> rayleigh n M v <= lam.
Proof. exact power_grows. Qed.
Print Assumptions C74_grows.

(** C75: if the start is an eigenvector plus a part on which the powers of M grow
    strictly slower, then with a positive tolerance every variant stops after a
    bounded number of rounds, and values reported after many rounds are as close
    to the eigenvalue as desired. *)
Theorem C75_terminates : forall n M v d w lam rho C,
  (forall i, (i < n)%nat -> v i = d i + w i) -> nonzero n d -> (forall i, (i < n)%nat -> mulmv n M d i = lam * d i) ->
  0 <= rho < Rabs lam -> (forall k i, (i < n)%nat -> Rabs (pow_mv n M w k i) <= C * rho ^ k) ->
  forall a x0, (0 < n)%nat -> holds_mat n a M -> holds n x0 v -> forall tol, 0 < tol ->
  exists K, forall m, (K < m)%nat -> forall run, variants a x0 (mkPOptions (N := ENum) m (Fin tol)) run ->
  exists x q k, run = Ok (x, (q, k)) /\ (k <= K)%nat.
Proof. exact power_terminates. Qed.
Print Assumptions C75_terminates.
Theorem C75_converges : forall n M v d w lam rho C,
  (forall i, (i < n)%nat -> v i = d i + w i) -> nonzero n d -> (forall i, (i < n)%nat -> mulmv n M d i = lam * d i) ->
  0 <= rho < Rabs lam -> (forall k i, (i < n)%nat -> Rabs (pow_mv n M w k i) <= C * rho ^ k) ->
  forall a x0, (0 < n)%nat -> holds_mat n a M -> holds n x0 v -> forall eps, 0 < eps ->
  exists K, forall m tol run x q k, variants a x0 (mkPOptions (N := ENum) m (Fin tol)) run -> run = Ok (x, (q, k)) -> (K <= k)%nat ->
  exists l, q = Fin l /\ Rabs (l - lam) < eps.
Proof. exact power_converges. Qed.
Print Assumptions C75_converges.

(** C76: the variants panic exactly when the matrix is not square or the vector
    does not fit it; for every number type, whatever the values. *)
Theorem C76_panics : forall (N : Num) (a x : Arr N) o, length (adata a) = (arows a * acols a)%nat ->
  let fits := (0 < acols a)%nat /\ arows a = acols a /\ acols x = 0%nat /\ length (adata x) = acols a in
  (power_iteration a x o = Panic <-> ~ fits) /\ (power_iteration2 a x o = Panic <-> ~ fits) /\
  (power_iteration3 a x o = Panic <-> ~ fits) /\ (power_iteration4 a x o = Panic <-> ~ fits).
Proof. exact @power_panics. Qed.
Print Assumptions C76_panics.

(** Cases meeting the hypotheses above. *)
Example C62_case a b c d x y : holds_mat 2 (mat2 a b c d) (m2 a b c d) /\ holds 2 (vec2 x y) (v2 x y).
Proof. exact (conj (mat2_holds a b c d) (vec2_holds x y)). Qed.
Example C62_zero_case : exists x, power_iteration (N := ENum) (mat2 0 1 0 0) (vec2 0 1) (mkPOptions (N := ENum) 5 (Fin (-1))) = Ok (x, (Nan, 5%nat)) /\ undefined 2 x.
Proof. exact nilpotent_nan. Qed.
Example C74_case : sym 2 (m2 2 0 0 1) /\ psd 2 (m2 2 0 0 1).
Proof. exact psd_hyps. Qed.
Example C75_case :
  (forall i, (i < 2)%nat -> v2 1 1 i = v2 1 0 i + v2 0 1 i) /\ nonzero 2 (v2 1 0) /\
  (forall i, (i < 2)%nat -> mulmv 2 (m2 2 0 0 1) (v2 1 0) i = 2 * v2 1 0 i) /\ 0 <= 1 < Rabs 2 /\
  (forall k i, (i < 2)%nat -> Rabs (pow_mv 2 (m2 2 0 0 1) (v2 0 1) k i) <= 1 * 1 ^ k).
Proof. exact conv_hyps. Qed.
(** The repository's own tests in binary64, with their counts. *)
Example C62_float_case : count (power_iteration (N := F) tm tv (fopt 2000 (-7))) = Some 22%nat.
Proof. exact replay_power1. Qed.
Example C62_float_case4 : count (power_iteration4 (N := F) tm tv (fopt 2000 (-7))) = Some 21%nat.
Proof. exact replay_power4. Qed.
Example C62_float_case2 : count (power_iteration2 (N := F) tm tv (fopt 2000 (-14))) = Some 23%nat.
Proof. exact replay_power2. Qed.
Example C63_float_case : count (power_iteration3 (N := F) tm tv (fopt 2000 (-14))) = Some 23%nat.
Proof. exact replay_power3. Qed.
