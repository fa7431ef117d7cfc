(** Properties C65-C67, C77-C79: the conjugate gradient method. *)
From Coq Require Import Reals List Arith.
From Flocq Require Import IEEE754.BinarySingleNaN.
From Verif Require Import Num Res Arr Spec PowerSpec PowerWitness Cg CgSpec CgProofs CgMore CgPanic CgWitness Replay.
Import ListNotations.
Open Scope R_scope.

(** C65: an answer solves the system to the tolerance; any matrix. *)
Theorem C65_solution : forall n a b o M c v tol, (0 < n)%nat -> holds_mat n a M -> holds n b c -> starts n o v ->
  forall m x, conjugate_gradient (N := ENum) a b o (Fin tol) m = Ok (Solved x) ->
  exists u, holds n x u /\ norm2 n (fun i => c i - mulmv n M u i) < tol.
Proof. exact cg_solution. Qed.
Print Assumptions C65_solution.
(** C65: an answer does not change when more iterations are allowed. *)
Theorem C65_limit : forall n a b o M c v tol, (0 < n)%nat -> holds_mat n a M -> holds n b c -> starts n o v ->
  forall m m' x, conjugate_gradient (N := ENum) a b o (Fin tol) m = Ok (Solved x) -> (m <= m')%nat ->
  conjugate_gradient (N := ENum) a b o (Fin tol) m' = Ok (Solved x).
Proof. exact cg_raise. Qed.
Print Assumptions C65_limit.
(** C65: the result is the documented recurrence, stopped at the first division by
    zero or accepted residual. *)
Theorem C65_outcome : forall n a b o M c v tol m, (0 < n)%nat -> holds_mat n a M -> holds n b c -> starts n o v ->
  let run := conjugate_gradient (N := ENum) a b o (Fin tol) m in
  let stop k := breaks n M c v k \/ accepts n M c v tol k in
  (forall k, first_below m stop k ->
     (breaks n M c v k -> run = Ok (Failed DidNotConverge)) /\
     (~ breaks n M c v k -> exists x, run = Ok (Solved x) /\ holds n x (cx (cg_seq n M c v (S k))))) /\
  (none_below m stop -> run = Ok (Failed OutOfIterations)).
Proof. exact cg_outcome. Qed.
Print Assumptions C65_outcome.
(** C65 fails in binary64: the residual the method tracks is not that of its answer. *)
Theorem C65_binary64_refuted : exists a b x tol : f64,
  conjugate_gradient (N := F) (mkArr (N := F) [a] 1 1) (mkArr (N := F) [b] 1 0) None tol 1 = Ok (Solved (mkArr (N := F) [x] 1 0)) /\
  B2R tol < B2R b - B2R a * B2R x.
Proof. exact third_unsolved. Qed.
Print Assumptions C65_binary64_refuted.

(** C66: at most n rounds on symmetric positive definite systems; also on
    consistent semidefinite ones. *)
Theorem C66_terminates : forall n a b o M c v tol, (0 < n)%nat -> holds_mat n a M -> holds n b c -> starts n o v ->
  sym n M -> pd n M -> 0 < tol -> nonzero n (fun i => c i - mulmv n M v i) ->
  exists x, forall m, (n <= m)%nat -> conjugate_gradient (N := ENum) a b o (Fin tol) m = Ok (Solved x).
Proof. exact cg_pd. Qed.
Print Assumptions C66_terminates.
Theorem C66_semidefinite : forall n a b o M c v tol, (0 < n)%nat -> holds_mat n a M -> holds n b c -> starts n o v ->
  forall z, sym n M -> psd n M -> (forall i, (i < n)%nat -> mulmv n M z i = c i) -> 0 < tol -> nonzero n (fun i => c i - mulmv n M v i) ->
  exists x, forall m, (n <= m)%nat -> conjugate_gradient (N := ENum) a b o (Fin tol) m = Ok (Solved x).
Proof. exact cg_psd. Qed.
Print Assumptions C66_semidefinite.
(** ... but not on every invertible symmetric system. *)
Theorem C66_symmetric_refuted : exists a b M c z, holds_mat 2 a M /\ holds 2 b c /\ sym 2 M /\ inverse 2 M M /\
  (forall i, (i < 2)%nat -> mulmv 2 M z i = c i) /\
  forall tol m, (0 < m)%nat -> conjugate_gradient (N := ENum) a b None (Fin tol) m = Ok (Failed DidNotConverge).
Proof. exact indefinite_fails. Qed.
Print Assumptions C66_symmetric_refuted.

(** C67: an exact start is reported as a failure. *)
Theorem C67_exact_start : forall n a b o M c v tol, (0 < n)%nat -> holds_mat n a M -> holds n b c -> starts n o v ->
  forall m, ~ nonzero n (fun i => c i - mulmv n M v i) ->
  conjugate_gradient (N := ENum) a b o (Fin tol) m = Ok (Failed (if Nat.eqb m 0 then OutOfIterations else DidNotConverge)).
Proof. exact cg_exact. Qed.
Print Assumptions C67_exact_start.

(** C77: answers are closer to every solution, in the energy norm, than the start. *)
Theorem C77_energy : forall n a b o M c v tol, (0 < n)%nat -> holds_mat n a M -> holds n b c -> starts n o v ->
  forall m x z, sym n M -> psd n M -> (forall i, (i < n)%nat -> mulmv n M z i = c i) ->
  conjugate_gradient (N := ENum) a b o (Fin tol) m = Ok (Solved x) ->
  exists u, holds n x u /\ quad n M (fun i => u i - z i) < quad n M (fun i => v i - z i).
Proof. exact cg_energy. Qed.
Print Assumptions C77_energy.
(** C78: answers are the best in the energy norm that k products with M can reach. *)
Theorem C78_optimal : forall n a b o M c v tol, (0 < n)%nat -> holds_mat n a M -> holds n b c -> starts n o v ->
  forall m x z, sym n M -> psd n M -> (forall i, (i < n)%nat -> mulmv n M z i = c i) ->
  conjugate_gradient (N := ENum) a b o (Fin tol) m = Ok (Solved x) ->
  exists u k, holds n x u /\ (0 < k <= m)%nat /\ krylov n M c v k (fun i => u i - v i) /\
  forall y, krylov n M c v k (fun i => y i - v i) -> quad n M (fun i => u i - z i) <= quad n M (fun i => y i - z i).
Proof. exact cg_optimal. Qed.
Print Assumptions C78_optimal.

(** C79: panics exactly on misfitting shapes, for every number type; a matrix that
    is not square is noticed only when an iteration is made. *)
Theorem C79_panics : forall (N : Num) (a b : Arr N) o tol m, length (adata a) = (arows a * acols a)%nat ->
  let x := match o with Some x => x | None => a_new (length (adata b)) end in
  conjugate_gradient a b o tol m = Panic <->
  ~ ((0 < acols a)%nat /\ acols x = 0%nat /\ length (adata x) = acols a /\ acols b = 0%nat /\ length (adata b) = arows a /\
     ((0 < m)%nat -> arows a = acols a)).
Proof. exact @cg_panics. Qed.
Print Assumptions C79_panics.

(** Cases: the repository's test system; a singular system; the tests in binary64. *)
Example C66_case : holds_mat 2 (mat2 4 1 1 3) (m2 4 1 1 3) /\ holds 2 (vec2 1 2) (v2 1 2) /\ starts 2 None (fun _ => 0) /\
  sym 2 (m2 4 1 1 3) /\ pd 2 (m2 4 1 1 3) /\ nonzero 2 (fun i => v2 1 2 i - mulmv 2 (m2 4 1 1 3) (fun _ => 0) i).
Proof. exact spd_case. Qed.
Example C66_semidefinite_case : sym 2 (m2 1 1 1 1) /\ psd 2 (m2 1 1 1 1) /\ (forall i, (i < 2)%nat -> mulmv 2 (m2 1 1 1 1) (v2 1 0) i = v2 1 1 i) /\
  nonzero 2 (fun i => v2 1 1 i - mulmv 2 (m2 1 1 1 1) (fun _ => 0) i).
Proof. exact psd_case. Qed.
Example C65_float_case : scaled (conjugate_gradient (N := F) cga cgb None (flit 1 (-5)) 1000) = Some [909090; 6363636]%Z.
Proof. exact replay_cg_simple. Qed.
Example C65_float_case_guess : scaled (conjugate_gradient (N := F) cga cgb (Some (ints [1; 1]%Z)) (flit 1 (-5)) 1000) = Some [909090; 6363636]%Z.
Proof. exact replay_cg_guess. Qed.
