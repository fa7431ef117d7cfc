(** Properties C38-C43: LDLTMgr (oracles/ldlt_mgr.rs). *)
From Coq Require Import Reals List Arith Lia Lra ZArith.
From Flocq Require Import Core IEEE754.BinarySingleNaN.
From Verif Require Import Num Res Arr ArrLemmas Spec EllSpec Ldlt LdltLemmas LdltSpec LdltReal LdltProofs LdltHist LdltFloat LdltWitness.
Import ListNotations.
Open Scope R_scope.

(** ** C38 *)
Theorem C38_decides_pd : forall n m get (A : mtx), mgr n m -> reads (N := RNum) n get A -> sym n A ->
  exists m' b, ldlt_factor (N := RNum) get m = Ok (m', b) /\ (b = true <-> pd n A).
Proof. exact factor_decides. Qed.
Print Assumptions C38_decides_pd.
Theorem C38_decides_pd_array : forall n m a, mgr n m -> square n a -> sym n (entries n a) ->
  exists m' b, ldlt_factorize (N := RNum) a m = Ok (m', b) /\ mgr n m' /\ (b = true <-> pd n (entries n a)).
Proof. exact factorize_decides. Qed.
Print Assumptions C38_decides_pd_array.

(** a definite and an indefinite matrix *)
Example C38_case : mgr 2 (ldlt_new (N := RNum) 2) /\ square 2 spd2 /\ sym 2 (entries 2 spd2) /\ pd 2 (entries 2 spd2) /\
  square 2 ind2 /\ sym 2 (entries 2 ind2) /\ ~ pd 2 (entries 2 ind2).
Proof.
  exact (conj (mgr_new 2) (conj (m2_square 2 1 1 2) (conj (m2_sym 2 1 2) (conj spd2_pd (conj (m2_square 1 2 2 1) (conj (m2_sym 1 2 1) ind2_not_pd)))))).
Qed.

(** ** C39 *)
Theorem C39_witness : forall n m get (A : mtx) m', mgr n m -> reads (N := RNum) n get A -> sym n A ->
  ldlt_factor (N := RNum) get m = Ok (m', false) ->
  exists p m'' ep, (p < n)%nat /\ l_pos m' = (0, p + 1)%nat /\ ldlt_witness (N := RNum) m' = Ok (m'', ep) /\ 0 <= ep /\ l_pos m'' = l_pos m' /\
    quad n A (wit_vec m'') = - ep /\ wit_vec m'' p = 1 /\
    forall F, square n F -> ldlt_sym_quad (N := RNum) m'' F = Ok (quad n (entries n F) (wit_vec m'')).
Proof. exact factor_witness. Qed.
Print Assumptions C39_witness.
Theorem C39_panics : forall n m get (A : mtx) m' b, mgr n m -> reads (N := RNum) n get A ->
  ldlt_factor (N := RNum) get m = Ok (m', b) -> (ldlt_witness (N := RNum) m' = Panic <-> b = true).
Proof. exact witness_panics_iff. Qed.
Print Assumptions C39_panics.

Example C39_case : exists m', ldlt_factor (N := RNum) (a_get ind2) (ldlt_new 2) = Ok (m', false).
Proof. exact ind2_rejected. Qed.

(** ** C40 *)
Theorem C40_sqrt : forall n m get (A : mtx) m', mgr n m -> reads (N := RNum) n get A -> sym n A ->
  ldlt_factor (N := RNum) get m = Ok (m', true) ->
  exists r, ldlt_sqrt (N := RNum) m' = Ok r /\ square n r /\
    (forall i j, (j < i)%nat -> (i < n)%nat -> entries n r i j = 0) /\
    (forall i, (i < n)%nat -> 0 < entries n r i i) /\
    forall i j, (i < n)%nat -> (j < n)%nat -> mulmm n (fun a b => entries n r b a) (entries n r) i j = A i j.
Proof. exact factor_sqrt. Qed.
Print Assumptions C40_sqrt.
Theorem C40_panics : forall n m get (A : mtx) m' b, mgr n m -> reads (N := RNum) n get A ->
  ldlt_factor (N := RNum) get m = Ok (m', b) -> (ldlt_sqrt (N := RNum) m' = Panic <-> b = false).
Proof. exact sqrt_panics_iff. Qed.
Print Assumptions C40_panics.

Example C40_case : exists m', ldlt_factor (N := RNum) (a_get spd2) (ldlt_new 2) = Ok (m', true).
Proof. exact spd2_accepted. Qed.

(** ** C41 *)
Theorem C41_accepts_psd : forall n m get (A : mtx), mgr n m -> reads (N := RNum) n get A -> sym n A ->
  exists m' b, ldlt_factor_semi (N := RNum) get m = Ok (m', b) /\ (psd n A -> b = true) /\
    (b = false -> exists p m'' ep, (p < n)%nat /\ ldlt_witness (N := RNum) m' = Ok (m'', ep) /\ 0 < ep /\
       quad n A (wit_vec m'') = - ep /\ wit_vec m'' p = 1 /\
       forall F, square n F -> ldlt_sym_quad (N := RNum) m'' F = Ok (quad n (entries n F) (wit_vec m''))).
Proof. exact semi_accepts_psd. Qed.
Print Assumptions C41_accepts_psd.
Theorem C41_accepts_only_psd_refuted : exists a m', square 2 a /\ sym 2 (entries 2 a) /\ (exists x, quad 2 (entries 2 a) x < 0) /\
  ldlt_factor_semi (N := RNum) (a_get a) (ldlt_new 2) = Ok (m', true).
Proof. exact semi_accepts_indefinite. Qed.
Print Assumptions C41_accepts_only_psd_refuted.

(** a singular semidefinite matrix *)
Example C41_case : square 2 psd2 /\ sym 2 (entries 2 psd2) /\ psd 2 (entries 2 psd2) /\ ~ pd 2 (entries 2 psd2).
Proof. exact (conj (m2_square 1 1 1 1) (conj (m2_sym 1 1 1) psd2_psd)). Qed.

(** ** C42 *)
Theorem C42_factor_history : forall (N : Num) n (m1 m2 : LDLT N) get1 get2 A, mgr n m1 -> mgr n m2 -> reads n get1 A -> reads n get2 A ->
  exists m1' m2' b, ldlt_factor get1 m1 = Ok (m1', b) /\ ldlt_factor get2 m2 = Ok (m2', b) /\
    l_pos m1' = l_pos m2' /\ ldlt_sqrt m1' = ldlt_sqrt m2' /\ same_witness m1' m2'.
Proof. exact @factor_history. Qed.
Print Assumptions C42_factor_history.
Theorem C42_semi_history : forall (N : Num) n (m1 m2 : LDLT N) get1 get2 A, mgr n m1 -> mgr n m2 -> reads n get1 A -> reads n get2 A ->
  exists m1' m2' b, ldlt_factor_semi get1 m1 = Ok (m1', b) /\ ldlt_factor_semi get2 m2 = Ok (m2', b) /\
    l_pos m1' = l_pos m2' /\ same_witness m1' m2'.
Proof. exact @semi_history. Qed.
Print Assumptions C42_semi_history.
Theorem C42_outside_kept : forall (N : Num) n (m m' : LDLT N) e, mgr n m -> ldlt_witness m = Ok (m', e) ->
  forall i, (i < fst (l_pos m) \/ snd (l_pos m) <= i)%nat -> nth i (adata (l_wit m')) n0 = nth i (adata (l_wit m)) n0.
Proof. exact @witness_outside. Qed.
Print Assumptions C42_outside_kept.
(** so the whole vector does depend on the history *)
Theorem C42_whole_vector_refuted : exists l1 l2, last l1 fm_a = last l2 fm_a /\ l1 <> [] /\ l2 <> [] /\
  exists w1 w2, wit_after l1 = Ok w1 /\ wit_after l2 = Ok w2 /\ w1 <> w2.
Proof. exact stale_witness. Qed.
Print Assumptions C42_whole_vector_refuted.

(** the repository's test matrices, in f64 *)
Example C42_case : match ldlt_factorize (N := FNum lm0) chol3 (ldlt_new 3) with
  | Ok (m, b) => b = false /\ l_pos m = (0, 1)%nat /\
     match ldlt_witness m with Ok (m', ep) => map (@ftrunc) (adata (l_wit m')) = [1; 0; 0]%Z /\ ftrunc ep = 0%Z | Panic => False end
  | Panic => False end.
Proof. exact chol3_not_pd. Qed.
Example C41_f64_case : match ldlt_factor_semi (N := FNum lm0) (a_get chol7) (ldlt_new 3) with
  | Ok (m, b) => b = false /\ match ldlt_witness m with Ok (m', ep) => ftrunc ep = 20%Z | Panic => False end
  | Panic => False end.
Proof. exact chol7_semi. Qed.

(** ** C43 *)
Theorem C43_nan_not_caught : forall lm n (G : nat -> nat -> f64) (m : LDLT (FNum lm)) get i j, mgr n m -> reads (N := FNum lm) n get G ->
  (j <= i)%nat -> (i < n)%nat -> is_nan (G i j) = true ->
  exists m' b, ldlt_factor (N := FNum lm) get m = Ok (m', b) /\ (b = false -> (snd (l_pos m') <= i)%nat).
Proof. exact nan_accepted. Qed.
Print Assumptions C43_nan_not_caught.
Theorem C43_nan_accepted : forall lm n (G : nat -> nat -> f64) (m : LDLT (FNum lm)) get, (0 < n)%nat -> mgr n m -> reads (N := FNum lm) n get G ->
  is_nan (G 0%nat 0%nat) = true -> exists m', ldlt_factor (N := FNum lm) get m = Ok (m', true).
Proof. exact nan_first. Qed.
Print Assumptions C43_nan_accepted.

Example C43_case : mgr 3 (ldlt_new (N := FNum lm0) 3) /\ reads (N := FNum lm0) 3 (fun _ _ => Ok B754_nan) (fun _ _ => B754_nan) /\
  is_nan (@B754_nan fprec femax) = true.
Proof. exact (conj (mgr_new 3) (conj (fun _ _ _ _ => eq_refl) eq_refl)). Qed.
