(** Properties C43 (oracle part), C44-C47: the LMI oracles (oracles/lmi*.rs). *)
From Coq Require Import Reals List Arith Lia Lra ZArith.
From Flocq Require Import Core IEEE754.BinarySingleNaN.
From Verif Require Import Num Res Arr CuttingPlane Spec EllSpec Ldlt LdltSpec Lmi LmiSpec LmiProofs LmiFloat LdltFloat LdltWitness.
Import ListNotations.
Open Scope R_scope.

(** ** C43, for the oracle *)
Theorem C43_nan_point_feasible : forall lm n (o : LMI (FNum lm)) x k, (0 < n)%nat -> lmi_ok n o -> (a_len x <= length (lmi_f o))%nat ->
  (k < a_len x)%nat -> is_nan (nth k (adata x) (n0 (N := FNum lm)) : f64) = true ->
  exists o', lmi_assess (N := FNum lm) o x = Ok (o', None).
Proof. exact lmi_nan_point. Qed.
Print Assumptions C43_nan_point_feasible.

Example C43_point_case : lmi_ok 3 (lmi_new (N := FNum lm0) [chol1] chol3) /\
  is_nan (nth 0 (adata (mkArr (N := FNum lm0) [B754_nan] 1 0)) (n0 (N := FNum lm0)) : f64) = true.
Proof. exact nan_point_case. Qed.

(** ** C44, C45 *)
Theorem C44_C45_lmi : forall n (o : LMI RNum) (x : Arr RNum), lmi_ok n o -> (length (adata x) <= length (lmi_f o))%nat ->
  sym n (entries n (lmi_b o)) -> all_sym n (lmi_f o) ->
  let K := length (adata x) in let P := pencil n K (lmi_f o) (lmi_b o) in
  exists o' r, lmi_assess (N := RNum) o x = Ok (o', r) /\ lmi_ok n o' /\ lmi_f o' = lmi_f o /\ lmi_b o' = lmi_b o /\
    (r = None <-> pd n (P (xvec x))) /\
    forall g beta, r = Some (g, mkSingle (N := RNum) beta) ->
      length (adata g) = K /\ acols g = 0%nat /\ 0 <= beta /\
      (forall y, psd n (P y) -> dot K (xvec g) (fun i => y i - xvec x i) + beta <= 0) /\
      exists v p, (p < n)%nat /\ v p = 1 /\ forall y, dot K (xvec g) (fun i => y i - xvec x i) + beta = - quad n (P y) v.
Proof. exact lmi_assess_ok. Qed.
Print Assumptions C44_C45_lmi.
(** the hypothesis [lmi_ok] is established by the constructor *)
Theorem C44_new : forall (N : Num) n (f : list (Arr N)) b, square n b -> Forall (square n) f -> lmi_ok n (lmi_new f b).
Proof. exact @lmi_new_ok. Qed.
Print Assumptions C44_new.

Example C44_case : lmi_ok 2 lmi1 /\ sym 2 (entries 2 (lmi_b lmi1)) /\ all_sym 2 (lmi_f lmi1) /\
  pd 2 (pencil 2 1 (lmi_f lmi1) (lmi_b lmi1) (fun _ => 1 / 2)) /\ ~ pd 2 (pencil 2 1 (lmi_f lmi1) (lmi_b lmi1) (xvec (x1 2))).
Proof. exact (conj (proj1 lmi1_ok) (conj (proj1 (proj2 lmi1_ok)) (conj (proj2 (proj2 lmi1_ok)) (conj lmi1_feasible lmi1_infeasible)))). Qed.

(** ** C46 *)
Theorem C46_old_same : forall (N : Num) n (o : LMI N) x, lmi_ok n o -> (a_len x <= length (lmi_f o))%nat ->
  lmi_old_assess o x = lmi_assess o x.
Proof. exact @lmi_old_same. Qed.
Print Assumptions C46_old_same.

Example C46_case : lmi_ok 3 (lmi_new (N := FNum lm0) [chol1] chol3) /\
  match lmi_assess (N := FNum lm0) (lmi_new [chol1] chol3) (mkArr (N := FNum lm0) [fofZ 1] 1 0) with
  | Ok (_, Some (g, _)) => map (@ftrunc) (adata g) = [25]%Z | _ => False end.
Proof. exact old_same_case. Qed.

(** ** C47 *)
Theorem C47_lmi0 : forall n (o : LMI0 RNum) (x : Arr RNum), lmi0_ok n o -> (length (adata x) <= length (lmi0_f o))%nat -> all_sym n (lmi0_f o) ->
  let K := length (adata x) in let P := pencil0 n K (lmi0_f o) in
  exists o' r, lmi0_assess (N := RNum) o x = Ok (o', r) /\ lmi0_ok n o' /\ lmi0_f o' = lmi0_f o /\
    (r = None <-> pd n (P (xvec x))) /\
    forall g ep, r = Some (g, ep) ->
      length (adata g) = K /\ acols g = 0%nat /\ 0 <= ep /\
      (forall y, psd n (P y) -> dot K (xvec g) (fun i => y i - xvec x i) + ep <= 0) /\
      exists v p, (p < n)%nat /\ v p = 1 /\ forall y, dot K (xvec g) (fun i => y i - xvec x i) + ep = - quad n (P y) v.
Proof. exact lmi0_assess_ok. Qed.
Print Assumptions C47_lmi0.
Theorem C47_new : forall (N : Num) n (f : list (Arr N)), f <> [] -> Forall (square n) f ->
  exists o, lmi0_new f = Ok o /\ lmi0_ok n o /\ lmi0_f o = f.
Proof. exact @lmi0_new_ok. Qed.
Print Assumptions C47_new.

Example C47_case : lmi0_ok 2 lmi01 /\ all_sym 2 (lmi0_f lmi01) /\
  pd 2 (pencil0 2 2 (lmi0_f lmi01) (xvec (x2 1 0))) /\ ~ pd 2 (pencil0 2 2 (lmi0_f lmi01) (xvec (x2 1 2))).
Proof. exact (conj (proj1 lmi01_ok) (conj (proj2 lmi01_ok) lmi01_both)). Qed.
