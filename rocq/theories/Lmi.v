(** Models of /repo/src/oracles/lmi_oracle.rs, lmi_old_oracle.rs and
    lmi0_oracle.rs. *)
From Coq Require Import ZArith List Bool Arith.
From Verif Require Import Num Res Arr CuttingPlane Ldlt.
Import ListNotations.

(** lmi_oracle.rs 5-9 (LMIOracle), lmi_old_oracle.rs 5-9 (LMIOldOracle):
    the same three fields *)
Record LMI (N : Num) := mkLMI { lmi_f : list (Arr N); lmi_b : Arr N; lmi_mgr : LDLT N }.
Arguments mkLMI {N}. Arguments lmi_f {N}. Arguments lmi_b {N}. Arguments lmi_mgr {N}.
(** lmi0_oracle.rs 4-7 *)
Record LMI0 (N : Num) := mkLMI0 { lmi0_f : list (Arr N); lmi0_mgr : LDLT N }.
Arguments mkLMI0 {N}. Arguments lmi0_f {N}. Arguments lmi0_mgr {N}.

Section Model.
Context {N : Num}.

(** lmi_oracle.rs 12-20, lmi_old_oracle.rs 12-20 *)
Definition lmi_new (f : list (Arr N)) (b : Arr N) : LMI N := mkLMI f b (ldlt_new (arows b)).

(** lmi_oracle.rs 28-34: the closure passed to [factor] *)
Definition lmi_elem (f : list (Arr N)) (b x : Arr N) (i j : nat) : res N :=
  s <- a_get b i j ;;
  for_range 0 (a_len x) (fun k s =>
    fk <- rd f k ;; v <- a_get fk i j ;; xk <- a_idx x k ;; Ok (s -! v *! xk)) s.
(** lmi_oracle.rs 39-42, lmi_old_oracle.rs 44-47: the loop filling the gradient *)
Definition lmi_grad (f : list (Arr N)) (n : nat) (m : LDLT N) : res (Arr N) :=
  for_range 0 n (fun k g => fk <- rd f k ;; q <- ldlt_sym_quad m fk ;; a_setidx g k q) (a_new n).
(** lmi_oracle.rs 26-44 *)
Definition lmi_assess (o : LMI N) (x : Arr N) : res (LMI N * option (Arr N * SingleCut N)) :=
  '(m, feas) <- ldlt_factor (lmi_elem (lmi_f o) (lmi_b o) x) (lmi_mgr o) ;;
  if feas : bool then Ok (mkLMI (lmi_f o) (lmi_b o) m, None)
  else
    '(m, ep) <- ldlt_witness m ;;
    g <- lmi_grad (lmi_f o) (a_len x) m ;;
    Ok (mkLMI (lmi_f o) (lmi_b o) m, Some (g, mkSingle ep)).

(** lmi_old_oracle.rs 27-39: the matrix is assembled first *)
Definition lmi_old_matrix (f : list (Arr N)) (b x : Arr N) : res (Arr N) :=
  let ndim := arows b in
  for_range 0 (a_len x) (fun k a =>
    xk <- a_idx x k ;;
    for_range 0 ndim (fun i a =>
      for_range 0 ndim (fun j a =>
        old <- a_get a i j ;;
        fk <- rd f k ;; v <- a_get fk i j ;;
        a_set a i j (old -! v *! xk)) a) a) b.
(** lmi_old_oracle.rs 26-49 *)
Definition lmi_old_assess (o : LMI N) (x : Arr N) : res (LMI N * option (Arr N * SingleCut N)) :=
  a <- lmi_old_matrix (lmi_f o) (lmi_b o) x ;;
  '(m, feas) <- ldlt_factorize a (lmi_mgr o) ;;
  if feas : bool then Ok (mkLMI (lmi_f o) (lmi_b o) m, None)
  else
    '(m, ep) <- ldlt_witness m ;;
    g <- lmi_grad (lmi_f o) (a_len x) m ;;
    Ok (mkLMI (lmi_f o) (lmi_b o) m, Some (g, mkSingle ep)).

(** lmi0_oracle.rs 10-14 *)
Definition lmi0_new (f : list (Arr N)) : res (LMI0 N) :=
  f0 <- rd f 0 ;; Ok (mkLMI0 f (ldlt_new (arows f0))).
(** lmi0_oracle.rs 18-24: the closure *)
Definition lmi0_elem (f : list (Arr N)) (x : Arr N) (i j : nat) : res N :=
  for_range 0 (a_len x) (fun k s =>
    fk <- rd f k ;; v <- a_get fk i j ;; xk <- a_idx x k ;; Ok (s +! v *! xk)) n0.
(** lmi0_oracle.rs 16-34 *)
Definition lmi0_assess (o : LMI0 N) (x : Arr N) : res (LMI0 N * option (Arr N * N)) :=
  '(m, feas) <- ldlt_factor (lmi0_elem (lmi0_f o) x) (lmi0_mgr o) ;;
  if feas : bool then Ok (mkLMI0 (lmi0_f o) m, None)
  else
    '(m, ep) <- ldlt_witness m ;;
    g <- for_range 0 (a_len x) (fun k g =>
           fk <- rd (lmi0_f o) k ;; q <- ldlt_sym_quad m fk ;; a_setidx g k (-! q)) (a_new (a_len x)) ;;
    Ok (mkLMI0 (lmi0_f o) m, Some (g, ep)).

(** the oracle as an OracleFeas; [update] is the trait's default, which does
    nothing (cutting_plane.rs 119-126) *)
Definition lmi_oracle : OracleFeas N (Arr N) (SingleCut N) (LMI N) :=
  mkOracleFeas N (Arr N) (SingleCut N) (LMI N) lmi_assess (fun o _ => o).
(** lmi_old_oracle.rs 25-50, likewise *)
Definition lmi_old_oracle : OracleFeas N (Arr N) (SingleCut N) (LMI N) :=
  mkOracleFeas N (Arr N) (SingleCut N) (LMI N) lmi_old_assess (fun o _ => o).
End Model.
