(** The lowpass oracle in binary64. *)
From Coq Require Import ZArith List Bool.
From Flocq Require Import Core IEEE754.BinarySingleNaN.
From Verif Require Import Num Res Arr CuttingPlane Lowpass Replay.
Import ListNotations.

(** one coefficient, so that no cosine is evaluated: pass band [0, 0.1], stop band
    from 0.2, bounds 0.25 and 1, stop-band level 1 *)
Definition nan_oracle : res (Lowpass (FNum lm0)) :=
  lowpass_new (N := FNum lm0) 1 (flit 1 (-1)) (flit 2 (-1)) (flit 25 (-2)) (fofZ 1) (fofZ 1).
Definition one_coef (v : f64) : Arr (FNum lm0) := mkArr (N := FNum lm0) [v] 1 0.
(** the filter NaN passes every test of assess_feas, and assess_optim panics *)
Lemma nan_filter : match nan_oracle with
  | Ok o => (match lowpass_feas (N := FNum lm0) o (one_coef B754_nan) with Ok (_, None) => True | _ => False end) /\
            (match lowpass_assess (N := FNum lm0) o (one_coef B754_nan) (fofZ 1) with Panic => True | Ok _ => False end)
  | Panic => False end.
Proof. vm_compute. auto. Qed.
(** 0.5 is feasible, the new level is 0.5; 2 is cut off with beta0 = 1, beta1 = 1.75 *)
Lemma float_filter : match nan_oracle with
  | Ok o => (match lowpass_assess (N := FNum lm0) o (one_coef (flit 5 (-1))) (fofZ 1) with
             | Ok (_, sp, ((g, c), b)) => b = true /\ ftrunc (fmul sp (fofZ 100)) = 50%Z /\ map (@ftrunc) (adata g) = [1]%Z
             | Panic => False end) /\
            (match lowpass_assess (N := FNum lm0) o (one_coef (fofZ 2)) (fofZ 1) with
             | Ok (_, sp, ((g, mkParallel b0 (Some b1)), b)) => b = false /\ ftrunc b0 = 1%Z /\ ftrunc (fmul b1 (fofZ 100)) = 175%Z
             | _ => False end)
  | Panic => False end.
Proof. vm_compute. auto. Qed.
