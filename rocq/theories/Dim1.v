(** The cut formulas in dimension one, in binary64 (C20). *)
From Coq Require Import ZArith List Bool Arith Lia.
From Flocq Require Import Core IEEE754.BinarySingleNaN.
From Verif Require Import Num Res Arr CuttingPlane EllCalc Ell EllRun ArrLemmas EllLemmas EllMore.
Import ListNotations.
Open Scope nat_scope.

Section D.
Variable lm : Libm.
Notation F := (FNum lm).

Lemma cst1_inf : c_cst1 (ec_helper (calc_new (N := F) 1)) = B754_infinity false.
Proof. vm_compute. reflexivity. Qed.
Lemma pos_mul_inf (k : f64) : is_finite_strict k = true -> Bsign k = false -> fmul k (B754_infinity false) = B754_infinity false.
Proof. destruct k as [s|s| |s m e H]; simpl; try discriminate. intros _ ->. reflexivity. Qed.
Lemma inf_mul (x : f64) : is_finite (fmul (B754_infinity false) x) = false.
Proof. destruct x; reflexivity. Qed.

Lemma dim1_central (e : Ell F) (g : Arr F) c : ell_wf 1 e -> e_helper e = calc_new 1 -> e_no_defer e = false ->
  is_finite_strict (e_kappa e : f64) = true -> Bsign (e_kappa e : f64) = false -> is_vec 1 g ->
  exists e', ell_update_central single_cut e (g, c) = Ok (e', Success) /\
    e_kappa e' = B754_infinity false /\
    forall C (ct : CutType F C) md g' c' e'' st, is_vec 1 g' ->
      apply_cut ct md e' (g', c') = Ok (e'', st) -> is_finite (e_tsq e'' : f64) = false.
Proof.
  intros Hw Hh Hd Hk Hp Hg.
  destruct (ell_update_core_ok 1 e g (fun tsq => call_central single_cut (e_helper e) c tsq) Hw Hg)
    as (e' & st & rho & sigma & delta & E1 & E2 & Hw' & _ & _ & _ & _ & _ & _ & H2).
  exists e'. rewrite Hh in E1. cbn [call_central single_cut] in E1. unfold calc_central_cut, core_central_cut in E1.
  rewrite cst1_inf in E1. inversion E1. subst st delta. clear E1.
  destruct (H2 eq_refl) as (_ & Kk & _). rewrite Hd in Kk.
  split; [exact E2|].
  assert (Ek : e_kappa e' = B754_infinity false) by (rewrite Kk; exact (pos_mul_inf _ Hk Hp)).
  split; [exact Ek|].
  intros C ct md g' c' e'' st Hg' E. rewrite apply_cut_core in E.
  destruct (ell_update_core_ok 1 e' g' (cut_core ct md e' c') Hw' Hg')
    as (e3 & st3 & r3 & s3 & d3 & _ & E3 & _ & Ht & _).
  rewrite E3 in E. inversion E; subst. rewrite Ht, Ek. apply inf_mul.
Qed.
End D.
