(** The LMI oracle on NaN. *)
From Coq Require Import ZArith List Bool Arith Lia.
From Flocq Require Import Core IEEE754.BinarySingleNaN.
From Verif Require Import Num Res Arr CuttingPlane ArrLemmas StableLemmas Ldlt LdltLemmas LdltSpec LdltProofs LdltFloat Lmi LmiSpec LmiProofs.
Import ListNotations.
Open Scope nat_scope.

Lemma subacc_nan lm (z : num (FNum lm)) f k q : q < k -> isnan (f q) = true -> isnan (subacc (N := FNum lm) z f k) = true.
Proof.
  induction k; intros Hq Hn; [lia|]. cbn [subacc]. destruct (Nat.eq_dec q k) as [->|].
  - apply nan_sub_r. auto.
  - apply nan_sub_l. apply IHk; auto. lia.
Qed.

Lemma lmi_nan_point lm n (o : LMI (FNum lm)) x k : 0 < n -> lmi_ok n o -> a_len x <= length (lmi_f o) ->
  k < a_len x -> isnan (nth k (adata x) (n0 (N := FNum lm))) = true ->
  exists o', lmi_assess (N := FNum lm) o x = Ok (o', None).
Proof.
  intros Hn (Hb & Hf & Hm) Hx Hk Hnan.
  assert (Hr : reads n (lmi_elem (N := FNum lm) (lmi_f o) (lmi_b o) x) (lmi_val (N := FNum lm) n (lmi_f o) (lmi_b o) x (a_len x))).
  { intros i j Hj Hi. apply lmi_elem_ok; auto. lia. }
  destruct (nan_first lm n _ (lmi_mgr o) _ Hn Hm Hr) as (m' & E).
  - unfold lmi_val. apply (subacc_nan lm _ _ _ k Hk). apply nan_mul_r. exact Hnan.
  - unfold lmi_assess. rewrite E. cbn [bind]. eexists. reflexivity.
Qed.

Lemma fmat_square n l : length l = n * n -> square n (fmat n l).
Proof. intros H. repeat split. unfold fmat. cbn [adata]. now rewrite map_length. Qed.
Lemma chol_lmi_ok : lmi_ok 3 (lmi_new (N := FNum lm0) [chol1] chol3).
Proof. apply lmi_new_ok; [now apply fmat_square|]. constructor; [now apply fmat_square|constructor]. Qed.
Lemma nan_point_case : lmi_ok 3 (lmi_new (N := FNum lm0) [chol1] chol3) /\
  is_nan (nth 0 (adata (mkArr (N := FNum lm0) [B754_nan] 1 0)) (n0 (N := FNum lm0)) : f64) = true.
Proof. split; [exact chol_lmi_ok|reflexivity]. Qed.
Lemma old_same_run : match lmi_assess (N := FNum lm0) (lmi_new [chol1] chol3) (mkArr (N := FNum lm0) [fofZ 1] 1 0) with
  | Ok (_, Some (g, _)) => map (@ftrunc) (adata g) = [25]%Z | _ => False end.
Proof. vm_compute. auto. Qed.
Lemma old_same_case : lmi_ok 3 (lmi_new (N := FNum lm0) [chol1] chol3) /\
  match lmi_assess (N := FNum lm0) (lmi_new [chol1] chol3) (mkArr (N := FNum lm0) [fofZ 1] 1 0) with
  | Ok (_, Some (g, _)) => map (@ftrunc) (adata g) = [25]%Z | _ => False end.
Proof. split; [exact chol_lmi_ok|exact old_same_run]. Qed.
