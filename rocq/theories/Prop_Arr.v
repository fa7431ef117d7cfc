(** Properties C34-C37: the arrays of arr.rs. *)
From Coq Require Import Reals List Arith Lia Lra ZArith.
From Flocq Require Import Core IEEE754.BinarySingleNaN.
From Verif Require Import Num Res Arr ArrLemmas Spec EllSpec ArrProps ArrReal ArrFloat.
Import ListNotations.
Open Scope nat_scope.

(** ** C34, for every number type: when the operations panic, and the shapes. *)
Theorem C34_binary : forall (N : Num) (op : Arr N -> Arr N -> res (Arr N)) (a b : Arr N),
  op = a_add \/ op = a_sub \/ op = a_mul ->
  (op a b = Panic <-> length (adata a) <> length (adata b)) /\
  (forall c, op a b = Ok c -> arows c = arows a /\ acols c = acols a /\ length (adata c) = length (adata a)).
Proof. exact @a_binary_shape. Qed.
Print Assumptions C34_binary.
Theorem C34_dot : forall (N : Num) (a b : Arr N), a_dot a b = Panic <->
  0 < acols a \/ 0 < acols b \/ length (adata a) <> length (adata b).
Proof. exact @a_dot_panic. Qed.
Print Assumptions C34_dot.
Theorem C34_dot_mv : forall (N : Num) (a x : Arr N), arr_wf a ->
  (a_dot_mv a x = Panic <-> acols a = 0 \/ 0 < acols x \/ acols a <> length (adata x)) /\
  (forall y, a_dot_mv a x = Ok y -> arows y = arows a /\ acols y = 0 /\ length (adata y) = arows a).
Proof. exact (fun N a x H => conj (a_dot_mv_panic a x H) (fun y => a_dot_mv_shape a x y H)). Qed.
Print Assumptions C34_dot_mv.
Theorem C34_outer : forall (N : Num) (a b : Arr N), a_outer a b = Panic <-> 0 < acols a \/ 0 < acols b.
Proof. exact @a_outer_panic. Qed.
Print Assumptions C34_outer.
(** The documented precondition of rank_one_update is a square matrix; the code
    panics only when there are fewer columns than rows. *)
Theorem C34_rank_one_update : forall (N : Num) (a u : Arr N) alpha, arr_wf a ->
  (a_rank_one_update a alpha u = Panic <->
   acols a = 0 \/ 0 < acols u \/ arows a <> length (adata u) \/ acols a < arows a).
Proof. exact @a_rank_one_panic. Qed.
Print Assumptions C34_rank_one_update.
Theorem C34_copy_from : forall (N : Num) (a b : Arr N), a_copy_from a b = Panic <-> length (adata a) <> length (adata b).
Proof. exact @a_copy_panic. Qed.
Print Assumptions C34_copy_from.
Theorem C34_row : forall (N : Num) (a : Arr N) i, arr_wf a -> (a_row a i = Panic <-> acols a = 0 \/ arows a <= i).
Proof. exact @a_row_panic. Qed.
Print Assumptions C34_row.
Theorem C34_from_shape_vec : forall (N : Num) r c (d : list N), a_from_shape_vec r c d = Panic <-> length d <> r * c.
Proof. exact @a_shape_vec_panic. Qed.
Print Assumptions C34_from_shape_vec.
Theorem C34_access : forall (N : Num) (a : Arr N) i j v,
  (a_get a i j = Panic <-> length (adata a) <= i * acols a + j) /\
  (a_set a i j v = Panic <-> length (adata a) <= i * acols a + j) /\
  (a_idx a i = Panic <-> length (adata a) <= i).
Proof. exact (fun N a i j v => conj (a_get_panic a i j) (conj (a_set_panic a i j v) (a_idx_panic a i))). Qed.
Print Assumptions C34_access.
(** A column index beyond the row silently reads the next row (release build). *)
Theorem C34_access_alias : forall (N : Num) (a : Arr N) i j, a_get a i (acols a + j) = a_get a (S i) j.
Proof. exact @a_get_alias. Qed.
Print Assumptions C34_access_alias.
(** zeros(r, 0) has no elements, but its cos, ln, abs, exp and sqrt have [r]. *)
Theorem C34_elementwise_refuted : exists (a : Arr RNum) f b, arr_wf a /\ a_elementwise f a = Ok b /\
  length (adata a) = 0 /\ length (adata b) = 3.
Proof.
  exact (ex_intro _ (a_zeros 3 0) (ex_intro _ (fun x => x) (ex_intro _ _
    (conj (or_intror (conj eq_refl (or_intror eq_refl))) (conj (proj1 (a_elementwise_empty _ 3)) (conj eq_refl eq_refl)))))).
Qed.
Print Assumptions C34_elementwise_refuted.

(** a 2 x 3 matrix: row 1 exists, row 2 does not; (0, 3) reads (1, 0) *)
Example C34_case :
  let z (k : Z) : FNum lm0 := fofZ k in
  let a := mkArr (N := FNum lm0) [z 1; z 2; z 3; z 4; z 5; z 6]%Z 2 3 in
  let u := mkArr (N := FNum lm0) [z 1; z 2]%Z 2 0 in
  arr_wf a /\ (match a_row a 2, a_dot_mv a u, a_dot u a, a_outer u a with Panic, Panic, Panic, Panic => True | _, _, _, _ => False end) /\
  (match a_get a 0 3 with Ok v => ftrunc v = 4%Z | Panic => False end) /\
  (match a_row a 1 with Ok r => map (@ftrunc) (adata r) = [4; 5; 6]%Z | Panic => False end).
Proof. split; [left; split; cbn; lia|]. vm_compute. auto 10. Qed.

(** ** C35, over the reals *)
Open Scope R_scope.
Theorem C35_dot : forall n a b, vecn n a -> vecn n b -> a_dot (N := RNum) a b = Ok (dot n (coords a) (coords b)).
Proof. exact real_dot. Qed.
Print Assumptions C35_dot.
Theorem C35_dot_mv : forall r c a x, matn r c a -> vecn c x -> exists y, a_dot_mv (N := RNum) a x = Ok y /\ vecn r y /\
  forall i, (i < r)%nat -> coords y i = mulmv c (entry a) (coords x) i.
Proof. exact real_dot_mv. Qed.
Print Assumptions C35_dot_mv.
Theorem C35_outer : forall m n a b, vecn m a -> vecn n b -> exists o, a_outer (N := RNum) a b = Ok o /\
  arows o = m /\ acols o = n /\ length (adata o) = (m * n)%nat /\
  forall i j, (i < m)%nat -> (j < n)%nat -> entry o i j = coords a i * coords b j.
Proof. exact real_outer. Qed.
Print Assumptions C35_outer.
Theorem C35_rank_one_update : forall n a u alpha, matn n n a -> sym n (entry a) -> vecn n u ->
  exists a', a_rank_one_update (N := RNum) a alpha u = Ok a' /\ matn n n a' /\
  forall i j, (i < n)%nat -> (j < n)%nat -> entry a' i j = entry a i j + alpha * (coords u i * coords u j).
Proof. exact real_rank_one. Qed.
Print Assumptions C35_rank_one_update.
Theorem C35_eye : forall n, exists a, a_eye (N := RNum) n = Ok a /\ arows a = n /\ acols a = n /\
  forall i j, (i < n)%nat -> (j < n)%nat -> entry a i j = if (i =? j)%nat then 1 else 0.
Proof. exact real_eye. Qed.
Print Assumptions C35_eye.
Theorem C35_from_diag : forall n v, vecn n v -> exists a, a_from_diag (N := RNum) v = Ok a /\ arows a = n /\ acols a = n /\
  forall i j, (i < n)%nat -> (j < n)%nat -> entry a i j = if (i =? j)%nat then coords v i else 0.
Proof. exact real_from_diag. Qed.
Print Assumptions C35_from_diag.
Theorem C35_sum : forall a, a_sum (N := RNum) a = Rsum (length (adata a)) (coords a).
Proof. exact real_sum. Qed.
Print Assumptions C35_sum.
Theorem C35_divide : forall (a : Arr RNum) s, s <> 0 ->
  a_divs (N := RNum) a s = mkArr (N := RNum) (map (fun v => v / s) (adata a)) (arows a) (acols a).
Proof. exact real_divs. Qed.
Print Assumptions C35_divide.
(** for every number type *)
Theorem C35_row : forall (N : Num) (a : Arr N) i r, arr_wf a -> a_row a i = Ok r -> is_vec (acols a) r /\ arows r = acols a /\
  forall j, (j < acols a)%nat -> vget r j = mget (acols a) (adata a) i j.
Proof. exact @a_row_ok. Qed.
Print Assumptions C35_row.
Theorem C35_binary : forall (N : Num) (a b c : Arr N),
  (a_add a b = Ok c -> forall i, (i < length (adata a))%nat -> vget c i = nadd (vget a i) (vget b i)) /\
  (a_sub a b = Ok c -> forall i, (i < length (adata a))%nat -> vget c i = nsub (vget a i) (vget b i)) /\
  (a_mul a b = Ok c -> forall i, (i < length (adata a))%nat -> vget c i = nmul (vget a i) (vget b i)).
Proof. exact (fun N a b c => conj (fun E => proj2 (proj2 (proj2 (a_zip_ok _ a b c E))))
  (conj (fun E => proj2 (proj2 (proj2 (a_zip_ok _ a b c E)))) (fun E => proj2 (proj2 (proj2 (a_zip_ok _ a b c E)))))). Qed.
Print Assumptions C35_binary.
Theorem C35_elementwise : forall (N : Num) (f : N -> N) (a : Arr N),
  (0 < acols a /\ length (adata a) = arows a * acols a)%nat \/ (acols a = 0 /\ length (adata a) = arows a)%nat ->
  a_elementwise f a = Ok (mkArr (map f (adata a)) (arows a) (acols a)).
Proof. exact @a_elementwise_ok. Qed.
Print Assumptions C35_elementwise.

(** a symmetric matrix and a vector; the update is [[1,2],[2,4]] + 3 u u' *)
Example C35_case :
  let a := mkArr (N := RNum) [1; 2; 2; 4] 2 2 in let u := mkArr (N := RNum) [1; -1] 2 0 in
  matn 2 2 a /\ sym 2 (entry a) /\ vecn 2 u /\ 
  (exists a', a_rank_one_update (N := RNum) a 3 u = Ok a' /\ entry a' 0%nat 1%nat = -1 /\ entry a' 1%nat 0%nat = -1 /\ entry a' 1%nat 1%nat = 7) /\
  dot 2 (coords u) (coords u) = 2.
Proof.
  cbv zeta. split; [repeat split; cbn; lia|]. split.
  { intros i j Hi Hj. unfold entry. destruct i as [|[|i]], j as [|[|j]]; try lia; reflexivity. }
  split; [split; reflexivity|]. split.
  - eexists. split; [reflexivity|]. unfold entry. cbn. lra.
  - unfold dot, coords. cbn. lra.
Qed.

(** ** C36: [a /= s] multiplies by the rounded reciprocal (f64) *)
Theorem C36_divide_refuted : exists (a : Arr (FNum lm0)) (s : FNum lm0),
  is_finite s = true /\ is_finite (vget a 0) = true /\
  Beqb (vget a 0 /! s) (fofZ 1) = true /\ Bltb (vget (a_divs a s) 0) (fofZ 1) = true.
Proof. exact divide_49. Qed.
Print Assumptions C36_divide_refuted.

(** ** C37, over the reals *)
Theorem C37_linspace : forall a b n, exists l, linspace (N := RNum) a b n = Ok l /\ vecn n l /\
  (n = 1%nat -> coords l 0%nat = a) /\
  ((2 <= n)%nat -> coords l 0%nat = a /\ coords l (n - 1)%nat = b /\
    forall i, (i < n)%nat -> coords l i = a + (b - a) * INR i / INR (n - 1)).
Proof. exact linspace_ok. Qed.
Print Assumptions C37_linspace.
Theorem C37_arange : forall a b, exists l, arange (N := RNum) a b = Ok l /\
  (b <= a -> vecn 0 l) /\
  (a < b -> b - a < 2 ^ 64 -> exists n, vecn n l /\ INR n <= b - a < INR n + 1 /\
    forall i, (i < n)%nat -> coords l i = a + INR i /\ coords l i < b).
Proof. exact arange_ok. Qed.
Print Assumptions C37_arange.
(** f64: arange(1, 4.5) = [1, 2, 3]; linspace(0, 10, 6) = [0, 2, ..., 10] *)
Example C37_case :
  (match arange (N := FNum lm0) (fofZ 1) (fdiv (fofZ 9) (fofZ 2)) with Ok r => map (@ftrunc) (adata r) = [1; 2; 3]%Z | Panic => False end) /\
  (match linspace (N := FNum lm0) (fofZ 0) (fofZ 10) 6 with Ok r => map (@ftrunc) (adata r) = [0; 2; 4; 6; 8; 10]%Z | Panic => False end).
Proof. vm_compute. auto. Qed.
