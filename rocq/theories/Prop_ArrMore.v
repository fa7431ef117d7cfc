(** C34 and C35, continued: writing, copying, constructing and the rank-one update, for
    every number type. *)
From Coq Require Import List Arith Bool Lia ZArith.
From Flocq Require Import Core IEEE754.BinarySingleNaN.
From Verif Require Import Num Res Arr ArrLemmas EllSpec ArrProps ArrMore.
Import ListNotations.

(** Writing an element changes that element only and keeps the shape. *)
Theorem C34_write (N : Num) (a b : Arr N) i v : a_setidx a i v = Ok b -> arows b = arows a /\ acols b = acols a /\ length (adata b) = length (adata a) /\
  forall k, a_idx b k = if k =? i then Ok v else a_idx a k.
Proof. exact (setidx_ok a b i v). Qed.
Print Assumptions C34_write.
Theorem C34_write2 (N : Num) (a b : Arr N) i j v : a_set a i j v = Ok b -> arows b = arows a /\ acols b = acols a /\ length (adata b) = length (adata a) /\
  (forall i' j', j < acols a -> j' < acols a -> a_get b i' j' = if (i' =? i) && (j' =? j) then Ok v else a_get a i' j').
Proof. exact (set_ok a b i j v). Qed.
Print Assumptions C34_write2.
Theorem C34_access_more (N : Num) (a : Arr N) i j v : (a_setidx a i v = Panic <-> length (adata a) <= i) /\ a_idx2 a i j = a_get a i j.
Proof. exact (conj (setidx_panic a i v) eq_refl). Qed.
Print Assumptions C34_access_more.
(** copy_from takes the contents of the other array and keeps its own shape, even when
    the shapes differ. *)
Theorem C35_copy_from (N : Num) (a b c : Arr N) : a_copy_from a b = Ok c -> arows c = arows a /\ acols c = acols a /\ adata c = adata b.
Proof. exact (copy_ok a b c). Qed.
Print Assumptions C35_copy_from.
Theorem C35_from_shape_vec (N : Num) r c (d : list N) a : a_from_shape_vec r c d = Ok a ->
  arows a = r /\ acols a = c /\ forall i j, i < r -> j < c -> a_get a i j = rd d (i * c + j).
Proof. exact (shape_vec_ok r c d a). Qed.
Print Assumptions C35_from_shape_vec.
(** rank_one_update on any square matrix: the part below the diagonal is updated, and
    the part above is overwritten with its mirror image. *)
Theorem C35_rank_one_lower (N : Num) n (a u : Arr N) alpha : 0 < n -> is_mat n n a -> is_vec n u -> exists b, a_rank_one_update a alpha u = Ok b /\ is_mat n n b /\
  forall i j, i < n -> j <= i -> mget n (adata b) i j = nadd (mget n (adata a) i j) (nmul (nmul alpha (vget u i)) (vget u j)) /\ mget n (adata b) j i = mget n (adata b) i j.
Proof. exact (rank_one_lower n a u alpha). Qed.
Print Assumptions C35_rank_one_lower.

(** [[1, 7], [2, 4]] + 3 u u' with u = (1, -1) gives [[4, -1], [-1, 7]]: the 7 is lost.
    Copying a vector of four into a 2 x 2 matrix keeps the matrix. *)
Example C35_more_case :
  let z (k : Z) : FNum lm0 := fofZ k in
  let a := mkArr (N := FNum lm0) [z 1; z 7; z 2; z 4]%Z 2 2 in
  let u := mkArr (N := FNum lm0) [z 1; z (-1)]%Z 2 0 in
  let w := a_from (N := FNum lm0) [z 5; z 6; z 7; z 8]%Z in
  is_mat 2 2 a /\ is_vec 2 u /\
  (match a_rank_one_update a (z 3%Z) u with Ok b => map (@ftrunc) (adata b) = [4; -1; -1; 7]%Z | Panic => False end) /\
  (match a_copy_from a w with Ok c => map (@ftrunc) (adata c) = [5; 6; 7; 8]%Z /\ arows c = 2 /\ acols c = 2 | Panic => False end) /\
  (match a_set a 0 1 (z 9%Z) with Ok b => map (@ftrunc) (adata b) = [1; 9; 2; 4]%Z | Panic => False end) /\
  (match a_setidx a 2 (z 9%Z) with Ok b => map (@ftrunc) (adata b) = [1; 7; 9; 4]%Z | Panic => False end) /\
  (match a_from_shape_vec 2 2 [z 1; z 2; z 3; z 4]%Z with Ok b => map (@ftrunc) (adata b) = [1; 2; 3; 4]%Z | Panic => False end).
Proof. split; [repeat split; reflexivity|]. split; [repeat split; reflexivity|]. vm_compute. auto 10. Qed.
