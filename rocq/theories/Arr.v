(** Model of /repo/src/arr.rs (flat row-major arrays). *)
From Coq Require Import ZArith List Bool Arith.
Import ListNotations.
From Verif Require Import Num Res.

(** arr.rs 11-16 *)
Record Arr (N : Num) := mkArr { adata : list N; arows : nat; acols : nat }.
Arguments mkArr {N}. Arguments adata {N}. Arguments arows {N}. Arguments acols {N}.

Section Model.
Context {N : Num}.
Notation arr := (Arr N).

(** arr.rs 19-25 *)
Definition a_new (n : nat) : arr := mkArr (repeat n0 n) n 0.
(** arr.rs 26-32 *)
Definition a_zeros (r c : nat) : arr := mkArr (repeat n0 (r * c)) r c.
(** arr.rs 33-39 *)
Definition a_full (r c : nat) (v : N) : arr := mkArr (repeat v (r * c)) r c.
(** arr.rs 118-121 *)
Definition a_is_2d (a : arr) : bool := 0 <? acols a.
(** arr.rs 106-109, 122-125: [size] and [len] *)
Definition a_len (a : arr) : nat := length (adata a).

(** arr.rs 153-157, 163-166: [get]/[at].  The [debug_assert!] is not modelled
    (release build). *)
Definition a_get (a : arr) (i j : nat) : res N := rd (adata a) (i * acols a + j).
(** arr.rs 158-162 *)
Definition a_set (a : arr) (i j : nat) (v : N) : res arr :=
  d <- wr (adata a) (i * acols a + j) v ;; Ok (mkArr d (arows a) (acols a)).
(** arr.rs 173-179: [a[i]] *)
Definition a_idx (a : arr) (i : nat) : res N := rd (adata a) i.
(** arr.rs 180-185: [a[i] = v] *)
Definition a_setidx (a : arr) (i : nat) (v : N) : res arr :=
  d <- wr (adata a) i v ;; Ok (mkArr d (arows a) (acols a)).
(** arr.rs 186-192: [a[(r, c)]] *)
Definition a_idx2 (a : arr) (r c : nat) : res N := rd (adata a) (r * acols a + c).

(** arr.rs 40-46 *)
Definition a_eye (n : nat) : res arr :=
  for_range 0 n (fun i a => a_set a i i n1) (a_zeros n n).
(** arr.rs 47-55 *)
Definition a_from_diag (v : arr) : res arr :=
  assert (negb (a_is_2d v))
    (let n := a_len v in
     for_range 0 n (fun i a => x <- a_idx v i ;; a_set a i i x) (a_zeros n n)).
(** arr.rs 56-63 *)
Definition a_from (v : list N) : arr := mkArr v (length v) 0.
(** arr.rs 64-70 *)
Definition a_ones (n : nat) : arr := mkArr (repeat n1 n) n 0.
(** arr.rs 71-78; the closure is pure here *)
Definition a_from_fn (n : nat) (f : nat -> N) : arr := mkArr (map f (seq 0 n)) n 0.
(** arr.rs 85-88; also [with_data], 148-151 *)
Definition a_from_shape_vec (rows cols : nat) (d : list N) : res arr :=
  assert (length d =? rows * cols) (Ok (mkArr d rows cols)).
(** [&v[start..start+len]]: panics when out of range *)
Definition slice (d : list N) (start len : nat) : res (list N) :=
  assert (start + len <=? length d) (Ok (firstn len (skipn start d))).
(** arr.rs 95-104 *)
Definition a_row (a : arr) (i : nat) : res arr :=
  assert (a_is_2d a) (assert (i <? arows a)
    (d <- slice (adata a) (i * acols a) (acols a) ;; Ok (mkArr d (acols a) 0))).

(** arr.rs 200-204: [==] *)
Fixpoint list_eqb (l m : list N) : bool :=
  match l, m with
  | [], [] => true
  | x :: l', y :: m' => (x =?! y) && list_eqb l' m'
  | _, _ => false
  end.
Definition a_eqb (a b : arr) : bool :=
  (arows a =? arows b) && (acols a =? acols b) && list_eqb (adata a) (adata b).

Definition a_mapd (f : N -> N) (a : arr) : arr := mkArr (map f (adata a)) (arows a) (acols a).
(** arr.rs 217-224, 225-232, 233-240 and 350-383 *)
Definition a_adds (a : arr) (s : N) : arr := a_mapd (fun v => v +! s) a.
Definition a_subs (a : arr) (s : N) : arr := a_mapd (fun v => v -! s) a.
Definition a_muls (a : arr) (s : N) : arr := a_mapd (fun v => v *! s) a.
(** arr.rs 241-249: division by a scalar multiplies by the reciprocal; also
    [Div<f64>], 385-401 *)
Definition a_divs (a : arr) (s : N) : arr :=
  let inv := n1 /! s in a_mapd (fun v => v *! inv) a.

Fixpoint zipwith (f : N -> N -> N) (l m : list N) : list N :=
  match l, m with
  | x :: l', y :: m' => f x y :: zipwith f l' m'
  | _, _ => []
  end.
Definition a_zip (f : N -> N -> N) (a b : arr) : res arr :=
  assert (a_len a =? a_len b) (Ok (mkArr (zipwith f (adata a) (adata b)) (arows a) (acols a))).
(** arr.rs 251-259, 270-277, 298-314: [+=], [+] *)
Definition a_add : arr -> arr -> res arr := a_zip nadd.
(** arr.rs 260-268, 278-285, 315-331: [-=], [-] *)
Definition a_sub : arr -> arr -> res arr := a_zip nsub.
(** arr.rs 286-296, 332-348: element-wise [*] *)
Definition a_mul : arr -> arr -> res arr := a_zip nmul.
(** arr.rs 403-423 *)
Definition a_neg (a : arr) : arr := a_mapd nopp a.

(** arr.rs 426-442 *)
Definition a_dot_mv (a x : arr) : res arr :=
  assert (a_is_2d a) (assert (negb (a_is_2d x)) (assert (acols a =? a_len x)
    (out <- for_range 0 (arows a) (fun i out =>
       for_range 0 (acols a) (fun j out =>
         m <- rd (adata a) (i * acols a + j) ;;
         xj <- a_idx x j ;;
         o <- rd out i ;;
         wr out i (o +! m *! xj)) out) (repeat n0 (arows a)) ;;
     Ok (mkArr out (arows a) 0)))).

(** [Iterator::sum] *)
Definition isum (l : list N) : N := fold_left nadd l nsum0.
(** arr.rs 443-451 *)
Definition a_dot (a b : arr) : res N :=
  assert (negb (a_is_2d a) && negb (a_is_2d b)) (assert (a_len a =? a_len b)
    (Ok (isum (zipwith nmul (adata a) (adata b))))).
(** arr.rs 452-468 *)
Definition a_outer (a b : arr) : res arr :=
  assert (negb (a_is_2d a) && negb (a_is_2d b))
    (let m := a_len a in let n := a_len b in
     d <- for_range 0 m (fun i d =>
       for_range 0 n (fun j d =>
         x <- a_idx a i ;; y <- a_idx b j ;; wr d (i * n + j) (x *! y)) d)
       (repeat n0 (m * n)) ;;
     Ok (mkArr d m n)).
(** arr.rs 469-485 *)
Definition a_rank_one_update (a : arr) (alpha : N) (u : arr) : res arr :=
  assert (a_is_2d a) (assert (negb (a_is_2d u))
    (let n := arows a in
     assert (n =? a_len u)
      (d <- for_range 0 n (fun i d =>
         ui <- a_idx u i ;;
         for_range 0 (i + 1) (fun j d =>
           uj <- a_idx u j ;;
           v <- rd d (i * n + j) ;;
           d <- wr d (i * n + j) (v +! alpha *! ui *! uj) ;;
           if negb (i =? j) then (w <- rd d (i * n + j) ;; wr d (j * n + i) w) else Ok d) d)
         (adata a) ;;
       Ok (mkArr d (arows a) (acols a))))).
(** arr.rs 486-489 *)
Definition a_copy_from (a b : arr) : res arr :=
  assert (a_len a =? a_len b) (Ok (mkArr (adata b) (arows a) (acols a))).
(** arr.rs 490-492 *)
Definition a_sum (a : arr) : N := isum (adata a).
(** arr.rs 493-504; the closure is pure here *)
Definition a_map (f : N -> N) (a : arr) : arr := a_mapd f a.

(** arr.rs 506-520 *)
Definition linspace (start end_ : N) (n : nat) : res arr :=
  let a := a_new n in
  if n =? 0 then Ok a
  else if n =? 1 then a_setidx a 0 start
  else
    let step := (end_ -! start) /! nN (n - 1) in
    for_range 0 n (fun i a => a_setidx a i (start +! step *! nN i)) a.
(** arr.rs 522-533 *)
Definition arange (start end_ : N) : res arr :=
  let n := if end_ >?! start then as_usize (end_ -! start) else 0 in
  for_range 0 n (fun i a => a_setidx a i (start +! nN i)) (a_new n).
(** arr.rs 535-541 *)
Definition make_same_shape (a : arr) : arr :=
  if a_is_2d a then a_zeros (arows a) (acols a) else a_new (arows a).
(** arr.rs 543-577: [cos], [ln], [abs], [exp], [sqrt] are this loop *)
Definition a_elementwise (f : N -> N) (a : arr) : res arr :=
  for_range 0 (a_len a) (fun i o => x <- a_idx a i ;; a_setidx o i (f x)) (make_same_shape a).
End Model.
