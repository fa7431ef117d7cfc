(** Model of /repo/src/oracles/ldlt_mgr.rs. *)
From Coq Require Import ZArith List Bool Arith.
From Verif Require Import Num Res Arr.
Import ListNotations.

(** ldlt_mgr.rs 3-8 *)
Record LDLT (N : Num) := mkLDLT { l_pos : nat * nat; l_wit : Arr N; l_ndim : nat; l_storage : list N }.
Arguments mkLDLT {N}. Arguments l_pos {N}. Arguments l_wit {N}. Arguments l_ndim {N}. Arguments l_storage {N}.

Section Model.
Context {N : Num}.
Notation ldlt := (LDLT N).

(** ldlt_mgr.rs 11-18 *)
Definition ldlt_new (ndim : nat) : ldlt := mkLDLT (0, 0) (a_new ndim) ndim (repeat n0 (ndim * ndim)).

(** ldlt_mgr.rs 41-44 and 76-79: storage[i, start..stop] . storage[start..stop, stop] *)
Definition ldlt_inner (n start i stop : nat) (st : list N) : res N :=
  for_range start stop (fun k s =>
    a <- rd st (i * n + k) ;; b <- rd st (k * n + stop) ;; Ok (s +! a *! b)) n0.
(** ldlt_mgr.rs 33-47 and 68-82: one row; returns the pivot *)
Definition ldlt_row (n start i : nat) (get : nat -> nat -> res N) (st : list N) : res (list N * N) :=
  diag <- get i start ;;
  '(st, diag) <- for_range start i (fun j '(st, diag) =>
      st <- wr st (j * n + i) diag ;;
      d <- rd st (j * n + j) ;;
      let val := diag /! d in
      st <- wr st (i * n + j) val ;;
      let stop := j + 1 in
      s <- ldlt_inner n start i stop st ;;
      e <- get i stop ;;
      Ok (st, e -! s)) (st, diag) ;;
  st <- wr st (i * n + i) diag ;;
  Ok (st, diag).

(** ldlt_mgr.rs 92-94 *)
Definition ldlt_is_spd (m : ldlt) : bool := snd (l_pos m) =? 0.

(** ldlt_mgr.rs 29-54; the closure may panic, hence [res] *)
Definition ldlt_factor (get : nat -> nat -> res N) (m : ldlt) : res (ldlt * bool) :=
  let n := l_ndim m in
  c <- loop_range 0 n (fun i st =>
        '(st, diag) <- ldlt_row n 0 i get st ;;
        if diag <=?! n0 then Ok (Done (st, (0, i + 1))) else Ok (Next st)) (l_storage m) ;;
  let m := match c with
           | Next st => mkLDLT (0, 0) (l_wit m) n st
           | Done (st, pos) => mkLDLT pos (l_wit m) n st
           end in
  Ok (m, ldlt_is_spd m).
(** ldlt_mgr.rs 22-24 *)
Definition ldlt_factorize (mat : Arr N) (m : ldlt) : res (ldlt * bool) := ldlt_factor (a_get mat) m.

(** ldlt_mgr.rs 58-90 *)
Definition ldlt_factor_semi (get : nat -> nat -> res N) (m : ldlt) : res (ldlt * bool) :=
  let n := l_ndim m in
  c <- loop_range 0 n (fun i '(st, start) =>
        '(st, diag) <- ldlt_row n start i get st ;;
        if diag <?! n0 then Ok (Done (st, (start, i + 1)))
        else if diag =?! n0 then Ok (Next (st, i + 1)) else Ok (Next (st, start))) (l_storage m, 0) ;;
  let m := match c with
           | Next (st, _) => mkLDLT (0, 0) (l_wit m) n st
           | Done (st, pos) => mkLDLT pos (l_wit m) n st
           end in
  Ok (m, ldlt_is_spd m).

(** ldlt_mgr.rs 98-112; the loop variable runs over (start + 1..=m).rev() *)
Definition ldlt_witness (l : ldlt) : res (ldlt * N) :=
  assert (negb (ldlt_is_spd l))
   (let '(start, pos) := l_pos l in
    let n := l_ndim l in
    let m := pos - 1 in
    w <- a_setidx (l_wit l) m n1 ;;
    w <- for_rev (start + 1) (m + 1) (fun i w =>
           s <- for_range i pos (fun k s =>
                  a <- rd (l_storage l) (k * n + (i - 1)) ;; b <- a_idx w k ;; Ok (s +! a *! b)) n0 ;;
           a_setidx w (i - 1) (-! s)) w ;;
    d <- rd (l_storage l) (m * n + m) ;;
    Ok (mkLDLT (l_pos l) w n (l_storage l), -! d)).

(** ldlt_mgr.rs 116-125 *)
Definition ldlt_sym_quad (l : ldlt) (mat : Arr N) : res N :=
  let '(start, stop) := l_pos l in
  for_range start stop (fun i r =>
    for_range start stop (fun j r =>
      wi <- a_idx (l_wit l) i ;; a <- a_get mat i j ;; wj <- a_idx (l_wit l) j ;;
      Ok (r +! wi *! a *! wj)) r) n0.

(** ldlt_mgr.rs 129-140 *)
Definition ldlt_sqrt (l : ldlt) : res (Arr N) :=
  assert (ldlt_is_spd l)
   (let n := l_ndim l in
    for_range 0 n (fun i r =>
      d <- rd (l_storage l) (i * n + i) ;;
      let val := nsqrt d in
      r <- a_set r i i val ;;
      for_range (i + 1) n (fun j r =>
        x <- rd (l_storage l) (j * n + i) ;; a_set r i j (x *! val)) r) (a_zeros n n)).
End Model.
