(** Model of /repo/src/oracles/profit_oracle.rs. *)
From Coq Require Import ZArith List Bool Arith.
From Verif Require Import Num Res Arr CuttingPlane Examples.
Import ListNotations.

(** profit_oracle.rs 6-16 *)
Record Profit (N : Num) := mkProfit {
  p_idx : Z; p_log_p_scale : N; p_log_k : N; p_price_out : Arr N; p_elast : Arr N;
  p_log_cobb : N; p_vx : N; p_q : Arr N }.
Arguments mkProfit {N}. Arguments p_idx {N}. Arguments p_log_p_scale {N}. Arguments p_log_k {N}.
Arguments p_price_out {N}. Arguments p_elast {N}. Arguments p_log_cobb {N}. Arguments p_vx {N}. Arguments p_q {N}.
(** profit_oracle.rs 81-86 *)
Record ProfitRb (N : Num) := mkProfitRb { rb_uie : N * N; rb_omega : Profit N; rb_elast : Arr N }.
Arguments mkProfitRb {N}. Arguments rb_uie {N}. Arguments rb_omega {N}. Arguments rb_elast {N}.
(** profit_oracle.rs 128-131 *)
Record ProfitQ (N : Num) := mkProfitQ { pq_omega : Profit N; pq_yd : Arr N }.
Arguments mkProfitQ {N}. Arguments pq_omega {N}. Arguments pq_yd {N}.

Section Model.
Context {N : Num}.
Notation arr := (Arr N).

(** profit_oracle.rs 19-33 *)
Definition profit_new (unit_price scale limit : N) (elast price_out : arr) : Profit N :=
  mkProfit (-1) (nln (unit_price *! scale)) (nln limit) price_out elast n0 n0 (a_new 2).

(** profit_oracle.rs 42-51: the constraint value; the second one refreshes
    [log_cobb], [q] and [vx] *)
Definition profit_step (y : arr) (gamma : N) (idx : Z) (p : Profit N) : res (Profit N * N) :=
  match idx with
  | 0%Z => y0 <- a_idx y 0 ;; Ok (p, y0 -! p_log_k p)
  | 1%Z =>
      d <- a_dot (p_elast p) y ;;
      let log_cobb := p_log_p_scale p +! d in
      q <- a_mul (p_price_out p) (a_map nexp y) ;;
      q0 <- a_idx q 0 ;; q1 <- a_idx q 1 ;;
      let vx := q0 +! q1 in
      Ok (mkProfit (p_idx p) (p_log_p_scale p) (p_log_k p) (p_price_out p) (p_elast p) log_cobb vx q,
          nln (gamma +! vx) -! log_cobb)
  | _ => Panic
  end.
(** profit_oracle.rs 54-58 *)
Definition profit_grad (gamma : N) (idx : Z) (p : Profit N) : res arr :=
  match idx with
  | 0%Z => Ok (vec2 n1 n0)
  | 1%Z => a_sub (a_divs (p_q p) (gamma +! p_vx p)) (p_elast p)
  | _ => Panic
  end.
(** the assignment to [self.idx] in profit_oracle.rs 38-41 (the loop above carries
    the counter beside the state) *)
Definition set_idx (p : Profit N) (idx : Z) : Profit N :=
  mkProfit idx (p_log_p_scale p) (p_log_k p) (p_price_out p) (p_elast p) (p_log_cobb p) (p_vx p) (p_q p).
(** profit_oracle.rs 35-64 *)
Definition profit_feas (p : Profit N) (y : arr) (gamma : N) : res (Profit N * option (arr * N)) :=
  c <- round_robin 2 (profit_step y gamma) (p_idx p) p ;;
  match c with
  | Done (idx, p, fj) => g <- profit_grad gamma idx p ;; Ok (set_idx p idx, Some (g, fj))
  | Next (idx, p) => Ok (set_idx p idx, None)
  end.
(** profit_oracle.rs 70-79 *)
Definition profit_assess (p : Profit N) (y : arr) (gamma : N) : res (Profit N * N * ((arr * SingleCut N) * bool)) :=
  '(p, r) <- profit_feas p y gamma ;;
  match r with
  | Some (g, fj) => Ok (p, gamma, ((g, mkSingle fj), false))
  | None =>
      let exp_val := nexp (p_log_cobb p) in
      g <- a_sub (a_divs (p_q p) exp_val) (p_elast p) ;;
      Ok (p, exp_val -! p_vx p, ((g, mkSingle n0), true))
  end.

(** profit_oracle.rs 89-108 *)
Definition profit_rb_new (unit_price scale limit : N) (elast price_out : arr) (e1 e2 e3 e4 e5 : N) : res (ProfitRb N) :=
  po <- a_add price_out (vec2 e5 e5) ;;
  Ok (mkProfitRb (e1, e2) (profit_new (unit_price -! e3) scale (limit -! e4) elast po) elast).
(** profit_oracle.rs 115-122 *)
Definition profit_rb_elast (r : ProfitRb N) (y : arr) : res arr :=
  for_range 0 2 (fun i a =>
    old <- a_idx a i ;; yi <- a_idx y i ;;
    let u := if i =? 0 then fst (rb_uie r) else snd (rb_uie r) in
    a_setidx a i (old +! (if yi >?! n0 then -! u else u))) (rb_elast r).
(** profit_oracle.rs 123 *)
Definition set_elast (p : Profit N) (a : arr) : Profit N :=
  mkProfit (p_idx p) (p_log_p_scale p) (p_log_k p) (p_price_out p) a (p_log_cobb p) (p_vx p) (p_q p).
(** profit_oracle.rs 114-125 *)
Definition profit_rb_assess (r : ProfitRb N) (y : arr) (gamma : N) : res (ProfitRb N * N * ((arr * SingleCut N) * bool)) :=
  a <- profit_rb_elast r y ;;
  '(p, gamma, cut) <- profit_assess (set_elast (rb_omega r) a) y gamma ;;
  Ok (mkProfitRb (rb_uie r) p (rb_elast r), gamma, cut).

(** profit_oracle.rs 134-139 *)
Definition profit_q_new (unit_price scale limit : N) (elast price_out : arr) : ProfitQ N :=
  mkProfitQ (profit_new unit_price scale limit elast price_out) (vec2 n0 n0).
(** profit_oracle.rs 150-157 *)
Definition profit_q_round (y : arr) : res arr :=
  let x := a_map (fun v => nround (nexp v)) y in
  x0 <- a_idx x 0 ;;
  x <- (if x0 =?! n0 then a_setidx x 0 n1 else Ok x) ;;
  x1 <- a_idx x 1 ;;
  x <- (if x1 =?! n0 then a_setidx x 1 n1 else Ok x) ;;
  Ok (a_map nln x).
(** profit_oracle.rs 145-163 *)
Definition profit_q_assess (o : ProfitQ N) (y : arr) (gamma : N) (retry : bool)
  : res (ProfitQ N * N * ((arr * SingleCut N) * bool * arr * bool)) :=
  let tail (o : ProfitQ N) :=
    '(p, gamma, ((grad, c), shrunk)) <- profit_assess (pq_omega o) (pq_yd o) gamma ;;
    d <- a_sub (pq_yd o) y ;;
    gd <- a_dot grad d ;;
    Ok (mkProfitQ p (pq_yd o), gamma, ((grad, mkSingle (sc_beta c +! gd)), shrunk, pq_yd o, negb retry)) in
  if negb retry then
    '(p, r) <- profit_feas (pq_omega o) y gamma ;;
    match r with
    | Some (g, fj) => Ok (mkProfitQ p (pq_yd o), gamma, ((g, mkSingle fj), false, y, true))
    | None => yd <- profit_q_round y ;; tail (mkProfitQ p yd)
    end
  else tail o.
End Model.
