(** What it means to take the constraints in turn (C122). *)
From Coq Require Import ZArith List Bool Arith.
From Verif Require Import Num Res Arr CuttingPlane Examples Profit ProfitSpec.
Import ListNotations.
Open Scope nat_scope.

Section S.
Context {N : Num}.
(** A constraint at a point: its value (violated when positive) and its gradient. *)
Definition con : Type := (N * list N)%type.
Definition violated (cs : list con) (i : nat) : Prop := (n0 <?! fst (nth i cs (n0, []))) = true.
Definition holds (cs : list con) (i : nat) : Prop := (n0 <?! fst (nth i cs (n0, []))) = false.
(** [k] places after [idx] in a cycle through the constraints; -1 is before the first *)
Definition turn (cs : list con) (idx : Z) (k : nat) : nat := Z.to_nat ((idx + Z.of_nat k) mod Z.of_nat (length cs)).
(** the answer (g, beta) is the cut of the first violated constraint after [idx], and
    [idx'] is that constraint *)
Definition cut_in_turn (cs : list con) (idx idx' : Z) (g : Arr N) (beta : N) : Prop :=
  exists k, 1 <= k <= length cs /\ idx' = Z.of_nat (turn cs idx k) /\
    nth (turn cs idx k) cs (n0, []) = (beta, adata g) /\ violated cs (turn cs idx k) /\
    forall j, 1 <= j < k -> holds cs (turn cs idx j).
(** no constraint is violated, and a full turn has been made *)
Definition full_turn (cs : list con) (idx idx' : Z) : Prop :=
  idx' = Z.of_nat (turn cs idx (length cs)) /\ forall i, i < length cs -> holds cs i.

(** consecutive calls of an oracle: point, level, gradient, offset *)
Context {O : Type} (assess : O -> Arr N -> N -> res (O * N * ((Arr N * SingleCut N) * bool))).
Inductive calls : O -> list (Arr N * N * Arr N * N) -> O -> Prop :=
| calls_nil o : calls o [] o
| calls_cons o x gamma o1 gamma1 g beta b tr o2 : assess o x gamma = Ok (o1, gamma1, ((g, mkSingle beta), b)) ->
    calls o1 tr o2 -> calls o ((x, gamma, g, beta) :: tr) o2.
End S.
Arguments con : clear implicits.

(** The constraints of the examples and of the profit oracle as the code computes them. *)
Section C.
Context {N : Num}.
Definition c_ex1 (xc : Arr N) (ga : N) : list (con N) := let x := at_ xc 0 in let y := at_ xc 1 in
  [(x +! y -! nZ 3, [n1; n1]); (-! x +! y +! n1, [nm1; n1]); (ga -! (x +! y), [nm1; nm1])].
Definition c_ex4 (xc : Arr N) (ga : N) : list (con N) := let x := at_ xc 0 in let y := at_ xc 1 in
  [(-! x -! n1, [nm1; n0]); (-! y -! n2, [n0; nm1]); (x +! y -! n1, [n1; n1]); (ga -! (n2 *! x -! nZ 3 *! y), [-! n2; nZ 3])].
Definition c_qcvx (xc : Arr N) (ga : N) : list (con N) := let s := at_ xc 0 in let l := at_ xc 1 in
  [(s *! s -! l, [n2 *! s; nm1]); (-! s +! ga *! nexp l, [nm1; ga *! nexp l])].
Definition c_ex3 (xc : Arr N) (t : N) : list (con N) := let x := at_ xc 0 in let y := at_ xc 1 in
  [(-! x -! n1, [nm1; n0]); (-! y -! n2, [n0; nm1]); (x +! y -! n1, [n1; n1]); (n2 *! x -! nZ 3 *! y -! t, [n2; -! nZ 3])].
Definition p_cons (p : Profit N) (y : Arr N) (ga : N) : list (con N) :=
  [(at_ y 0 -! p_log_k p, [n1; n0]);
   (nln (ga +! v_vx p y) -! v_log_cobb p y,
    [at_ (p_price_out p) 0 *! nexp (at_ y 0) *! (n1 /! (ga +! v_vx p y)) -! at_ (p_elast p) 0;
     at_ (p_price_out p) 1 *! nexp (at_ y 1) *! (n1 /! (ga +! v_vx p y)) -! at_ (p_elast p) 1])].
(** exp x <= y, y >= 0 and x >= 0, and how much is missing to the level *)
Definition c_qc2 (xc : Arr N) : list (con N) := let x := at_ xc 0 in let y := at_ xc 1 in
  [(nexp x -! y, [nexp x; nm1]); (-! y, [n0; nm1]); (-! x, [nm1; n0])].
Definition qc2_short (xc : Arr N) (ga : N) : N := -! nsqrt (at_ xc 0) +! ga *! at_ xc 1.
(** the robust oracle uses the elasticities that are worst for the sign of y *)
Definition worst_elast (r : ProfitRb N) (y : Arr N) : Arr N :=
  let worst i u := at_ (rb_elast r) i +! (if at_ y i >?! n0 then -! u else u) in vec2 (worst 0 (fst (rb_uie r))) (worst 1 (snd (rb_uie r))).
Definition rb_cons (r : ProfitRb N) (y : Arr N) (ga : N) : list (con N) := p_cons (set_elast (rb_omega r) (worst_elast r y)) y ga.
Definition rb_same (r r' : ProfitRb N) : Prop :=
  rb_uie r' = rb_uie r /\ rb_elast r' = rb_elast r /\ p_log_p_scale (rb_omega r') = p_log_p_scale (rb_omega r) /\ p_log_k (rb_omega r') = p_log_k (rb_omega r) /\ p_price_out (rb_omega r') = p_price_out (rb_omega r).
(** the discrete oracle at a point: all constraints hold, or the gradient and the offset
    [beta] are those of the next violated constraint *)
Definition in_turn (cs : list (con N)) (idx idx' : Z) (g : Arr N) (beta : N) (b : bool) : Prop :=
  if b then full_turn cs idx idx' else cut_in_turn cs idx idx' g beta.
End C.
