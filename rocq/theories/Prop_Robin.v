(** Property C122: the oracles that go through their constraints in turn starve none. *)
From Coq Require Import ZArith List Bool Arith.
From Verif Require Import Num Res Arr CuttingPlane Examples Profit ProfitSpec Qcvx2 RobinSpec RobinProofs.
Import ListNotations.
Open Scope nat_scope.

(** One call: the cut is that of the first violated constraint after the one cut last;
    without a violated constraint a full turn is made. *)
Theorem C122_example1_rr : forall (N : Num) idx (x : Arr N) ga, (-1 <= idx < 3)%Z -> two x ->
  exists idx' ga' g beta b, ex1rr_assess idx x ga = Ok (idx', ga', ((g, mkSingle beta), b)) /\ (-1 <= idx' < 3)%Z /\
    if b then full_turn (c_ex1 x ga) idx idx' else cut_in_turn (c_ex1 x ga) idx idx' g beta.
Proof. exact @ex1rr_in_turn. Qed.
Print Assumptions C122_example1_rr.
Theorem C122_example4 : forall (N : Num) idx (x : Arr N) ga, (-1 <= idx < 4)%Z -> two x ->
  exists idx' ga' g beta b, ex4_assess idx x ga = Ok (idx', ga', ((g, mkSingle beta), b)) /\ (-1 <= idx' < 4)%Z /\
    if b then full_turn (c_ex4 x ga) idx idx' else cut_in_turn (c_ex4 x ga) idx idx' g beta.
Proof. exact @ex4_in_turn. Qed.
Print Assumptions C122_example4.
Theorem C122_quasicvx : forall (N : Num) idx (x : Arr N) ga, (-1 <= idx < 2)%Z -> two x ->
  exists idx' ga' g beta b, qcvx_assess idx x ga = Ok (idx', ga', ((g, mkSingle beta), b)) /\ (-1 <= idx' < 2)%Z /\
    if b then full_turn (c_qcvx x ga) idx idx' else cut_in_turn (c_qcvx x ga) idx idx' g beta.
Proof. exact @qcvx_in_turn. Qed.
Print Assumptions C122_quasicvx.
Theorem C122_example3 : forall (N : Num) (o : Ex3 N) (x : Arr N), (-1 <= ex3_idx o < 4)%Z -> two x ->
  exists o' r, ex3_assess o x = Ok (o', r) /\ (-1 <= ex3_idx o' < 4)%Z /\ ex3_target o' = ex3_target o /\
    match r with
    | None => full_turn (c_ex3 x (ex3_target o)) (ex3_idx o) (ex3_idx o')
    | Some (g, c) => cut_in_turn (c_ex3 x (ex3_target o)) (ex3_idx o) (ex3_idx o') g (sc_beta c)
    end.
Proof. exact @ex3_in_turn. Qed.
Print Assumptions C122_example3.
Theorem C122_profit : forall (N : Num) (p : Profit N) y ga, profit_ok p -> two y ->
  exists p' ga' g beta b, profit_assess p y ga = Ok (p', ga', ((g, mkSingle beta), b)) /\ profit_ok p' /\ same_params p p' /\
    if b then full_turn (p_cons p y ga) (p_idx p) (p_idx p') else cut_in_turn (p_cons p y ga) (p_idx p) (p_idx p') g beta.
Proof. exact @profit_turn. Qed.
Print Assumptions C122_profit.

(** Consecutive calls, as many as there are constraints or more, at points and levels of
    any kind: a constraint violated at each of them is the cut of one of them. *)
Theorem C122_example1_rr_fair : forall (N : Num) i tr idx idx', (-1 <= idx < 3)%Z -> i < 3 -> calls ex1rr_assess idx tr idx' -> 3 <= length tr ->
  (forall (x : Arr N) ga g beta, In (x, ga, g, beta) tr -> two x /\ violated (c_ex1 x ga) i) ->
  exists (x : Arr N) ga g beta, In (x, ga, g, beta) tr /\ nth i (c_ex1 x ga) (n0, []) = (beta, adata g).
Proof. exact @ex1rr_fair. Qed.
Print Assumptions C122_example1_rr_fair.
Theorem C122_example4_fair : forall (N : Num) i tr idx idx', (-1 <= idx < 4)%Z -> i < 4 -> calls ex4_assess idx tr idx' -> 4 <= length tr ->
  (forall (x : Arr N) ga g beta, In (x, ga, g, beta) tr -> two x /\ violated (c_ex4 x ga) i) ->
  exists (x : Arr N) ga g beta, In (x, ga, g, beta) tr /\ nth i (c_ex4 x ga) (n0, []) = (beta, adata g).
Proof. exact @ex4_fair. Qed.
Print Assumptions C122_example4_fair.
Theorem C122_quasicvx_fair : forall (N : Num) i tr idx idx', (-1 <= idx < 2)%Z -> i < 2 -> calls qcvx_assess idx tr idx' -> 2 <= length tr ->
  (forall (x : Arr N) ga g beta, In (x, ga, g, beta) tr -> two x /\ violated (c_qcvx x ga) i) ->
  exists (x : Arr N) ga g beta, In (x, ga, g, beta) tr /\ nth i (c_qcvx x ga) (n0, []) = (beta, adata g).
Proof. exact @qcvx_fair. Qed.
Print Assumptions C122_quasicvx_fair.
Theorem C122_profit_fair : forall (N : Num) (p : Profit N) i tr p', profit_ok p -> i < 2 -> calls profit_assess p tr p' -> 2 <= length tr ->
  (forall (x : Arr N) ga g beta, In (x, ga, g, beta) tr -> two x /\ violated (p_cons p x ga) i) ->
  exists (x : Arr N) ga g beta, In (x, ga, g, beta) tr /\ nth i (p_cons p x ga) (n0, []) = (beta, adata g).
Proof. exact @profit_fair. Qed.
Print Assumptions C122_profit_fair.

(** The robust profit oracle, with the elasticities that are worst at the point. *)
Theorem C122_robust : forall (N : Num) (r : ProfitRb N) y ga, rb_ok r -> two y ->
  exists r' ga' g beta b, profit_rb_assess r y ga = Ok (r', ga', ((g, mkSingle beta), b)) /\ rb_ok r' /\ rb_same r r' /\
    if b then full_turn (rb_cons r y ga) (p_idx (rb_omega r)) (p_idx (rb_omega r')) else cut_in_turn (rb_cons r y ga) (p_idx (rb_omega r)) (p_idx (rb_omega r')) g beta.
Proof. exact @rb_turn. Qed.
Print Assumptions C122_robust.
Theorem C122_robust_fair : forall (N : Num) (r : ProfitRb N) i tr r', rb_ok r -> i < 2 -> calls profit_rb_assess r tr r' -> 2 <= length tr ->
  (forall (x : Arr N) ga g beta, In (x, ga, g, beta) tr -> two x /\ violated (rb_cons r x ga) i) ->
  exists (x : Arr N) ga g beta, In (x, ga, g, beta) tr /\ nth i (rb_cons r x ga) (n0, []) = (beta, adata g).
Proof. exact @rb_fair. Qed.
Print Assumptions C122_robust_fair.

(** The oracle of the quasi-convex test problem, maximise sqrt(x)/y: its three constraints in
    turn, then the level. *)
Theorem C122_quasicvx2 : forall (N : Num) idx (xc : Arr N) ga, (-1 <= idx < 3)%Z -> two xc ->
  exists idx' ga' g beta b, qc2_assess idx xc ga = Ok (idx', ga', ((g, mkSingle beta), b)) /\ (-1 <= idx' < 3)%Z /\
    (b = false /\ ga' = ga /\ cut_in_turn (c_qc2 xc) idx idx' g beta \/
     full_turn (c_qc2 xc) idx idx' /\ b = negb (n0 <?! qc2_short xc ga) /\ (b = false -> ga' = ga /\ beta = qc2_short xc ga)).
Proof. exact @qc2_turn. Qed.
Print Assumptions C122_quasicvx2.
Theorem C122_quasicvx2_fair : forall (N : Num) i tr idx idx', (-1 <= idx < 3)%Z -> i < 3 -> calls qc2_assess idx tr idx' -> 3 <= length tr ->
  (forall (x : Arr N) ga g beta, In (x, ga, g, beta) tr -> two x /\ violated (c_qc2 x) i) ->
  exists (x : Arr N) ga g beta, In (x, ga, g, beta) tr /\ nth i (c_qc2 x) (n0, []) = (beta, adata g).
Proof. exact @qc2_fair. Qed.
Print Assumptions C122_quasicvx2_fair.
Example C122_quasicvx2_case : three_calls (vec2 nm1 nm1) n0 = true.
Proof. exact three_calls_case. Qed.

(** The discrete oracle: a first try takes the constraints at the query point in turn and
    cuts with the first violated one; if none is, and on a retry at once, it goes on in turn
    at the point of whole amounts. *)
Theorem C122_discrete : forall (N : Num) (o : ProfitQ N) y ga retry, profit_ok (pq_omega o) -> two (pq_yd o) -> two y ->
  exists o' ga' g beta b x more, profit_q_assess o y ga retry = Ok (o', ga', ((g, mkSingle beta), b, x, more)) /\
    profit_ok (pq_omega o') /\ same_params (pq_omega o) (pq_omega o') /\ two (pq_yd o') /\
    ((retry = false /\ b = false /\ x = y /\ cut_in_turn (p_cons (pq_omega o) y ga) (p_idx (pq_omega o)) (p_idx (pq_omega o')) g beta) \/
     exists idx beta_d, (if retry then idx = p_idx (pq_omega o) /\ x = pq_yd o else full_turn (p_cons (pq_omega o) y ga) (p_idx (pq_omega o)) idx) /\
       in_turn (p_cons (pq_omega o) x ga) idx (p_idx (pq_omega o')) g beta_d b).
Proof. exact @q_turn. Qed.
Print Assumptions C122_discrete.
Example C122_discrete_case : let o := profit_q_new (N := FNum lm0) (nZ 20) (nZ 40) (nZ 30) (vec2 (nlit 1 (-1)) (nlit 4 (-1))) (vec2 (nZ 10) (nZ 35)) in profit_ok (pq_omega o) /\ two (pq_yd o).
Proof. exact q_ready. Qed.

(** In double arithmetic, at ln x = (5, 5) with the level 1000000 both constraints of the
    test problem are violated: the first call cuts with the limit (gradient (1, 0)), the
    second at the same point with the level. *)
Example C122_case : two_calls (profit_new (N := FNum lm0) (nZ 20) (nZ 40) (nZ 30) (vec2 (nlit 1 (-1)) (nlit 4 (-1))) (vec2 (nZ 10) (nZ 35))) (vec2 (nZ 5) (nZ 5)) (nZ 1000000) = true.
Proof. exact two_calls_case. Qed.
