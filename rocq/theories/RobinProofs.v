(** Oracles that take their constraints in turn (C122). *)
From Coq Require Import ZArith Reals List Bool Arith Lia.
From Verif Require Import Num Res Arr CuttingPlane Spec EllReal LmiSpec Examples ExSpec ExProofs Profit ProfitSpec ProfitProofs ProfitMore Qcvx2 RobinSpec.
Import ListNotations.
Open Scope nat_scope.

Section Any.
Context {N : Num}.
Ltac skipped := intros j Hj; do 4 (destruct j as [|j]; [first [exfalso; lia|assumption]|]); exfalso; lia.
Ltac at_k k := exists k; split; [cbn; lia|]; split; [reflexivity|]; split; [reflexivity|]; split; [first [assumption|reflexivity]|skipped].
Ltac rej := split; [lia|]; first [at_k 1|at_k 2|at_k 3|at_k 4].
Ltac acc := split; [lia|]; split; [reflexivity|]; intros i Hi2; do 3 try (destruct i as [|i]; [assumption|]); try (destruct i as [|i]; [assumption|]); cbn [length] in Hi2; exfalso; lia.
Ltac rr := cbn -[nadd nsub nopp nmul ndiv nexp nZ n0 n1 n2 nltb]; ifs; do 5 eexists; (split; [reflexivity|]); first [rej|acc].

Lemma ex1rr_turn idx (xc : Arr N) ga x y : (-1 <= idx < 3)%Z -> a_idx xc 0 = Ok x -> a_idx xc 1 = Ok y ->
  exists idx' ga' g beta b, ex1rr_assess idx xc ga = Ok (idx', ga', ((g, mkSingle beta), b)) /\ (-1 <= idx' < 3)%Z /\
    if b then full_turn [(x +! y -! nZ 3, [n1; n1]); (-! x +! y +! n1, [nm1; n1]); (ga -! (x +! y), [nm1; nm1])] idx idx'
    else cut_in_turn [(x +! y -! nZ 3, [n1; n1]); (-! x +! y +! n1, [nm1; n1]); (ga -! (x +! y), [nm1; nm1])] idx idx' g beta.
Proof.
  intros Hi Hx Hy. unfold ex1rr_assess. rewrite Hx, Hy. cbn [bind]. unfold round_robin, loop_range. idx_cases Hi; rr.
Qed.
Lemma ex4_turn idx (xc : Arr N) ga x y : (-1 <= idx < 4)%Z -> a_idx xc 0 = Ok x -> a_idx xc 1 = Ok y ->
  exists idx' ga' g beta b, ex4_assess idx xc ga = Ok (idx', ga', ((g, mkSingle beta), b)) /\ (-1 <= idx' < 4)%Z /\
    if b then full_turn [(-! x -! n1, [nm1; n0]); (-! y -! n2, [n0; nm1]); (x +! y -! n1, [n1; n1]); (ga -! (n2 *! x -! nZ 3 *! y), [-! n2; nZ 3])] idx idx'
    else cut_in_turn [(-! x -! n1, [nm1; n0]); (-! y -! n2, [n0; nm1]); (x +! y -! n1, [n1; n1]); (ga -! (n2 *! x -! nZ 3 *! y), [-! n2; nZ 3])] idx idx' g beta.
Proof.
  intros Hi Hx Hy. unfold ex4_assess. rewrite Hx, Hy. cbn [bind]. unfold round_robin, loop_range. idx_cases Hi; rr.
Qed.
Lemma qcvx_turn idx (xc : Arr N) ga s l : (-1 <= idx < 2)%Z -> a_idx xc 0 = Ok s -> a_idx xc 1 = Ok l ->
  exists idx' ga' g beta b, qcvx_assess idx xc ga = Ok (idx', ga', ((g, mkSingle beta), b)) /\ (-1 <= idx' < 2)%Z /\
    if b then full_turn [(s *! s -! l, [n2 *! s; nm1]); (-! s +! ga *! nexp l, [nm1; ga *! nexp l])] idx idx'
    else cut_in_turn [(s *! s -! l, [n2 *! s; nm1]); (-! s +! ga *! nexp l, [nm1; ga *! nexp l])] idx idx' g beta.
Proof.
  intros Hi Hx Hy. unfold qcvx_assess. rewrite Hx, Hy. cbn [bind]. unfold round_robin, loop_range. idx_cases Hi; rr.
Qed.
Lemma ex3_turn (o : Ex3 N) (xc : Arr N) x y : (-1 <= ex3_idx o < 4)%Z -> a_idx xc 0 = Ok x -> a_idx xc 1 = Ok y ->
  exists o' r, ex3_assess o xc = Ok (o', r) /\ (-1 <= ex3_idx o' < 4)%Z /\ ex3_target o' = ex3_target o /\
    match r with
    | None => full_turn [(-! x -! n1, [nm1; n0]); (-! y -! n2, [n0; nm1]); (x +! y -! n1, [n1; n1]); (n2 *! x -! nZ 3 *! y -! ex3_target o, [n2; -! nZ 3])] (ex3_idx o) (ex3_idx o')
    | Some (g, c) => cut_in_turn [(-! x -! n1, [nm1; n0]); (-! y -! n2, [n0; nm1]); (x +! y -! n1, [n1; n1]); (n2 *! x -! nZ 3 *! y -! ex3_target o, [n2; -! nZ 3])] (ex3_idx o) (ex3_idx o') g (sc_beta c)
    end.
Proof.
  intros Hi Hx Hy. unfold ex3_assess. rewrite Hx, Hy. cbn [bind]. unfold round_robin, loop_range. destruct o as [idx tg]. cbn [ex3_idx ex3_target] in *.
  idx_cases Hi; cbn -[nadd nsub nopp nmul nZ n0 n1 n2 nltb]; ifs; do 2 eexists; (split; [reflexivity|]); (split; [cbn [ex3_idx]; lia|]); (split; [reflexivity|]); cbn [ex3_idx];
  first [at_k 1|at_k 2|at_k 3|at_k 4|split; [reflexivity|]; intros i Hi2; do 4 (destruct i as [|i]; [assumption|]); cbn [length] in Hi2; exfalso; lia].
Qed.
Lemma profit_turn (p : Profit N) y ga : profit_ok p -> two y ->
  exists p' ga' g beta b, profit_assess p y ga = Ok (p', ga', ((g, mkSingle beta), b)) /\ profit_ok p' /\ same_params p p' /\
    if b then full_turn (p_cons p y ga) (p_idx p) (p_idx p') else cut_in_turn (p_cons p y ga) (p_idx p) (p_idx p') g beta.
Proof.
  destruct p as [idx lps lk po el lc vx q]. intros (Hi & Hpo & Hel) Hy. cbn in Hi, Hpo, Hel.
  apply two_inv in Hpo as (p0 & p1 & rp & ->). apply two_inv in Hel as (a0 & a1 & ra & ->). apply two_inv in Hy as (u & v & ry & ->).
  unfold profit_assess, profit_feas, round_robin, loop_range. cbn [p_idx].
  assert (T2 : forall a b r, two (N := N) (mkArr [a; b] r 0)) by (intros; split; reflexivity).
  idx_cases Hi; pdc; pifs; do 5 eexists; (split; [reflexivity|]);
  (split; [split; [cbn; lia | split; apply T2]|]); (split; [repeat split|]); cbn [p_idx];
  first [at_k 1|at_k 2|split; [reflexivity|]; intros i Hi2; do 2 (destruct i as [|i]; [assumption|]); cbn [length p_cons] in Hi2; exfalso; lia].
Qed.

(** ** Fairness *)
Lemma turn_reach m idx i : (-1 <= idx < Z.of_nat m)%Z -> i < m -> exists d, 1 <= d <= m /\ Z.to_nat ((idx + Z.of_nat d) mod Z.of_nat m) = i.
Proof.
  intros H Hi. destruct (Z_le_gt_dec (Z.of_nat i) idx) as [L|L].
  - exists (Z.to_nat (Z.of_nat i - idx + Z.of_nat m)). split; [lia|]. rewrite Z2Nat.id by lia. replace (idx + (Z.of_nat i - idx + Z.of_nat m))%Z with (Z.of_nat i + 1 * Z.of_nat m)%Z by ring. rewrite Z.mod_add, Z.mod_small by lia. lia.
  - exists (Z.to_nat (Z.of_nat i - idx)). split; [lia|]. rewrite Z2Nat.id by lia. replace (idx + (Z.of_nat i - idx))%Z with (Z.of_nat i) by ring. rewrite Z.mod_small by lia. lia.
Qed.
Lemma turn_on m idx k d : 0 < m -> k <= d -> Z.to_nat ((Z.of_nat (Z.to_nat ((idx + Z.of_nat k) mod Z.of_nat m)) + Z.of_nat (d - k)) mod Z.of_nat m) = Z.to_nat ((idx + Z.of_nat d) mod Z.of_nat m).
Proof.
  intros Hm H. pose proof (Z.mod_pos_bound (idx + Z.of_nat k) (Z.of_nat m) ltac:(lia)). rewrite Z2Nat.id by lia. rewrite Z.add_mod_idemp_l by lia. f_equal. f_equal. lia.
Qed.
Section Fair.
Context {O : Type} (assess : O -> Arr N -> N -> res (O * N * ((Arr N * SingleCut N) * bool))) (inv : O -> Prop) (dom : Arr N -> Prop) (ix : O -> Z) (tst : Arr N -> N -> list (con N)) (m : nat).
Hypothesis Hm : forall x ga, length (tst x ga) = m.
Hypothesis H0 : forall o, inv o -> (-1 <= ix o < Z.of_nat m)%Z.
Hypothesis Hs : forall o x ga, inv o -> dom x -> exists o' ga' g beta b, assess o x ga = Ok (o', ga', ((g, mkSingle beta), b)) /\ inv o' /\
  (full_turn (tst x ga) (ix o) (ix o') \/ cut_in_turn (tst x ga) (ix o) (ix o') g beta).
Lemma fair_d i tr : i < m -> forall o o2 d, calls assess o tr o2 -> inv o -> 1 <= d <= length tr -> Z.to_nat ((ix o + Z.of_nat d) mod Z.of_nat m) = i ->
  (forall x ga g beta, In (x, ga, g, beta) tr -> dom x /\ violated (tst x ga) i) ->
  exists x ga g beta, In (x, ga, g, beta) tr /\ nth i (tst x ga) (n0, []) = (beta, adata g).
Proof.
  intros Hi. induction tr as [|[[[x ga] g] beta] tr IH]; intros o o2 d Hc Io Hd Ht Hv; [cbn in Hd; lia|].
  assert (CC : exists o1 ga1 b1, assess o x ga = Ok (o1, ga1, ((g, mkSingle beta), b1)) /\ calls assess o1 tr o2) by (inversion Hc; subst; eauto).
  clear - CC IH Io Hd Ht Hv Hs Hm Hi H0. destruct CC as (o1 & ga1 & b1 & Ea & Ec). destruct (Hv x ga g beta (or_introl eq_refl)) as [Dx Vx].
  destruct (Hs o x ga Io Dx) as (o' & ga' & g' & beta' & b' & E & Io' & T).
  assert (EQ := eq_trans (eq_sym Ea) E). injection EQ as -> -> -> -> ->. rewrite <- Ht in Vx.
  destruct T as [T|T].
  { destruct T as [_ T]. specialize (T i). rewrite (Hm x ga) in T. specialize (T Hi). rewrite Ht in Vx. unfold violated, holds in *. congruence. }
  destruct T as (k & Hk & Ek & Cut & _ & Sk). unfold turn in *. rewrite (Hm x ga) in *.
  destruct (le_lt_dec d k) as [L|L].
  - destruct (Nat.eq_dec k d) as [->|Ne].
    + exists x, ga, g', beta'. split; [left; reflexivity|]. rewrite <- Ht. exact Cut.
    + specialize (Sk d ltac:(lia)). unfold violated, holds in *. congruence.
  - destruct (IH o' o2 (d - k)) as (x2 & ga2 & g2 & b2 & I2 & C2); auto.
    + cbn [length] in Hd. lia.
    + rewrite Ek, turn_on by lia. exact Ht.
    + intros x3 ga3 g3 b3 I3. apply (Hv x3 ga3 g3 b3). right. exact I3.
    + exists x2, ga2, g2, b2. split; [right; exact I2|exact C2].
Qed.
Lemma fair_or i tr o o2 : i < m -> calls assess o tr o2 -> inv o -> m <= length tr ->
  (forall x ga g beta, In (x, ga, g, beta) tr -> dom x /\ violated (tst x ga) i) ->
  exists x ga g beta, In (x, ga, g, beta) tr /\ nth i (tst x ga) (n0, []) = (beta, adata g).
Proof.
  intros Hi Hc Io Hl Hv. destruct (turn_reach m (ix o) i (H0 o Io) Hi) as (d & Hd & E). apply (fair_d i tr Hi o o2 d Hc Io ltac:(lia) E Hv).
Qed.
End Fair.
Lemma fair {O} (assess : O -> Arr N -> N -> res (O * N * ((Arr N * SingleCut N) * bool))) (inv : O -> Prop) (dom : Arr N -> Prop) (ix : O -> Z) (tst : Arr N -> N -> list (con N)) (m : nat) :
  (forall x ga, length (tst x ga) = m) -> (forall o, inv o -> (-1 <= ix o < Z.of_nat m)%Z) ->
  (forall o x ga, inv o -> dom x -> exists o' ga' g beta b, assess o x ga = Ok (o', ga', ((g, mkSingle beta), b)) /\ inv o' /\
    if b then full_turn (tst x ga) (ix o) (ix o') else cut_in_turn (tst x ga) (ix o) (ix o') g beta) ->
  forall i tr o o2, i < m -> calls assess o tr o2 -> inv o -> m <= length tr ->
  (forall x ga g beta, In (x, ga, g, beta) tr -> dom x /\ violated (tst x ga) i) ->
  exists x ga g beta, In (x, ga, g, beta) tr /\ nth i (tst x ga) (n0, []) = (beta, adata g).
Proof.
  intros Hm H0 Hs. apply (fair_or assess inv dom ix tst m Hm H0). intros o x ga Io Dx. destruct (Hs o x ga Io Dx) as (o' & ga' & g & beta & b & E & I' & T).
  exists o', ga', g, beta, b. split; [exact E|]. split; [exact I'|]. destruct b; [left|right]; exact T.
Qed.

Lemma two_at (x : Arr N) : two x -> a_idx x 0 = Ok (at_ x 0) /\ a_idx x 1 = Ok (at_ x 1).
Proof. intros H. apply two_inv in H as (u & v & r & ->). split; reflexivity. Qed.
Lemma ex1rr_fair i (tr : list (Arr N * N * Arr N * N)) idx idx' : (-1 <= idx < 3)%Z -> i < 3 -> calls ex1rr_assess idx tr idx' -> 3 <= length tr ->
  (forall (x : Arr N) ga g beta, In (x, ga, g, beta) tr -> two x /\ violated (c_ex1 x ga) i) ->
  exists (x : Arr N) ga g beta, In (x, ga, g, beta) tr /\ nth i (c_ex1 x ga) (n0, []) = (beta, adata g).
Proof.
  intros Hi H Hc Hl Hv. refine (fair ex1rr_assess (fun i => (-1 <= i < 3)%Z) two (fun i => i) c_ex1 3 _ _ _ i tr idx idx' H Hc Hi Hl Hv); auto.
  intros o x ga Ho Hx. destruct (two_at x Hx) as [A B]. exact (ex1rr_turn o x ga _ _ Ho A B).
Qed.
Lemma ex4_fair i (tr : list (Arr N * N * Arr N * N)) idx idx' : (-1 <= idx < 4)%Z -> i < 4 -> calls ex4_assess idx tr idx' -> 4 <= length tr ->
  (forall (x : Arr N) ga g beta, In (x, ga, g, beta) tr -> two x /\ violated (c_ex4 x ga) i) ->
  exists (x : Arr N) ga g beta, In (x, ga, g, beta) tr /\ nth i (c_ex4 x ga) (n0, []) = (beta, adata g).
Proof.
  intros Hi H Hc Hl Hv. refine (fair ex4_assess (fun i => (-1 <= i < 4)%Z) two (fun i => i) c_ex4 4 _ _ _ i tr idx idx' H Hc Hi Hl Hv); auto.
  intros o x ga Ho Hx. destruct (two_at x Hx) as [A B]. exact (ex4_turn o x ga _ _ Ho A B).
Qed.
Lemma qcvx_fair i (tr : list (Arr N * N * Arr N * N)) idx idx' : (-1 <= idx < 2)%Z -> i < 2 -> calls qcvx_assess idx tr idx' -> 2 <= length tr ->
  (forall (x : Arr N) ga g beta, In (x, ga, g, beta) tr -> two x /\ violated (c_qcvx x ga) i) ->
  exists (x : Arr N) ga g beta, In (x, ga, g, beta) tr /\ nth i (c_qcvx x ga) (n0, []) = (beta, adata g).
Proof.
  intros Hi H Hc Hl Hv. refine (fair qcvx_assess (fun i => (-1 <= i < 2)%Z) two (fun i => i) c_qcvx 2 _ _ _ i tr idx idx' H Hc Hi Hl Hv); auto.
  intros o x ga Ho Hx. destruct (two_at x Hx) as [A B]. exact (qcvx_turn o x ga _ _ Ho A B).
Qed.
Lemma p_cons_same (p q : Profit N) y ga : same_params p q -> p_cons q y ga = p_cons p y ga.
Proof. intros (A & B & C & D). unfold p_cons, v_vx, v_log_cobb. now rewrite A, B, C, D. Qed.
Lemma profit_fair (p : Profit N) i tr p' : profit_ok p -> i < 2 -> calls profit_assess p tr p' -> 2 <= length tr ->
  (forall (x : Arr N) ga g beta, In (x, ga, g, beta) tr -> two x /\ violated (p_cons p x ga) i) ->
  exists (x : Arr N) ga g beta, In (x, ga, g, beta) tr /\ nth i (p_cons p x ga) (n0, []) = (beta, adata g).
Proof.
  intros Hp H Hc Hl Hv. refine (fair profit_assess (fun q => profit_ok q /\ same_params p q) two p_idx (p_cons p) 2 _ _ _ i tr p p' H Hc _ Hl Hv); auto.
  - intros o [Ho _]. apply Ho.
  - intros o x ga [Ho So] Hx. destruct (profit_turn o x ga Ho Hx) as (o' & ga' & g & beta & b & E & O' & S' & T). do 5 eexists. split; [exact E|]. split.
    + split; [exact O'|]. destruct So as (A & B & C & D), S' as (A' & B' & C' & D'). repeat split; congruence.
    + rewrite (p_cons_same p o x ga So) in T. exact T.
  - split; [exact Hp|]. repeat split.
Qed.

(** the oracle of quasicvx2_tests.rs *)
Lemma qc2_turn idx (xc : Arr N) ga : (-1 <= idx < 3)%Z -> two xc ->
  exists idx' ga' g beta b, qc2_assess idx xc ga = Ok (idx', ga', ((g, mkSingle beta), b)) /\ (-1 <= idx' < 3)%Z /\
    (b = false /\ ga' = ga /\ cut_in_turn (c_qc2 xc) idx idx' g beta \/
     full_turn (c_qc2 xc) idx idx' /\ b = negb (n0 <?! qc2_short xc ga) /\ (b = false -> ga' = ga /\ beta = qc2_short xc ga)).
Proof.
  intros Hi Hx. apply two_inv in Hx as (x & y & r & ->). unfold qc2_assess, c_qc2, qc2_short, at_. unfold round_robin, loop_range.
  idx_cases Hi; cbn -[nadd nsub nopp nmul ndiv nexp nsqrt nhalf nZ n0 n1 n2 nltb full_turn cut_in_turn]; ifs; do 5 eexists; (split; [reflexivity|]); (split; [lia|]);
    first [left; split; [reflexivity|]; split; [reflexivity|]; first [at_k 1|at_k 2|at_k 3]
          |right; split; [split; [reflexivity|]; intros i Hi2; do 3 (destruct i as [|i]; [assumption|]); cbn [length] in Hi2; exfalso; lia|]; split; [first [reflexivity|match goal with H : ?a = _ |- context [?a] => rewrite H; reflexivity end]|]; first [discriminate|intros _; split; reflexivity]].
Qed.
Lemma qc2_fair i (tr : list (Arr N * N * Arr N * N)) idx idx' : (-1 <= idx < 3)%Z -> i < 3 -> calls qc2_assess idx tr idx' -> 3 <= length tr ->
  (forall (x : Arr N) ga g beta, In (x, ga, g, beta) tr -> two x /\ violated (c_qc2 x) i) ->
  exists (x : Arr N) ga g beta, In (x, ga, g, beta) tr /\ nth i (c_qc2 x) (n0, []) = (beta, adata g).
Proof.
  intros Hi H Hc Hl Hv. refine (fair_or qc2_assess (fun i => (-1 <= i < 3)%Z) two (fun i => i) (fun x _ => c_qc2 x) 3 _ _ _ i tr idx idx' H Hc Hi Hl Hv); auto.
  intros o x ga Ho Hx. destruct (qc2_turn o x ga Ho Hx) as (o' & ga' & g & beta & b & E & I' & T). exists o', ga', g, beta, b. split; [exact E|]. split; [exact I'|]. destruct T as [(_ & _ & T)|(T & _)]; [right|left]; exact T.
Qed.

(** the robust profit oracle *)
Lemma rb_cons_same (r r' : ProfitRb N) y ga : rb_same r r' -> rb_cons r' y ga = rb_cons r y ga.
Proof. intros (A & B & C & D & E). unfold rb_cons, worst_elast, p_cons, v_vx, v_log_cobb. cbn [set_elast p_log_k p_price_out p_elast p_log_p_scale]. now rewrite A, B, C, D, E. Qed.
Lemma rb_turn (r : ProfitRb N) y ga : rb_ok r -> two y ->
  exists r' ga' g beta b, profit_rb_assess r y ga = Ok (r', ga', ((g, mkSingle beta), b)) /\ rb_ok r' /\ rb_same r r' /\
    if b then full_turn (rb_cons r y ga) (p_idx (rb_omega r)) (p_idx (rb_omega r')) else cut_in_turn (rb_cons r y ga) (p_idx (rb_omega r)) (p_idx (rb_omega r')) g beta.
Proof.
  intros Hr Hy. destruct (rb_elast_ok r y Hr Hy) as (a & E & Ta & Va). unfold profit_rb_assess. rewrite E. cbn [bind].
  assert (Ok' : profit_ok (set_elast (rb_omega r) a)) by (destruct Hr as [(P1 & P2 & _) _]; repeat split; cbn; auto; apply P1 || apply P2 || apply Ta).
  destruct (profit_turn (set_elast (rb_omega r) a) y ga Ok' Hy) as (p' & ga' & g & beta & b & E2 & O' & (S1 & S2 & S3 & S4) & T). rewrite E2. cbn [bind].
  assert (EC : p_cons (set_elast (rb_omega r) a) y ga = rb_cons r y ga).
  { unfold rb_cons, p_cons, v_vx, v_log_cobb. cbn [set_elast p_log_k p_price_out p_elast p_log_p_scale]. rewrite (Va 0), (Va 1) by lia. reflexivity. }
  rewrite EC in T. exists (mkProfitRb (rb_uie r) p' (rb_elast r)), ga', g, beta, b. split; [reflexivity|]. split; [split; [exact O'|apply Hr]|]. split; [repeat split; auto|exact T].
Qed.
Lemma rb_fair (r : ProfitRb N) i tr r' : rb_ok r -> i < 2 -> calls profit_rb_assess r tr r' -> 2 <= length tr ->
  (forall (x : Arr N) ga g beta, In (x, ga, g, beta) tr -> two x /\ violated (rb_cons r x ga) i) ->
  exists (x : Arr N) ga g beta, In (x, ga, g, beta) tr /\ nth i (rb_cons r x ga) (n0, []) = (beta, adata g).
Proof.
  intros Hp H Hc Hl Hv. refine (fair profit_rb_assess (fun q => rb_ok q /\ rb_same r q) two (fun q => p_idx (rb_omega q)) (rb_cons r) 2 _ _ _ i tr r r' H Hc _ Hl Hv); auto.
  - intros o [[Ho _] _]. apply Ho.
  - intros o x ga [Ho So] Hx. destruct (rb_turn o x ga Ho Hx) as (o' & ga' & g & beta & b & E & O' & S' & T). do 5 eexists. split; [exact E|]. split.
    + split; [exact O'|]. destruct So as (A & B & C & D & F), S' as (A' & B' & C' & D' & F'). repeat split; congruence.
    + rewrite (rb_cons_same r o x ga So) in T. exact T.
  - split; [exact Hp|]. repeat split.
Qed.

(** the discrete profit oracle *)
Lemma q_round_two (y : Arr N) : two y -> exists x, profit_q_round y = Ok x /\ two x.
Proof.
  intros Hy. apply two_inv in Hy as (y0 & y1 & ry & ->). unfold profit_q_round, a_map, a_mapd, a_idx, a_setidx, rd, wr. cbn.
  destruct (neqb (nround (nexp y0)) n0); cbn; destruct (neqb (nround (nexp y1)) n0); eexists; (split; [reflexivity|split; reflexivity]).
Qed.
Lemma q_tail_turn (p : Profit N) (x y : Arr N) ga : profit_ok p -> two x -> two y ->
  exists p' ga' g beta b d gd, profit_assess p x ga = Ok (p', ga', ((g, mkSingle beta), b)) /\ a_sub x y = Ok d /\ a_dot g d = Ok gd /\ profit_ok p' /\ same_params p p' /\ in_turn (p_cons p x ga) (p_idx p) (p_idx p') g beta b.
Proof.
  intros Hp Hx Hy. destruct (profit_turn p x ga Hp Hx) as (p' & ga' & g & beta & b & E & O' & S' & T). destruct (profit_assess_ok p x ga Hp Hx) as (p2 & ga2 & g2 & beta2 & b2 & E2 & _ & _ & Tg & _). assert (EQ := eq_trans (eq_sym E) E2). injection EQ as <- <- <- <- <-.
  apply two_inv in Hx as (x0 & x1 & rx & ->). apply two_inv in Hy as (y0 & y1 & ry & ->). apply two_inv in Tg as (g0 & g1 & rg & ->).
  do 7 eexists. split; [exact E|]. split; [reflexivity|]. split; [reflexivity|]. split; [exact O'|]. split; [exact S'|exact T].
Qed.
Lemma q_turn (o : ProfitQ N) y ga retry : profit_ok (pq_omega o) -> two (pq_yd o) -> two y ->
  exists o' ga' g beta b x more, profit_q_assess o y ga retry = Ok (o', ga', ((g, mkSingle beta), b, x, more)) /\
    profit_ok (pq_omega o') /\ same_params (pq_omega o) (pq_omega o') /\ two (pq_yd o') /\ 
    ((retry = false /\ b = false /\ x = y /\ cut_in_turn (p_cons (pq_omega o) y ga) (p_idx (pq_omega o)) (p_idx (pq_omega o')) g beta) \/
     exists idx beta_d, (if retry then idx = p_idx (pq_omega o) /\ x = pq_yd o else full_turn (p_cons (pq_omega o) y ga) (p_idx (pq_omega o)) idx) /\
       in_turn (p_cons (pq_omega o) x ga) idx (p_idx (pq_omega o')) g beta_d b).
Proof.
  intros Hp Hyd Hy. unfold profit_q_assess. destruct retry; cbn [negb].
  - destruct (q_tail_turn (pq_omega o) (pq_yd o) y ga Hp Hyd Hy) as (p' & ga' & g & beta & b & d & gd & E & E1 & E2 & O' & S' & T). rewrite E. cbn [bind]. rewrite E1. cbn [bind]. rewrite E2. cbn [bind].
    do 7 eexists. split; [reflexivity|]. split; [exact O'|]. split; [exact S'|]. split; [exact Hyd|]. right. exists (p_idx (pq_omega o)), beta. split; [split; reflexivity|exact T].
  - destruct (profit_turn (pq_omega o) y ga Hp Hy) as (p1 & ga1 & g1 & beta1 & b1 & E & O1 & S1 & T1). unfold profit_assess in E. destruct (profit_feas (pq_omega o) y ga) as [[p' [[g fj]|]]|] eqn:EF; cbn [bind] in E; [| |discriminate].
    + injection E as <- <- <- <- <-. cbn [bind]. do 7 eexists. split; [reflexivity|]. split; [exact O1|]. split; [exact S1|]. split; [exact Hyd|]. left. do 3 (split; [reflexivity|]). exact T1.
    + apply bind_inv in E as (gg & _ & E). injection E as <- <- <- <- <-. cbn [bind].
      destruct (q_round_two y Hy) as (x & Ex & Hx). rewrite Ex. cbn [bind pq_omega pq_yd].
      destruct (q_tail_turn p' x y ga O1 Hx Hy) as (p2 & ga' & g & beta & b & d & gd & E & E1 & E2 & O' & S' & T). rewrite E. cbn [bind]. rewrite E1. cbn [bind]. rewrite E2. cbn [bind].
      do 7 eexists. split; [reflexivity|]. cbn [pq_omega pq_yd]. split; [exact O'|]. split; [destruct S1 as (A & B & C & D), S' as (A' & B' & C' & D'); repeat split; congruence|]. split; [exact Hx|]. right. exists (p_idx p'), beta. split; [exact T1|]. rewrite (p_cons_same _ _ _ _ S1) in T. exact T.
Qed.

(** ** one call, in the terms of RobinSpec.v *)
Lemma ex1rr_in_turn idx (x : Arr N) ga : (-1 <= idx < 3)%Z -> two x ->
  exists idx' ga' g beta b, ex1rr_assess idx x ga = Ok (idx', ga', ((g, mkSingle beta), b)) /\ (-1 <= idx' < 3)%Z /\
    if b then full_turn (c_ex1 x ga) idx idx' else cut_in_turn (c_ex1 x ga) idx idx' g beta.
Proof. intros H Hx. destruct (two_at x Hx) as [A B]. exact (ex1rr_turn idx x ga _ _ H A B). Qed.
Lemma ex4_in_turn idx (x : Arr N) ga : (-1 <= idx < 4)%Z -> two x ->
  exists idx' ga' g beta b, ex4_assess idx x ga = Ok (idx', ga', ((g, mkSingle beta), b)) /\ (-1 <= idx' < 4)%Z /\
    if b then full_turn (c_ex4 x ga) idx idx' else cut_in_turn (c_ex4 x ga) idx idx' g beta.
Proof. intros H Hx. destruct (two_at x Hx) as [A B]. exact (ex4_turn idx x ga _ _ H A B). Qed.
Lemma qcvx_in_turn idx (x : Arr N) ga : (-1 <= idx < 2)%Z -> two x ->
  exists idx' ga' g beta b, qcvx_assess idx x ga = Ok (idx', ga', ((g, mkSingle beta), b)) /\ (-1 <= idx' < 2)%Z /\
    if b then full_turn (c_qcvx x ga) idx idx' else cut_in_turn (c_qcvx x ga) idx idx' g beta.
Proof. intros H Hx. destruct (two_at x Hx) as [A B]. exact (qcvx_turn idx x ga _ _ H A B). Qed.
Lemma ex3_in_turn (o : Ex3 N) (x : Arr N) : (-1 <= ex3_idx o < 4)%Z -> two x ->
  exists o' r, ex3_assess o x = Ok (o', r) /\ (-1 <= ex3_idx o' < 4)%Z /\ ex3_target o' = ex3_target o /\
    match r with
    | None => full_turn (c_ex3 x (ex3_target o)) (ex3_idx o) (ex3_idx o')
    | Some (g, c) => cut_in_turn (c_ex3 x (ex3_target o)) (ex3_idx o) (ex3_idx o') g (sc_beta c)
    end.
Proof. intros H Hx. destruct (two_at x Hx) as [A B]. exact (ex3_turn o x _ _ H A B). Qed.
End Any.

(** a run in binary64: both constraints of the profit oracle violated, cut one after the other *)
Definition two_calls (p : Profit (FNum lm0)) (y : Arr (FNum lm0)) (ga : FNum lm0) : bool :=
  match profit_assess p y ga with
  | Ok (p1, _, ((g1, _), false)) =>
      match profit_assess p1 y ga with
      | Ok (_, _, ((g2, _), false)) => neqb (at_ g1 1) n0 && negb (neqb (at_ g2 1) n0)
      | _ => false end
  | _ => false end.
Lemma two_calls_case : two_calls (profit_new (N := FNum lm0) (nZ 20) (nZ 40) (nZ 30) (vec2 (nlit 1 (-1)) (nlit 4 (-1))) (vec2 (nZ 10) (nZ 35))) (vec2 (nZ 5) (nZ 5)) (nZ 1000000) = true.
Proof. vm_compute. reflexivity. Qed.
(** three calls at the point (-1, -1), where all three constraints of quasicvx2 are violated *)
Definition three_calls (xc : Arr (FNum lm0)) (ga : FNum lm0) : bool :=
  match qc2_assess (-1) xc ga with
  | Ok (i1, _, ((g1, _), false)) =>
      match qc2_assess i1 xc ga with
      | Ok (i2, _, ((g2, _), false)) =>
          match qc2_assess i2 xc ga with
          | Ok (_, _, ((g3, _), false)) => nltb n0 (at_ g1 0) && neqb (at_ g2 0) n0 && neqb (at_ g2 1) nm1 && neqb (at_ g3 0) nm1 && neqb (at_ g3 1) n0
          | _ => false end
      | _ => false end
  | _ => false end.
Lemma three_calls_case : three_calls (vec2 nm1 nm1) n0 = true.
Proof. vm_compute. reflexivity. Qed.
Lemma q_ready : let o := profit_q_new (N := FNum lm0) (nZ 20) (nZ 40) (nZ 30) (vec2 (nlit 1 (-1)) (nlit 4 (-1))) (vec2 (nZ 10) (nZ 35)) in profit_ok (pq_omega o) /\ two (pq_yd o).
Proof. intros o. split; [|split; reflexivity]. split; [cbn; lia|]. split; split; reflexivity. Qed.
