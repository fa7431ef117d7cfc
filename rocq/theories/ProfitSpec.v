(** Specification of the profit oracles. *)
From Coq Require Import ZArith Reals List Bool.
From Verif Require Import Num Res Arr CuttingPlane Spec LmiSpec ExSpec Profit.
Import ListNotations.
Open Scope R_scope.

(** The problem: maximise P x0^a0 x1^a1 - p0 x0 - p1 x1 over 0 < x0 <= k, 0 < x1;
    queries are made in the variables y = ln x. *)
Record market := mkMarket { m_P : R; m_k : R; m_a : vec; m_p : vec }.
Definition profit_at (m : market) (x0 x1 : R) : R :=
  m_P m * Rpower x0 (m_a m 0%nat) * Rpower x1 (m_a m 1%nat) - (m_p m 0%nat * x0 + m_p m 1%nat * x1).
(** in the variables of the queries *)
Definition mprofit (m : market) (y0 y1 : R) : R := profit_at m (exp y0) (exp y1).
Definition mfeas (m : market) (y0 y1 : R) : Prop := exp y0 <= m_k m.
(** [m] has a positive revenue factor and limit, and prices that are not negative and not all zero *)
Definition sane (m : market) : Prop := 0 < m_P m /\ 0 < m_k m /\ 0 <= m_p m 0%nat /\ 0 <= m_p m 1%nat /\ 0 < m_p m 0%nat + m_p m 1%nat.

Definition two {N : Num} (a : Arr N) : Prop := length (adata a) = 2%nat /\ acols a = 0%nat.
(** An oracle some calls can produce: counter in range, two-element parameters. *)
Definition profit_ok {N : Num} (p : Profit N) : Prop :=
  (-1 <= p_idx p < 2)%Z /\ two (p_price_out p) /\ two (p_elast p).
(** the parameters, which no call changes *)
Definition same_params {N : Num} (p q : Profit N) : Prop :=
  p_log_p_scale q = p_log_p_scale p /\ p_log_k q = p_log_k p /\ p_price_out q = p_price_out p /\ p_elast q = p_elast p.
(** the oracle [p] is about the market [m] *)
Definition about (p : Profit RNum) (m : market) : Prop :=
  p_log_p_scale p = ln (m_P m) /\ p_log_k p = ln (m_k m) /\
  (forall i, (i < 2)%nat -> xvec (p_price_out p) i = m_p m i /\ xvec (p_elast p) i = m_a m i).

(** The values the code computes at [y], for any number type. *)
Section Values.
Context {N : Num}.
Variables (p : Profit N) (y : Arr N).
Definition at_ (a : Arr N) (i : nat) : N := nth i (adata a) n0.
Definition v_log_cobb : N := p_log_p_scale p +! (nsum0 +! at_ (p_elast p) 0 *! at_ y 0 +! at_ (p_elast p) 1 *! at_ y 1).
Definition v_vx : N := at_ (p_price_out p) 0 *! nexp (at_ y 0) +! at_ (p_price_out p) 1 *! nexp (at_ y 1).
Definition v_tests (gamma : N) : list N := [at_ y 0 -! p_log_k p; nln (gamma +! v_vx) -! v_log_cobb].
Definition v_profit : N := nexp v_log_cobb -! v_vx.
End Values.

(** *** The robust problem: the data are only known up to a box. *)
Record box := mkBox { b_P : R; b_k : R; b_p : vec;   (* the worst price factor, limit and costs *)
                      b_a : vec; b_u : vec }.         (* elasticities and their uncertainties *)
Definition in_box (b : box) (m : market) : Prop :=
  b_P b <= m_P m /\ b_k b <= m_k m /\
  forall i, (i < 2)%nat -> m_p m i <= b_p b i /\ b_a b i - b_u b i <= m_a m i <= b_a b i + b_u b i.
Definition box_sane (b : box) : Prop :=
  0 < b_P b /\ 0 < b_k b /\ 0 <= b_p b 0%nat /\ 0 <= b_p b 1%nat /\ 0 < b_p b 0%nat + b_p b 1%nat /\
  0 <= b_u b 0%nat /\ 0 <= b_u b 1%nat.
(** feasible with profit at least t whatever the data are *)
Definition robust (b : box) (t y0 y1 : R) : Prop := forall m, in_box b m -> mfeas m y0 y1 /\ t <= mprofit m y0 y1.
Definition rb_ok {N : Num} (r : ProfitRb N) : Prop := profit_ok (rb_omega r) /\ two (rb_elast r).
Definition rb_about (r : ProfitRb RNum) (b : box) : Prop :=
  p_log_p_scale (rb_omega r) = ln (b_P b) /\ p_log_k (rb_omega r) = ln (b_k b) /\
  (forall i, (i < 2)%nat -> xvec (p_price_out (rb_omega r)) i = b_p b i /\ xvec (rb_elast r) i = b_a b i) /\
  fst (rb_uie r) = b_u b 0%nat /\ snd (rb_uie r) = b_u b 1%nat.

(** *** The quantised problem *)
(** the exponentials of [y] are positive integers *)
Definition int_point (y : Arr RNum) : Prop := forall i, (i < 2)%nat -> exists z : Z, (1 <= z)%Z /\ xvec y i = ln (IZR z).
Definition q_ok (o : ProfitQ RNum) : Prop := profit_ok (pq_omega o) /\ two (pq_yd o) /\ int_point (pq_yd o).
(** e^y rounded half away from zero, but at least 1 *)
Definition nearest_int (v : R) (z : Z) : Prop :=
  (1 <= z)%Z /\ (Rabs (IZR z - v) <= 1 / 2 \/ (v <= 1 / 2 /\ z = 1%Z)).
(** the profit [f] is at least the level [gamma], which may be infinite *)
Definition reaches (gamma : ext) (f : R) : Prop := match gamma with Fin r => r <= f | NInf => True | PInf | Nan => False end.
