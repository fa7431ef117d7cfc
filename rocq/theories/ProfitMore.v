(** The robust and the quantised profit oracle. *)
From Coq Require Import ZArith Reals List Bool Arith Lia Lra Psatz.
From Flocq Require Import Core.
From Verif Require Import Num Res Arr CuttingPlane Spec EllReal LdltProofs LmiSpec Examples ExSpec ExProofs Profit ProfitSpec ProfitProofs ProfitReal.
Import ListNotations.
Open Scope R_scope.

Lemma profit_new_about unit_price scale limit (elast price_out : Arr RNum) :
  about (profit_new (N := RNum) unit_price scale limit elast price_out) (mkMarket (unit_price * scale) limit (xvec elast) (xvec price_out)).
Proof. repeat split. Qed.

(** ** robust *)
Definition worst (a u y : vec) : vec := fun i => if Rlt_bool 0 (y i) then a i - u i else a i + u i.
Definition worst_market (b : box) (y : vec) : market := mkMarket (b_P b) (b_k b) (worst (b_a b) (b_u b) y) (b_p b).
Lemma worst_in b y : box_sane b -> in_box b (worst_market b y).
Proof.
  intros (H1 & H2 & H3 & H4 & H5 & H6 & H7). split; [cbn; lra|]. split; [cbn; lra|]. intros i Hi. split; [cbn; lra|].
  cbn. unfold worst. assert (0 <= b_u b i) by (destruct i as [|[|]]; try lia; assumption). destruct (Rlt_bool 0 (y i)); lra.
Qed.
Lemma worst_mul b m y i : in_box b m -> (i < 2)%nat -> worst (b_a b) (b_u b) y i * y i <= m_a m i * y i.
Proof.
  intros (_ & _ & H) Hi. destruct (H i Hi) as (_ & L & U). unfold worst. destruct (Rlt_bool 0 (y i)) eqn:E.
  - apply Rlt_bool_iff in E. nra.
  - apply Rlt_bool_no in E. nra.
Qed.
Lemma worst_is_worst b y m : box_sane b -> in_box b m ->
  (mfeas (worst_market b y) (y 0%nat) (y 1%nat) -> mfeas m (y 0%nat) (y 1%nat)) /\
  mprofit (worst_market b y) (y 0%nat) (y 1%nat) <= mprofit m (y 0%nat) (y 1%nat).
Proof.
  intros Sb Hm. pose proof (worst_mul b m y 0%nat Hm ltac:(lia)) as W0. pose proof (worst_mul b m y 1%nat Hm ltac:(lia)) as W1.
  destruct Sb as (S1 & S2 & S3 & S4 & S5 & _). destruct Hm as (M1 & M2 & M3).
  split; [unfold mfeas; cbn; lra|].
  unfold mprofit, profit_at, Rpower. cbn. rewrite !ln_exp. rewrite !Rmult_assoc, <- !exp_plus.
  set (p := worst (b_a b) (b_u b) y 0%nat * y 0%nat + worst (b_a b) (b_u b) y 1%nat * y 1%nat) in *.
  set (q := m_a m 0%nat * y 0%nat + m_a m 1%nat * y 1%nat) in *.
  assert (E : exp p <= exp q). { destruct (Rle_lt_or_eq_dec p q) as [H|H]; [unfold p, q; lra|left; now apply exp_increasing|rewrite H; lra]. }
  pose proof (exp_pos p). pose proof (exp_pos (y 0%nat)). pose proof (exp_pos (y 1%nat)).
  destruct (M3 0%nat ltac:(lia)) as [P0 _]. destruct (M3 1%nat ltac:(lia)) as [P1 _].
  assert (b_P b * exp p <= m_P m * exp q) by (apply Rmult_le_compat; lra).
  assert (m_p m 0%nat * exp (y 0%nat) <= b_p b 0%nat * exp (y 0%nat)) by (apply Rmult_le_compat_r; lra).
  assert (m_p m 1%nat * exp (y 1%nat) <= b_p b 1%nat * exp (y 1%nat)) by (apply Rmult_le_compat_r; lra). lra.
Qed.
Lemma robust_worst b t y : box_sane b ->
  (robust b t (y 0%nat) (y 1%nat) <-> mfeas (worst_market b y) (y 0%nat) (y 1%nat) /\ t <= mprofit (worst_market b y) (y 0%nat) (y 1%nat)).
Proof.
  intros Sb. split; intros H.
  - apply H, worst_in, Sb.
  - intros m Hm. destruct (worst_is_worst b y m Sb Hm) as (A & B). split; [apply A, H|lra].
Qed.

Section Any.
Context {N : Num}.
Lemma rb_elast_ok (r : ProfitRb N) y : rb_ok r -> two y -> exists a, profit_rb_elast r y = Ok a /\ two a /\
  forall i, (i < 2)%nat -> at_ a i = at_ (rb_elast r) i +!
    (if at_ y i >?! n0 then -! (if (i =? 0)%nat then fst (rb_uie r) else snd (rb_uie r)) else (if (i =? 0)%nat then fst (rb_uie r) else snd (rb_uie r))).
Proof.
  destruct r as [[u0 u1] w e]. intros [_ He] Hy. cbn in He. apply two_inv in He as (a0 & a1 & ra & ->). apply two_inv in Hy as (v0 & v1 & ry & ->).
  eexists. split; [reflexivity|]. split; [split; reflexivity|]. intros [|[|]]; try lia; reflexivity.
Qed.
Lemma rb_new_ok unit_price scale limit (elast price_out : Arr N) e1 e2 e3 e4 e5 : two elast -> two price_out ->
  exists r, profit_rb_new unit_price scale limit elast price_out e1 e2 e3 e4 e5 = Ok r /\ rb_ok r /\
    rb_uie r = (e1, e2) /\ rb_elast r = elast /\ p_log_p_scale (rb_omega r) = nln ((unit_price -! e3) *! scale) /\ p_log_k (rb_omega r) = nln (limit -! e4) /\
    (forall i, (i < 2)%nat -> at_ (p_price_out (rb_omega r)) i = at_ price_out i +! e5).
Proof.
  intros He Hp. apply two_inv in He as (a0 & a1 & ra & ->). apply two_inv in Hp as (q0 & q1 & rp & ->).
  eexists. split; [reflexivity|]. split; [|split; [|split; [|split; [|split]]]]; try reflexivity.
  - split; [split; [cbn; lia|]|]; repeat split.
  - intros [|[|]]; try lia; reflexivity.
Qed.
End Any.

Lemma rb_good_under (r : ProfitRb RNum) b y (gamma : R) : rb_ok r -> rb_about r b -> box_sane b -> two y -> 0 <= gamma ->
  exists r' gamma' g beta s, profit_rb_assess (N := RNum) r y gamma = Ok (r', gamma', ((g, mkSingle (N := RNum) beta), s)) /\
    rb_ok r' /\ rb_about r' b /\ gamma <= gamma' /\ two g /\
    (s = true <-> robust b gamma (xvec y 0%nat) (xvec y 1%nat)) /\
    (s = true -> beta = 0 /\ robust b gamma' (xvec y 0%nat) (xvec y 1%nat) /\ exists m, in_box b m /\ gamma' = mprofit m (xvec y 0%nat) (xvec y 1%nat)) /\
    (s = false -> gamma' = gamma /\ 0 < beta) /\
    valid_cut 2 (xvec g) (xvec y) beta (fun u => robust b gamma' (u 0%nat) (u 1%nat)) /\
    ((xvec y 0%nat > ln (b_k b) /\ adata g = [1; 0]) \/
     (forall u, dot 2 (xvec g) (fun i => u i - xvec y i) + beta <= shortfall (worst_market b (xvec y)) gamma' u)).
Proof.
  intros Hr Ha Sb Ty G. destruct (rb_elast_ok (N := RNum) r y Hr Ty) as (a & E & Ta & Va).
  unfold profit_rb_assess. rewrite E. cbn [bind].
  set (m := worst_market b (xvec y)). set (p := set_elast (rb_omega r) a).
  destruct Hr as [[Hi [Hpo Hel]] Hre]. destruct Ha as (A1 & A2 & A3 & A4 & A5).
  assert (Pok : profit_ok p) by (split; [exact Hi|split; [exact Hpo|exact Ta]]).
  assert (Ab : about p m).
  { split; [exact A1|]. split; [exact A2|]. intros i Hi2. split; [apply A3; assumption|].
    change (xvec a i = worst (b_a b) (b_u b) (xvec y) i). specialize (Va i Hi2). change (at_ a i) with (xvec a i) in Va. rewrite Va.
    change (at_ (rb_elast r) i) with (xvec (rb_elast r) i). rewrite (proj2 (A3 i Hi2)). unfold worst.
    change (at_ y i) with (xvec y i). change (nltb (n := RNum)) with Rlt_bool. unfold n0. cbn [nZ nadd nopp RNum].
    destruct i as [|[|]]; try lia; cbn [Nat.eqb]; rewrite ?A4, ?A5; destruct (Rlt_bool 0 _); reflexivity. }
  assert (Sn : sane m) by (destruct Sb as (B1 & B2 & B3 & B4 & B5 & _); repeat split; assumption).
  destruct (profit_good_under p m y gamma Pok Ab Sn Ty G) as (p' & gamma' & g & beta & s & E2 & O2 & Sm & GG & [Sh Be Ye No Cu] & Un).
  rewrite E2. cbn [bind]. do 5 eexists. split; [reflexivity|].
  split; [split; assumption|]. destruct Sm as (S1 & S2 & S3 & S4).
  split; [unfold rb_about; cbn; rewrite S1, S2, S3; repeat split; try assumption; apply A3; assumption|].
  split; [exact GG|]. split; [exact Sh|].
  split; [rewrite (robust_worst b gamma (xvec y) Sb); exact Be|].
  split.
  - intros K. destruct (Ye K) as [Y1 Y2]. split; [exact Y2|]. split.
    + apply (robust_worst b gamma' (xvec y) Sb). fold m. split; [apply Be, K|rewrite Y1; lra].
    + exists m. split; [apply worst_in, Sb|exact Y1].
  - split; [exact No|]. split; [|exact Un]. intros u Hu. apply Cu. apply (Hu m). apply worst_in, Sb.
Qed.
Lemma rb_good (r : ProfitRb RNum) b y (gamma : R) : rb_ok r -> rb_about r b -> box_sane b -> two y -> 0 <= gamma ->
  exists r' gamma' g beta s, profit_rb_assess (N := RNum) r y gamma = Ok (r', gamma', ((g, mkSingle (N := RNum) beta), s)) /\
    rb_ok r' /\ rb_about r' b /\ gamma <= gamma' /\ two g /\
    (s = true <-> robust b gamma (xvec y 0%nat) (xvec y 1%nat)) /\
    (s = true -> beta = 0 /\ robust b gamma' (xvec y 0%nat) (xvec y 1%nat) /\ exists m, in_box b m /\ gamma' = mprofit m (xvec y 0%nat) (xvec y 1%nat)) /\
    (s = false -> gamma' = gamma /\ 0 < beta) /\
    valid_cut 2 (xvec g) (xvec y) beta (fun u => robust b gamma' (u 0%nat) (u 1%nat)).
Proof.
  intros Hr Ha Sb Ty G. destruct (rb_good_under r b y gamma Hr Ha Sb Ty G) as (r' & ga & g & be & s & E & H1 & H2 & H3 & H4 & H5 & H6 & H7 & H8 & _).
  exists r', ga, g, be, s. auto 12.
Qed.
Lemma q_new_about unit_price scale limit (elast price_out : Arr RNum) :
  about (pq_omega (profit_q_new (N := RNum) unit_price scale limit elast price_out)) (mkMarket (unit_price * scale) limit (xvec elast) (xvec price_out)).
Proof. exact (profit_new_about unit_price scale limit elast price_out). Qed.
