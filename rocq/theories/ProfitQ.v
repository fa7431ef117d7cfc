(** The quantised profit oracle. *)
From Coq Require Import ZArith Reals List Bool Arith Lia Lra Psatz.
From Flocq Require Import Core.
From Verif Require Import Num Res Arr CuttingPlane Spec EllReal LdltProofs LmiSpec Examples ExSpec ExProofs Profit ProfitSpec ProfitProofs ProfitReal.
Import ListNotations.
Open Scope R_scope.

(** one coordinate of the rounding *)
Lemma round_one (v : R) : 0 < v -> let z := if Req_bool (IZR (ZnearestA v)) 0 then 1%Z else ZnearestA v in nearest_int v z.
Proof.
  intros Hv. cbv zeta. pose proof (Znearest_half (Zle_bool 0) v) as H. fold ZnearestA in H.
  assert (Hz : (0 <= ZnearestA v)%Z).
  { apply le_IZR. destruct (Rle_lt_dec 0 (IZR (ZnearestA v))) as [|L]; [assumption|exfalso].
    assert (IZR (ZnearestA v) <= -1) by (change (-1) with (IZR (-1)); apply IZR_le; apply lt_IZR in L; lia).
    apply Rabs_le_inv in H. lra. }
  destruct (Req_bool (IZR (ZnearestA v)) 0) eqn:E.
  - apply Req_bool_iff in E. split; [lia|]. right. split; [|reflexivity]. rewrite E in H. apply Rabs_le_inv in H. lra.
  - apply Req_bool_no in E. split.
    + assert (ZnearestA v <> 0%Z) by (intros K; apply E; rewrite K; reflexivity). lia.
    + left. rewrite Rabs_minus_sym. lra.
Qed.
Lemma q_round_ok (y : Arr RNum) : two y -> exists yd, profit_q_round (N := RNum) y = Ok yd /\ two yd /\
  forall i, (i < 2)%nat -> exists z, nearest_int (exp (xvec y i)) z /\ xvec yd i = ln (IZR z).
Proof.
  intros Ty. apply two_inv in Ty as (u & v & ry & ->).
  unfold profit_q_round. cbn -[IZR Req_bool ZnearestA].
  change (exp u) with (exp u). pose proof (round_one (exp u) (exp_pos u)) as R0. pose proof (round_one (exp v) (exp_pos v)) as R1. cbv zeta in R0, R1.
  destruct (Req_bool (IZR (ZnearestA (exp u))) 0); cbn -[IZR Req_bool ZnearestA];
  destruct (Req_bool (IZR (ZnearestA (exp v))) 0); cbn -[IZR Req_bool ZnearestA];
  eexists; (split; [reflexivity|]); (split; [split; reflexivity|]); intros [|[|]] Hi; try lia; eexists; (split; [eassumption|reflexivity]).
Qed.

Lemma dot2_R (g d : Arr RNum) : two g -> two d -> exists r, a_dot (N := RNum) g d = Ok r /\ @eq R r (dot 2 (xvec g) (xvec d)).
Proof.
  intros Tg Td. apply two_inv in Tg as (g0 & g1 & rg & ->). apply two_inv in Td as (d0 & d1 & rd & ->).
  eexists. split; [reflexivity|]. unfold dot, xvec. cbn. reflexivity.
Qed.
Lemma sub2_R (a b : Arr RNum) : two a -> two b -> exists d, a_sub (N := RNum) a b = Ok d /\ two d /\ forall i, (i < 2)%nat -> xvec d i = xvec a i - xvec b i.
Proof.
  intros Ta Tb. apply two_inv in Ta as (a0 & a1 & ra & ->). apply two_inv in Tb as (b0 & b1 & rb & ->).
  eexists. split; [reflexivity|]. split; [split; reflexivity|]. intros [|[|]] Hi; try lia; reflexivity.
Qed.
Lemma dot2_ext g a b : (forall i, (i < 2)%nat -> a i = b i) -> dot 2 g a = dot 2 g b.
Proof. intros H. unfold dot. cbn. rewrite !H by lia. reflexivity. Qed.

Lemma q_good (o : ProfitQ RNum) m y (gamma : R) retry : q_ok o -> about (pq_omega o) m -> sane m -> two y -> 0 <= gamma ->
  exists o' gamma' g beta s x more, profit_q_assess (N := RNum) o y gamma retry = Ok (o', gamma', ((g, mkSingle (N := RNum) beta), s, x, more)) /\
    q_ok o' /\ about (pq_omega o') m /\ gamma <= gamma' /\ more = negb retry /\
    ((retry = false /\ s = false /\ x = y /\ pq_yd o' = pq_yd o /\ good_answer (mfeas m) (mprofit m) (xvec y) gamma gamma' g beta s) \/
     (x = pq_yd o' /\ int_point x /\ (retry = true -> x = pq_yd o) /\
      (retry = false -> mfeas m (xvec y 0%nat) (xvec y 1%nat) /\ gamma <= mprofit m (xvec y 0%nat) (xvec y 1%nat) /\
         forall i, (i < 2)%nat -> exists z, nearest_int (exp (xvec y i)) z /\ xvec x i = ln (IZR z)) /\
      exists beta_d, good_answer (mfeas m) (mprofit m) (xvec x) gamma gamma' g beta_d s /\
        beta = beta_d + dot 2 (xvec g) (fun i => xvec x i - xvec y i))).
Proof.
  intros (Hp & Hyd & Hint) Ab Sn Ty G.
  (* the common tail *)
  assert (Tail : forall p yd, profit_ok p -> about p m -> two yd -> int_point yd ->
    exists p' gamma' g beta s beta_d,
      ('(p, gamma, ((grad, c), shrunk)) <- profit_assess (N := RNum) p yd gamma ;;
       d <- a_sub (N := RNum) yd y ;; gd <- a_dot grad d ;;
       Ok (mkProfitQ p yd, gamma, ((grad, mkSingle (N := RNum) (sc_beta c +! gd)), shrunk, yd, negb retry)))
      = Ok (mkProfitQ p' yd, gamma', ((g, mkSingle (N := RNum) beta), s, yd, negb retry)) /\
      profit_ok p' /\ about p' m /\ gamma <= gamma' /\
      good_answer (mfeas m) (mprofit m) (xvec yd) gamma gamma' g beta_d s /\
      beta = beta_d + dot 2 (xvec g) (fun i => xvec yd i - xvec y i)).
  { intros p yd Pok Pab Tyd Iyd.
    destruct (profit_good p m yd gamma Pok Pab Sn Tyd G) as (p' & gamma' & g & beta & s & E & O & Sm & GG & GA).
    rewrite E. cbn [bind]. destruct (sub2_R yd y Tyd Ty) as (d & E1 & Td & Vd). rewrite E1. cbn [bind].
    destruct (dot2_R g d (ga_shape _ _ _ _ _ _ _ _ GA) Td) as (gd & E2 & Vg). rewrite E2. cbn [bind sc_beta].
    exists p', gamma', g, (beta + gd), s, beta. split; [reflexivity|]. split; [exact O|]. split; [exact (about_same _ _ _ Pab Sm)|].
    split; [exact GG|]. split; [exact GA|]. rewrite Vg. f_equal. now apply dot2_ext. }
  unfold profit_q_assess. destruct retry; cbn [negb].
  - cbn [pq_omega pq_yd]. destruct (Tail (pq_omega o) (pq_yd o) Hp Ab Hyd Hint) as (p' & gamma' & g & beta & s & bd & E & O & A & GG & GA & Eb).
    cbn [negb] in E. rewrite E. do 7 eexists. split; [reflexivity|]. split; [split; [exact O|split; assumption]|]. split; [exact A|]. split; [exact GG|]. split; [reflexivity|].
    right. split; [reflexivity|]. split; [exact Hint|]. split; [reflexivity|]. split; [discriminate|]. exists bd. split; assumption.
  - destruct (profit_good (pq_omega o) m y gamma Hp Ab Sn Ty G) as (p1 & gamma1 & g1 & beta1 & s1 & E & O & Sm & GG & GA).
    destruct (profit_feas_ok (N := RNum) (pq_omega o) y gamma Hp Ty) as (p' & r & EF & O2 & Sm2 & RR).
    rewrite EF. cbn [bind]. unfold profit_assess in E. rewrite EF in E. cbn [bind] in E. destruct r as [[g fj]|].
    + inversion E; subst p1 gamma1 g1 beta1 s1. do 7 eexists. split; [reflexivity|].
      split; [split; [exact O|split; assumption]|]. split; [exact (about_same _ _ _ Ab Sm)|]. split; [exact GG|]. split; [reflexivity|].
      left. do 4 (split; [reflexivity|]). exact GA.
    + destruct (q_round_ok y Ty) as (yd & E1 & Tyd & Vyd). rewrite E1. cbn [bind pq_omega pq_yd].
      assert (S1 : s1 = true) by (apply bind_inv in E as (g2 & _ & E); inversion E; reflexivity).
      assert (Iyd : int_point yd) by (intros i Hi; destruct (Vyd i Hi) as (z & (Z1 & _) & Z2); exists z; split; assumption).
      destruct (Tail p' yd O2 (about_same _ _ _ Ab Sm2) Tyd Iyd) as (p2 & gamma' & g & beta & s & bd & E2 & O3 & A & GG2 & GA2 & Eb).
      cbn [negb] in E2. rewrite E2. do 7 eexists. split; [reflexivity|]. split; [split; [exact O3|split; assumption]|]. split; [exact A|]. split; [exact GG2|]. split; [reflexivity|].
      right. split; [reflexivity|]. split; [exact Iyd|]. split; [discriminate|]. split.
      * intros _. destruct (proj1 (ga_better _ _ _ _ _ _ _ _ GA) S1) as [F1 F2]. split; [exact F1|]. split; [exact F2|exact Vyd].
      * exists bd. split; assumption.
Qed.
Lemma q_new_ok unit_price scale limit (elast price_out : Arr RNum) : two elast -> two price_out ->
  q_ok (profit_q_new (N := RNum) unit_price scale limit elast price_out).
Proof.
  intros H1 H2. split; [now apply (profit_new_ok (N := RNum))|]. split; [split; reflexivity|].
  intros [|[|]] Hi; try lia; exists 1%Z; (split; [lia|]); rewrite ln_1; reflexivity.
Qed.
