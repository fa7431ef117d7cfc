(** The oracles of the repository answer every question about a vector of the right
    dimension, for every number type. *)
From Coq Require Import List Arith Lia Bool ZArith.
From Verif Require Import Num Res Arr CuttingPlane EllCalc Ell EllRun ArrLemmas EllLemmas EllMore Examples ExSpec ExProofs Profit ProfitSpec ProfitProofs ProfitMore Squares RunTotal.
Import ListNotations.

Section Any.
Context {N : Num}.
Notation arr := (Arr N).
Lemma vec2_idx (x : arr) : is_vec 2 x -> exists u v, a_idx x 0 = Ok u /\ a_idx x 1 = Ok v.
Proof. intros [H _]. destruct (idx2 x) as (u & v & H1 & H2 & _); [lia|]. eauto. Qed.
Lemma vec2_vec (u v : N) : is_vec 2 (vec2 u v). Proof. split; reflexivity. Qed.
Lemma ex1_answers : optim_answers 2 (fun (_ : unit) _ => True) (ex1_assess (N := N)).
Proof.
  intros [] x ga _ Hx. destruct (vec2_idx x Hx) as (u & v & H1 & H2). unfold ex1_assess. rewrite H1, H2. cbn [bind].
  repeat match goal with |- context [if ?b then _ else _] => destruct b end; do 5 eexists; (split; [reflexivity|]); split; auto; apply vec2_vec.
Qed.
Ltac by_grad E g d := apply bind_inv in E as (? & _ & E); apply bind_inv in E as (? & _ & E); apply bind_inv in E as (d & _ & E);
  destruct d as [[? ?]|[[? ?] ?]]; [inversion E; subst; apply vec2_vec|apply bind_inv in E as (? & Eg & E); inversion E; subst].
Ltac small_grad Eg := repeat match type of Eg with match ?z with _ => _ end = _ => destruct z; try discriminate Eg end; inversion Eg; subst; apply vec2_vec.
Lemma ex1rr_answers : optim_answers 2 (fun i _ => (-1 <= i < 3)%Z) (ex1rr_assess (N := N)).
Proof.
  intros i x ga Hi Hx. destruct (vec2_idx x Hx) as (u & v & H1 & H2). destruct (ex1rr_decides i x ga u v Hi H1 H2) as (i' & ga' & g & beta & b & E & Hi' & _).
  exists i', ga', g, (mkSingle beta), b. split; [exact E|]. split; [exact Hi'|]. unfold ex1rr_assess in E. by_grad E g d. unfold ex1rr_grad in Eg. small_grad Eg.
Qed.
Lemma ex4_answers : optim_answers 2 (fun i _ => (-1 <= i < 4)%Z) (ex4_assess (N := N)).
Proof.
  intros i x ga Hi Hx. destruct (vec2_idx x Hx) as (u & v & H1 & H2). destruct (ex4_decides i x ga u v Hi H1 H2) as (i' & ga' & g & beta & b & E & Hi' & _).
  exists i', ga', g, (mkSingle beta), b. split; [exact E|]. split; [exact Hi'|]. unfold ex4_assess in E. by_grad E g d. unfold ex4_grad in Eg. small_grad Eg.
Qed.
Lemma qcvx_answers : optim_answers 2 (fun i _ => (-1 <= i < 2)%Z) (qcvx_assess (N := N)).
Proof.
  intros i x ga Hi Hx. destruct (vec2_idx x Hx) as (u & v & H1 & H2). destruct (qcvx_decides i x ga u v Hi H1 H2) as (i' & ga' & g & beta & b & E & Hi' & _).
  exists i', ga', g, (mkSingle beta), b. split; [exact E|]. split; [exact Hi'|]. unfold qcvx_assess in E. by_grad E g d. unfold qcvx_grad in Eg. small_grad Eg.
Qed.
Lemma ex3_answers : feas_answers 2 (fun o => (-1 <= ex3_idx o < 4)%Z) (ex3_oracle (N := N)).
Proof.
  intros o x Hi Hx. destruct (vec2_idx x Hx) as (u & v & H1 & H2). destruct (ex3_decides o x u v Hi H1 H2) as (o' & r & E & Hi' & _).
  exists o', r. split; [exact E|]. split; [exact Hi'|]. unfold ex3_assess in E.
  apply bind_inv in E as (? & _ & E); apply bind_inv in E as (? & _ & E); apply bind_inv in E as (d & _ & E).
  destruct d as [[? ?]|[[? ?] ?]]; [inversion E; subst; exact I|apply bind_inv in E as (? & Eg & E); inversion E; subst]. unfold ex3_grad in Eg. small_grad Eg.
Qed.
Lemma profit_answers : optim_answers 2 (fun p _ => profit_ok p) (profit_assess (N := N)).
Proof.
  intros p x ga Hp Hx. destruct (profit_assess_ok p x ga Hp Hx) as (p' & ga' & g & beta & b & E & O & _ & T & _).
  exists p', ga', g, (mkSingle beta), b. auto.
Qed.
Lemma profit_rb_answers : optim_answers 2 (fun r _ => rb_ok r) (profit_rb_assess (N := N)).
Proof.
  intros r x ga Hr Hx. destruct (rb_elast_ok r x Hr Hx) as (a & Ea & Ta & _). unfold profit_rb_assess. rewrite Ea. cbn [bind].
  assert (Hp : profit_ok (set_elast (rb_omega r) a)) by (destruct Hr as [(H1 & H2 & _) _]; split; [exact H1|split; [exact H2|exact Ta]]).
  destruct (profit_assess_ok (set_elast (rb_omega r) a) x ga Hp Hx) as (p' & ga' & g & beta & b & E & O & _ & T & _).
  rewrite E. cbn [bind]. do 5 eexists. split; [reflexivity|]. split; [|exact T]. split; [exact O|]. apply Hr.
Qed.
Lemma round_two (y : arr) : two y -> exists yd, profit_q_round y = Ok yd /\ two yd.
Proof.
  intros Hy. apply two_inv in Hy as (u & v & r & ->). unfold profit_q_round, a_map, a_mapd, a_idx, a_setidx. cbn [adata map arows acols rd nth_error bind].
  destruct (nround (nexp u) =?! n0); cbn [wr length Nat.ltb Nat.leb upd bind adata rd nth_error arows acols];
    match goal with |- context [if ?b then _ else _] => destruct b end; cbn; eexists; (split; [reflexivity|split; reflexivity]).
Qed.
Lemma profit_q_answers : optim_q_answers 2 (fun q _ => profit_ok (pq_omega q) /\ two (pq_yd q)) (profit_q_assess (N := N)).
Proof.
  intros [p yd] x ga retry [Hp Hy] Hx. cbn [pq_omega pq_yd] in Hp, Hy. unfold profit_q_assess.
  assert (Tail : forall p yd, profit_ok p -> two yd -> exists p' ga' g beta b more, 
     ('(p0, gamma, ((grad, c), shrunk)) <- profit_assess p yd ga ;; d <- a_sub yd x ;; gd <- a_dot grad d ;;
      Ok (mkProfitQ p0 yd, gamma, ((grad, mkSingle (sc_beta c +! gd)), shrunk, yd, negb retry))) = Ok (mkProfitQ p' yd, ga', ((g, mkSingle beta), b, yd, more)) /\ profit_ok p' /\ two g).
  { clear p yd Hp Hy. intros p yd Hp Hy. destruct (profit_assess_ok p yd ga Hp Hy) as (p' & ga' & g & beta & b & E & O & _ & T & _).
    rewrite E. cbn [bind]. pose proof Hy as Hy'. apply two_inv in Hy as (y0 & y1 & ry & ->). destruct (two_inv x Hx) as (x0 & x1 & rx & ->). pose proof T as T'. apply two_inv in T as (g0 & g1 & rg & ->).
    cbn. do 6 eexists. split; [reflexivity|]. auto. }
  cbn [pq_omega pq_yd]. destruct retry; cbn [negb].
  - destruct (Tail p yd Hp Hy) as (p' & ga' & g & beta & b & more & E & O & T). cbn [negb] in E. rewrite E. do 7 eexists. split; [reflexivity|]. auto.
  - destruct (profit_feas_ok p x ga Hp Hx) as (p' & r & E & O & _ & R). rewrite E. cbn [bind]. destruct r as [[g fj]|].
    + do 7 eexists. split; [reflexivity|]. split; [split; [exact O|exact Hy]|]. apply R.
    + destruct (round_two x Hx) as (y2 & E2 & T2). rewrite E2. cbn [bind pq_omega pq_yd]. destruct (Tail p' y2 O T2) as (p2 & ga' & g & beta & b & more & E3 & O3 & T3). cbn [negb] in E3. rewrite E3.
      do 7 eexists. split; [reflexivity|]. auto.
Qed.
Lemma finish_answers (g : arr) (f ga : N) : exists ga' c sh, sq_finish g f ga = (tt, ga', ((g, c), sh)).
Proof. unfold sq_finish. destruct (f <?! ga); eauto. Qed.
Lemma sq2_answers : optim_answers 2 (fun (_ : unit) _ => True) (sq2_assess (N := N)).
Proof.
  intros [] x ga _ Hx. destruct (vec2_idx x Hx) as (u & v & H1 & H2). unfold sq2_assess. rewrite H1, H2. cbn [bind].
  match goal with |- context [sq_finish ?g ?f ga] => destruct (finish_answers g f ga) as (ga' & c & sh & ->) end. do 5 eexists. split; [reflexivity|]. split; [exact I|split; reflexivity].
Qed.
Lemma sqt_answers n (target : arr) : length (adata target) = n -> optim_answers n (fun (_ : unit) _ => True) (sqt_assess (N := N) target).
Proof.
  intros Ht [] x ga _ [Hl Hc]. unfold sqt_assess, a_sub, a_zip, a_len. rewrite Hl, Ht, Nat.eqb_refl. cbn [assert bind].
  unfold a_dot, a_is_2d. cbn [acols adata]. rewrite Hc. cbn [Nat.ltb Nat.leb negb andb assert]. unfold a_len. rewrite Nat.eqb_refl. cbn [assert bind].
  match goal with |- context [sq_finish ?g ?f ga] => destruct (finish_answers g f ga) as (ga' & c & sh & ->) end. do 5 eexists. split; [reflexivity|]. split; [exact I|].
  split; [|reflexivity]. unfold a_muls, a_mapd. cbn [adata]. rewrite map_length. 
  clear - Hl Ht. revert n Hl Ht. generalize (adata x), (adata target). induction l as [|a l IH]; intros [|b m] n; cbn; intros; subst; try discriminate; auto.
Qed.
End Any.
