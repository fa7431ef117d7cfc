(** The profit oracle at any level, infinite ones included, in arithmetic with infinities and NaN. *)
From Coq Require Import Reals List ZArith Lia Lra Psatz.
From Flocq Require Import Core.
From Verif Require Import Num Res Arr CuttingPlane EllCalc Profit Spec RealLin EllReal LmiSpec Examples ProfitSpec ExSpec ExProofs ProfitProofs ProfitReal ExtSpec ExtOracles.
Import ListNotations.
Open Scope R_scope.
Lemma ok_fin (p : Profit RNum) : profit_ok p -> profit_ok (fin_profit p).
Proof. intros (Hi & [Hp Hp'] & [Ha Ha']). repeat split; cbn; rewrite ?map_length; auto; apply Hi. Qed.
Lemma at_fin (a : Arr RNum) i : at_ (fin_arr a) i = Fin (at_ a i).
Proof. unfold at_, fin_arr. cbn [adata]. change (@n0 ENum) with (Fin (@n0 RNum)). apply map_nth. Qed.
Section At.
Variables (p : Profit RNum) (m : market).
Hypotheses (Sane : sane m) (Ab : about p m).
Lemma cobb_fin y : v_log_cobb (fin_profit p) (fin_arr y) = Fin (v_log_cobb p y).
Proof. unfold v_log_cobb, fin_profit. cbn [p_elast p_log_p_scale]. rewrite !at_fin. reflexivity. Qed.
Lemma vx_fin y : v_vx (fin_profit p) (fin_arr y) = Fin (v_vx p y).
Proof. unfold v_vx, fin_profit. cbn [p_price_out]. rewrite !at_fin. reflexivity. Qed.
Lemma profit_fin y : v_profit (fin_profit p) (fin_arr y) = Fin (mprofit m (xvec y 0%nat) (xvec y 1%nat)).
Proof. unfold v_profit. rewrite cobb_fin, vx_fin, <- (r_profit p m Sane Ab). reflexivity. Qed.
Lemma tests_fin y gamma : gamma <> Nan ->
  (none_positive (v_tests (fin_profit p) (fin_arr y) gamma) <-> mfeas m (xvec y 0%nat) (xvec y 1%nat) /\ reaches gamma (mprofit m (xvec y 0%nat) (xvec y 1%nat))).
Proof.
  intros NN. unfold v_tests. rewrite none_positive_cons, none_positive_cons, (mfeas_ln m Sane), cobb_fin, vx_fin, at_fin. cbn [p_log_k fin_profit].
  pose proof (vx_pos p m Sane Ab y) as V. change (num RNum) with R in *.
  assert (A : nltb (n := ENum) (@n0 ENum) (nsub (n := ENum) (Fin (at_ y 0)) (Fin (p_log_k p))) = false <-> xvec y 0%nat <= ln (m_k m)).
  { cbn. rewrite Rlt_bool_no. rewrite (proj1 (proj2 Ab)). change (at_ y 0) with (xvec y 0%nat). change (num RNum) with R. split; intros H; lra. }
  rewrite A. assert (B : nltb (n := ENum) (@n0 ENum) (nsub (n := ENum) (nln (n := ENum) (nadd (n := ENum) gamma (Fin (v_vx p y)))) (Fin (v_log_cobb p y))) = false <->
    reaches gamma (mprofit m (xvec y 0%nat) (xvec y 1%nat))).
  { rewrite (mprofit_exp m Sane), <- (r_vx p m Ab), <- (r_log_cobb p m Ab y). change (num RNum) with R in *.
    destruct gamma as [r| | |]; cbn -[v_vx v_log_cobb]; [|split; [discriminate|intros []]|split; auto|congruence].
    case Rle_bool_spec; intros G; cbn -[v_vx v_log_cobb].
    - split; [intros _|reflexivity]. pose proof (exp_pos (v_log_cobb p y)). change (num RNum) with R in *. lra.
    - rewrite Rlt_bool_no. pose proof (ln_le_exp (r + v_vx p y) (v_log_cobb p y) G) as L. change (num RNum) with R in *. split; intros K.
      + assert (ln (r + v_vx p y) <= v_log_cobb p y) as Q by lra. apply L in Q. lra.
      + assert (r + v_vx p y <= exp (v_log_cobb p y)) as Q by lra. apply L in Q. lra. }
  rewrite B. split; [intros (H1 & H2 & _)|intros (H1 & H2)]; repeat split; auto. apply none_positive_nil.
Qed.
End At.
Lemma profit_any_level (p : Profit RNum) m y gamma : profit_ok p -> about p m -> sane m -> two y -> gamma <> Nan ->
  exists p' gamma' g beta b, profit_assess (N := ENum) (fin_profit p) (fin_arr y) gamma = Ok (p', gamma', ((g, mkSingle (N := ENum) beta), b)) /\
    profit_ok p' /\ same_params (fin_profit p) p' /\ two g /\
    (b = true <-> mfeas m (xvec y 0%nat) (xvec y 1%nat) /\ reaches gamma (mprofit m (xvec y 0%nat) (xvec y 1%nat))) /\
    (b = true -> gamma' = Fin (mprofit m (xvec y 0%nat) (xvec y 1%nat)) /\ beta = Fin 0) /\ (b = false -> gamma' = gamma /\ (beta = PInf \/ exists r, beta = Fin r /\ 0 < r)).
Proof.
  intros Ok_ Ab Sn [Ty Ty'] NN.
  destruct (profit_assess_ok (N := ENum) (fin_profit p) (fin_arr y) gamma (ok_fin p Ok_) (conj (eq_trans (map_length _ _) Ty) Ty')) as (p' & gamma' & g & beta & b & E & O' & SP & T2 & D1 & D2 & D3).
  exists p', gamma', g, beta, b. rewrite (tests_fin p m Sn Ab y gamma NN) in D1. rewrite (profit_fin p m Sn Ab) in D2.
  split; [exact E|]. split; [exact O'|]. split; [exact SP|]. split; [exact T2|]. split; [exact D1|]. split; [exact D2|].
  intros K. destruct (D3 K) as (A & _ & B). split; [exact A|]. destruct beta as [r| | |]; cbn in B; try discriminate; auto. right. exists r. split; auto. now apply Rlt_bool_iff.
Qed.
Lemma any_level_case (p : Profit RNum) m y : profit_ok p -> about p m -> sane m -> two y -> mfeas m (xvec y 0%nat) (xvec y 1%nat) ->
  exists p' g, profit_assess (N := ENum) (fin_profit p) (fin_arr y) NInf = Ok (p', Fin (mprofit m (xvec y 0%nat) (xvec y 1%nat)), ((g, mkSingle (N := ENum) (Fin 0)), true)).
Proof.
  intros A B C D F. destruct (profit_any_level p m y NInf A B C D ltac:(discriminate)) as (p' & ga & g & be & b & E & _ & _ & _ & I & J & _).
  assert (b = true) as -> by (apply I; split; [exact F|exact Logic.I]). destruct (J eq_refl) as [-> ->]. eauto.
Qed.
