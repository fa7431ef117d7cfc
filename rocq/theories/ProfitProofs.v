(** The profit oracle. *)
From Coq Require Import ZArith Reals List Bool Arith Lia Lra Psatz.
From Flocq Require Import Core.
From Verif Require Import Num Res Arr CuttingPlane Spec EllReal LmiSpec Examples ExSpec ExProofs Profit ProfitSpec.
Import ListNotations.
Open Scope nat_scope.

Lemma two_inv {N : Num} (a : Arr N) : two a -> exists u v r, a = mkArr [u; v] r 0.
Proof.
  destruct a as [d r c]. intros [H1 H2]. cbn in *. subst c. destruct d as [|u [|v [|]]]; try discriminate. eauto.
Qed.
Ltac pdc := cbn -[nadd nsub nopp nmul ndiv nexp nln nZ n0 n1 n2 nltb isum a_divs].
Ltac pifs := repeat match goal with |- context [if nltb ?a ?b then _ else _] => destruct (nltb a b) eqn:?; try discriminate; pdc end.

Section Any.
Context {N : Num}.
(** what an answer of [assess_feas] is, for any number type *)
Lemma profit_feas_ok (p : Profit N) y gamma : profit_ok p -> two y ->
  exists p' r, profit_feas p y gamma = Ok (p', r) /\ profit_ok p' /\ same_params p p' /\
    match r with
    | None => none_positive (v_tests p y gamma) /\ p_log_cobb p' = v_log_cobb p y /\ p_vx p' = v_vx p y /\
        two (p_q p') /\ at_ (p_q p') 0 = at_ (p_price_out p) 0 *! nexp (at_ y 0) /\ at_ (p_q p') 1 = at_ (p_price_out p) 1 *! nexp (at_ y 1)
    | Some (g, fj) => (fj >?! n0) = true /\ two g /\
        ((fj = at_ y 0 -! p_log_k p /\ adata g = [n1; n0]) \/
         (fj = nln (gamma +! v_vx p y) -! v_log_cobb p y /\
          adata g = [at_ (p_price_out p) 0 *! nexp (at_ y 0) *! (n1 /! (gamma +! v_vx p y)) -! at_ (p_elast p) 0;
                     at_ (p_price_out p) 1 *! nexp (at_ y 1) *! (n1 /! (gamma +! v_vx p y)) -! at_ (p_elast p) 1]))
    end.
Proof.
  destruct p as [idx lps lk po el lc vx q]. intros (Hi & Hpo & Hel) Hy. cbn in Hi, Hpo, Hel.
  apply two_inv in Hpo as (p0 & p1 & rp & ->). apply two_inv in Hel as (a0 & a1 & ra & ->). apply two_inv in Hy as (u & v & ry & ->).
  unfold profit_feas, round_robin, loop_range. cbn [p_idx].
  assert (T2 : forall a b r, two (N := N) (mkArr [a; b] r 0)) by (intros; split; reflexivity).
  idx_cases Hi; pdc; pifs; do 2 eexists; (split; [reflexivity|]);
  (split; [split; [cbn; lia | split; apply T2]|]); (split; [repeat split|]);
  cbn -[nadd nsub nopp nmul ndiv nexp nln nZ n0 n1 n2 nltb isum a_divs none_positive].
  all: try (split; [assumption|]; split; [split; reflexivity|]; first [left; split; reflexivity | right; split; reflexivity]).
  all: split; [|repeat split].
  all: unfold v_tests, v_vx, v_log_cobb, at_; cbn -[nadd nsub nopp nmul ndiv nexp nln nZ n0 n1 n2 nltb isum a_divs none_positive].
  all: apply none_positive_cons; split; [assumption|]; apply none_positive_cons; split; [assumption|]; apply none_positive_nil.
Qed.
Lemma profit_assess_ok (p : Profit N) y gamma : profit_ok p -> two y ->
  exists p' gamma' g beta b, profit_assess p y gamma = Ok (p', gamma', ((g, mkSingle beta), b)) /\
    profit_ok p' /\ same_params p p' /\ two g /\ decides (v_tests p y gamma) (v_profit p y) gamma gamma' beta b.
Proof.
  intros Hp Hy. destruct (profit_feas_ok p y gamma Hp Hy) as (p' & r & E & O & Sm & R).
  unfold profit_assess. rewrite E. cbn [bind]. destruct r as [[g fj]|].
  - destruct R as (F & T & D). do 5 eexists. split; [reflexivity|]. split; [exact O|]. split; [exact Sm|]. split; [exact T|].
    assert (In fj (v_tests p y gamma)) by (unfold v_tests; destruct D as [[-> _]|[-> _]]; cbn; auto).
    split; [split; [discriminate|]|split; [discriminate|auto]].
    intros K. specialize (K fj H). congruence.
  - destruct R as (F & Lc & Vx & T & Q0 & Q1). rewrite Lc, Vx. pose proof O as (_ & _ & (Te1 & Te2)).
    destruct Sm as (S1 & S2 & S3 & S4).
    unfold a_sub, a_zip, a_len, a_divs, a_mapd. cbn [adata]. rewrite map_length, Te1, (proj1 T). cbn [Nat.eqb assert bind].
    do 5 eexists. split; [reflexivity|]. split; [exact O|]. split; [repeat split; assumption|]. split.
    + split; cbn; [|apply T]. pose proof T as [T1 _]. destruct (adata (p_q p')) as [|? [|? [|]]]; try discriminate.
      destruct (adata (p_elast p')) as [|? [|? [|]]]; try discriminate. reflexivity.
    + split; [tauto|]. split; [|discriminate]. intros _. split; reflexivity.
Qed.
Lemma profit_new_ok unit_price scale limit (elast price_out : Arr N) : two elast -> two price_out ->
  profit_ok (profit_new unit_price scale limit elast price_out).
Proof. intros H1 H2. split; [cbn; lia|]. split; assumption. Qed.
End Any.
