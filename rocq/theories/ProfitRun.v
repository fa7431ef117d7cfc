(** Runs of the optimiser on the profit oracle. *)
From Coq Require Import ZArith Reals List Bool Arith Lia Lra.
From Flocq Require Import Core.
From Verif Require Import Num Res Arr CuttingPlane DriverSpec DriverProofs DriverBest Spec EllReal LmiSpec Examples ExSpec ExProofs Profit ProfitSpec ProfitProofs ProfitReal.
Import ListNotations.
Open Scope nat_scope.

Section Any.
Context {N : Num}.
Lemma two_dec (y : Arr N) : two y \/ ~ two y.
Proof. unfold two. destruct (Nat.eq_dec (length (adata y)) 2), (Nat.eq_dec (acols y) 0); tauto. Qed.
Lemma dot_not_two (a y : Arr N) : two a -> ~ two y -> a_dot a y = Panic.
Proof.
  intros [A1 A2] H. unfold a_dot, a_is_2d, a_len. rewrite A1, A2. destruct y as [d r c]. cbn. unfold two in H. cbn in H.
  destruct c as [|c]; cbn; auto. destruct (length d) as [|[|[|n]]]; cbn; auto. exfalso; auto.
Qed.
(** a query of another shape is answered with the first cut or panics *)
Lemma profit_not_two (p : Profit N) y gamma p' gamma' cut sh : profit_ok p -> ~ two y ->
  profit_assess p y gamma = Ok (p', gamma', (cut, sh)) -> profit_ok p' /\ same_params p p' /\ sh = false /\ gamma' = gamma.
Proof.
  intros Hp Hy. pose proof Hp as (Hi & Hpo & Hel). pose proof (dot_not_two _ _ Hel Hy) as D.
  destruct p as [idx lps lk po el lc vx q]. cbn in Hi, Hpo, Hel, D.
  unfold profit_assess, profit_feas, round_robin, loop_range. cbn [p_idx].
  assert (T : forall i, (-1 <= i < 2)%Z -> forall lc vx q, profit_ok (mkProfit (N := N) i lps lk po el lc vx q)) by (intros; repeat split; cbn; try lia; apply Hpo || apply Hel).
  destruct (a_idx y 0) as [u|] eqn:E0.
  - idx_cases Hi; pdc; rewrite ?E0, ?D; pdc; try discriminate; pifs; rewrite ?E0, ?D; pdc; try discriminate; pifs; try discriminate;
    intros K; inversion K; subst; (split; [apply T; lia|repeat split]).
  - idx_cases Hi; pdc; rewrite ?E0, ?D; pdc; discriminate.
Qed.
Lemma profit_best {S : Type} (sp : SearchSpace N (Arr N) (SingleCut N) S) opt (p : Profit N) s gamma p' s' gamma' x k : profit_ok p ->
  cutting_plane_optim profit_assess sp opt p s gamma = Ok (p', s', gamma', (Some x, k)) ->
  same_params p p' /\ two x /\ gamma' = v_profit p x /\ (at_ x 0 -! p_log_k p >?! n0) = false.
Proof.
  intros Hp E.
  refine (_ (optim_best profit_assess sp opt (fun q => profit_ok q /\ same_params p q) (fun _ => True)
    (fun x => two x /\ (at_ x 0 -! p_log_k p >?! n0) = false) (v_profit p) _ p s gamma p' s' gamma' _ k _ I E)).
  - intros ((_ & A) & _ & B & C & D). auto.
  - intros q y g q' g' [gr [b]] sh [Q1 Q2] _ K. destruct (two_dec y) as [T|T].
    + destruct (profit_assess_ok q y g Q1 T) as (q2 & g2 & gr2 & b2 & sh2 & K2 & O & Sm & _ & D1 & D2 & D3).
      rewrite K in K2. inversion K2; subst q2 g2 gr2 b2 sh2.
      assert (S2 : same_params p q') by (unfold same_params in *; intuition congruence).
      split; [auto|]. split; [auto|]. destruct Q2 as (P1 & P2 & P3 & P4). destruct sh.
      * destruct (D2 eq_refl) as [G _]. split.
        -- rewrite G. unfold v_profit, v_log_cobb, v_vx. rewrite P1, P3, P4. reflexivity.
        -- split; [exact T|]. pose proof (proj1 D1 eq_refl) as F. unfold v_tests in F. apply none_positive_cons in F as [F _]. rewrite <- P2. exact F.
      * apply D3; reflexivity.
    + destruct (profit_not_two q y g q' g' (gr, mkSingle b) sh Q1 T K) as (O & Sm & -> & ->).
      split; [split; [exact O|unfold same_params in *; intuition congruence]|]. auto.
  - split; [exact Hp|repeat split].
Qed.
End Any.
(** over the reals: the reported point is feasible and gamma is its profit *)
Lemma profit_best_R {S : Type} (sp : SearchSpace RNum (Arr RNum) (SingleCut RNum) S) opt (p : Profit RNum) m s (gamma : R) p' s' gamma' x k :
  profit_ok p -> about p m -> sane m ->
  cutting_plane_optim (N := RNum) (profit_assess (N := RNum)) sp opt p s gamma = Ok (p', s', gamma', (Some x, k)) ->
  two x /\ mfeas m (xvec x 0%nat) (xvec x 1%nat) /\ gamma' = mprofit m (xvec x 0%nat) (xvec x 1%nat).
Proof.
  intros Hp Ab Sn E. destruct (profit_best sp opt p s gamma p' s' gamma' x k Hp E) as (_ & T & G & F).
  split; [exact T|]. split.
  - apply (mfeas_ln m Sn). destruct Ab as (_ & B & _). change (nltb (n := RNum)) with Rlt_bool in F. apply Rlt_bool_no in F.
    rewrite B in F. change (at_ x 0) with (xvec x 0) in F. unfold n0 in F. cbn [nZ nsub RNum] in F. lra.
  - rewrite G. apply (r_profit p m Sn Ab).
Qed.
