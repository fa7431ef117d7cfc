(** bsearch over a BSearchAdaptor on an Ell, end to end. *)
From Coq Require Import Reals List Arith Lia Lra Psatz Bool ZArith.
From Flocq Require Import Core.
From Verif Require Import Num Res Arr CuttingPlane EllCalc Ell EllRun ArrLemmas EllLemmas Spec RealLin CutScalar EllSpec EllReal EllCuts EllMore
  Det DriverSpec DriverProofs2 BSearchReal RunSpec RunProofs Examples ExSpec ExProofs ExConv.
Import ListNotations.
Open Scope R_scope.

(** ** bsearch with an oracle that may be wrong near the threshold *)
Section Gap.
Context {B : Type} (ora : OracleBS RNum B) (I : B -> Prop) (W : B -> R -> Prop) (thr : R).
Hypothesis Hora : forall b (ga : R), I b -> exists b' ans, ora b ga = Ok (b', ans) /\ I b' /\
  (ans = true -> W b' ga) /\ (ans = false -> ga < thr /\ forall d, W b d -> W b' d).

Lemma bs_tau_half (lo hi : R) : @bs_tau RNum lo hi = (hi - lo) / 2.
Proof. reflexivity. Qed.
Lemma bsearch_gap (opt : Options RNum) (b : B) (l u : R) : I b -> l <= u -> 0 < tolerance opt ->
  exists b' flag k, bsearch ora opt b ((l, u) : RNum * RNum) = Ok (b', (l, u), (flag, k)) /\ I b' /\
    (k <= max_iters opt)%nat /\ (forall i, (i < k)%nat -> tolerance opt <= (u - l) / 2 ^ (1 + i)) /\
    (k = max_iters opt \/ (u - l) / 2 ^ (1 + k) < tolerance opt) /\
    (flag = true -> exists ga, W b' ga /\ l <= ga <= u /\ ga <= Rmax l thr + (u - l) / 2 ^ k) /\
    (flag = false -> u <= Rmax l thr + (u - l) / 2 ^ k).
Proof.
  intros Hb Hlu Htol. pose proof (bsearch_unfold (N := RNum) ora opt b l u) as EU. cbn [num RNum] in EU |- *. rewrite EU. clear EU. unfold assert. cbn [nleb RNum].
  rewrite Rle_bool_true by exact Hlu.
  set (P := fun (i : nat) '((b, lo, hi) : B * num RNum * num RNum) => I b /\ l <= lo <= hi /\ hi <= u /\ hi - lo = (u - l) / 2 ^ i /\ lo <= Rmax l thr /\
    (hi = u \/ (hi <> u /\ W b hi)) /\ forall j, (j < i)%nat -> tolerance opt <= (u - l) / 2 ^ (1 + j)).
  assert (Hp2 : forall i, 0 < 2 ^ i) by (intros; apply pow_lt; lra).
  assert (Hh : forall i, (u - l) / 2 ^ (1 + i) = (u - l) / 2 ^ i / 2) by (intros i; simpl; field; apply Rgt_not_eq; apply (Hp2 i)).
  match goal with |- context [loop_up ?kk ?lo0 ?body ?st] =>
    assert (L := loop_up_inv P (fun '((b', (flag, k)) : B * (bool * nat)) => exists lo hi : R, P k (b', lo, hi) /\ (k <= max_iters opt)%nat /\ (u - l) / 2 ^ (1 + k) < tolerance opt /\ flag = negb (Req_bool hi u)) kk lo0 body st) end.
  assert (Hfin : forall b' (lo hi : R) k, P k (b', lo, hi) ->
    (negb (Req_bool hi u) = true -> exists ga, W b' ga /\ l <= ga <= u /\ ga <= Rmax l thr + (u - l) / 2 ^ k) /\
    (negb (Req_bool hi u) = false -> u <= Rmax l thr + (u - l) / 2 ^ k)).
  { intros b' lo hi k (_ & H1 & H2 & H3 & H4 & H5 & _). cbn [num RNum] in *. split.
    - intros E. exists hi. destruct H5 as [->|[_ H5]]; [rewrite Req_bool_true in E by auto; discriminate|]. split; auto. split; lra.
    - intros E. destruct (Req_bool_spec hi u) as [->|]; [lra|discriminate]. }
  destruct L as [([[b1 lo1] hi1] & E & HP)|([b1 [flag k]] & E & HQ)].
  - unfold P. split; [exact Hb|]. cbn. split; [lra|]. split; [lra|]. split; [lra|]. split; [apply Rmax_l|]. split; [now left|]. intros j Hj. lia.
  - intros i [[b1 lo] hi] Hi HP. pose proof HP as (H0 & H1 & H2 & H3 & H4 & H5 & H6). cbn [num RNum] in *. unfold bsearch_body.
    fold (@bs_tau RNum lo hi). rewrite bs_tau_half. set (tau := (hi - lo) / 2). cbn [nltb nadd RNum].
    assert (Et : (u - l) / 2 ^ (1 + i) = tau) by (rewrite Hh; unfold tau; lra).
    destruct (Rlt_bool_spec tau (tolerance opt)) as [Ht|Ht].
    + right. eexists. split; [reflexivity|]. exists lo, hi. split; [exact HP|]. split; [lia|]. split; [lra|reflexivity].
    + left. destruct (Hora b1 (lo + tau) H0) as (b2 & ans & Ea & HI & Hy & Hn). cbv zeta. rewrite Ea. cbn [bind].
      assert (HJ : forall j, (j < S i)%nat -> tolerance opt <= (u - l) / 2 ^ (1 + j)).
      { intros j Hj. destruct (Nat.eq_dec j i) as [->|]; [lra|]. apply H6. lia. }
      destruct ans; eexists; (split; [reflexivity|]); unfold P; (split; [exact HI|]); unfold tau in *.
      * split; [lra|]. split; [lra|]. split; [change (2 ^ S i) with (2 ^ (1 + i)); rewrite Et; lra|]. split; [lra|]. split; [right|exact HJ]. split; [lra|]. auto.
      * destruct (Hn eq_refl) as [Hga Hk]. split; [lra|]. split; [lra|]. split; [change (2 ^ S i) with (2 ^ (1 + i)); rewrite Et; lra|].
        split; [left; eapply Rlt_le_trans; [exact Hga|apply Rmax_r]|]. split; [|exact HJ]. destruct H5 as [H5|[H5 H7]]; auto.
  - cbn [num RNum] in E. rewrite E. cbn [bind]. exists b1, (negb (Req_bool hi1 u)), (max_iters opt). split; [reflexivity|].
    destruct (Hfin b1 lo1 hi1 _ HP) as [F1 F2]. destruct HP as (H0 & _ & _ & _ & _ & _ & H6). split; auto.
  - cbn [num RNum] in E. rewrite E. cbn [bind]. destruct HQ as (lo & hi & HP & Hk & Hlt & ->). eexists _, _, _. split; [reflexivity|].
    destruct (Hfin b1 lo hi _ HP) as [F1 F2]. destruct HP as (H0 & _ & _ & _ & _ & _ & H6). split; auto.
Qed.
End Gap.

(** ** One feasibility search returns, and what its answer is *)
Lemma feas_returns {C O} (ct : CutType RNum C) n (Inv : O -> Prop) (ora : OracleFeas RNum (Arr RNum) C O) (opt : Options RNum) o (e : Ell RNum) :
  (forall o x, Inv o -> vecn n x -> exists o' ans, of_assess ora o x = Ok (o', ans) /\ Inv o' /\ match ans with Some (g, _) => vecn n g | None => True end) ->
  Inv o -> ell_wf n e -> vecn n (e_xc e) ->
  exists o' e' ans k, cutting_plane_feas ora (ell_space (N := RNum) ct) opt o e = Ok (o', e', (ans, k)) /\ Inv o' /\
    forall x, ans = Some x -> vecn n x /\ exists o1, Inv o1 /\ of_assess ora o1 x = Ok (o', None).
Proof.
  intros Ht Hi Hw Hx. unfold cutting_plane_feas, loop_range.
  match goal with |- context [loop_up ?k ?lo ?body ?st] =>
    assert (L := loop_up_inv (fun _ '((o, s) : O * Ell RNum) => Inv o /\ ell_wf n s /\ vecn n (e_xc s))
      (fun '((o', _, (ans, _)) : O * Ell RNum * (option (Arr RNum) * nat)) => Inv o' /\ forall x, ans = Some x -> vecn n x /\ exists o1, Inv o1 /\ of_assess ora o1 x = Ok (o', None)) k lo body st) end.
  destruct L as [([o1 s1] & E & (HI & _))|([[o1 s1] [an kk]] & E & HQ)].
  - auto.
  - intros i [o1 s1] _ (HI & HW & HX). destruct (Ht o1 (e_xc s1) HI HX) as (o2 & ans & Ea & HI2 & Hg).
    cbn [sp_xc ell_space]. rewrite Ea. cbn [bind]. destruct ans as [[g c]|].
    + destruct (ell_update_core_ok (N := RNum) n s1 g (cut_core (N := RNum) ct Bias s1 c) HW Hg) as (s2 & st & rho & sigma & delta & _ & E2 & HW2 & _ & _ & _ & _ & Hc & _).
      rewrite <- apply_cut_core in E2. change (sp_update_bias_cut (ell_space (N := RNum) ct) s1 (g, c)) with (apply_cut (N := RNum) ct Bias s1 (g, c)).
      cbn [sp_update_bias_cut ell_space]. change (ell_update_bias (N := RNum) ct s1 (g, c)) with (apply_cut (N := RNum) ct Bias s1 (g, c)). rewrite E2. cbn [bind].
      match goal with |- context [if ?b then _ else _] => destruct b end.
      * right. eexists. split; [reflexivity|]. split; [exact HI2|]. discriminate.
      * left. eexists. split; [reflexivity|]. split; [exact HI2|]. split; [exact HW2|]. split; [apply HW2|]. rewrite Hc. apply HX.
    + right. eexists. split; [reflexivity|]. split; [exact HI2|]. intros x Hxx. inversion Hxx; subst. eauto.
  - rewrite E. cbn [bind]. do 4 eexists. split; [reflexivity|]. split; [exact HI|]. discriminate.
  - rewrite E. cbn [bind]. do 4 eexists. split; [reflexivity|]. exact HQ.
Qed.

(** ** The adaptor *)
Section Adaptor.
Context {C O : Type} (ct : CutType RNum C) (sat : mode -> C -> R -> Prop) (deep : C -> Prop).
Hypothesis Hshrink : shrink_ok ct sat deep.
Variables (n : nat) (Inv : R -> O -> Prop) (K : R -> vec -> Prop) (ora : OracleFeas RNum (Arr RNum) C O) (opt : Options RNum) (e : Ell RNum).
Variables (z : vec) (r gmin thr : R).
(** the oracle, told the level [ga], accepts the vector [x] *)
Definition accepts (ga : R) (x : Arr RNum) : Prop := vecn n x /\ exists o1 o2, Inv ga o1 /\ of_assess ora o1 x = Ok (o2, None).
Hypotheses (Hn : (2 <= n)%nat) (Hr : 0 < r) (Hg : 0 < gmin).
Hypothesis Hc : forall ga, feas_cuts sat deep n (Inv ga) (K ga) ora.
Hypothesis Ht : forall ga, feas_total n (Inv ga) gmin ora.
Hypothesis Hu : forall ga o ga', Inv ga o -> Inv ga' (of_update ora o ga').
Hypothesis HP : proper n e.
Hypothesis Hx : vecn n (e_xc e).
Hypothesis Hball : forall ga x, thr <= ga -> x = e_xc e \/ (exists ga', accepts ga' x) -> forall y, ball n z r y -> K ga y /\ pts n (ell_set_xc e x) y.
Hypothesis Htol : tolerance opt <= (r * gmin) * (r * gmin).
Hypothesis Hmax : (INR n + 1) * ln (vol2 n e / (r * r) ^ n) < INR (max_iters opt).

Definition ad_ok (b : BSearchAdaptor RNum O (Ell RNum)) : Prop :=
  (exists ga, Inv ga (ba_omega b)) /\ ba_options b = opt /\ exists x, ba_space b = ell_set_xc e x /\ vecn n x /\ (x = e_xc e \/ exists ga, accepts ga x).
Definition ad_best (b : BSearchAdaptor RNum O (Ell RNum)) (ga : R) : Prop := accepts ga (e_xc (ba_space b)).

Lemma set_proper x : vecn n x -> proper n (ell_set_xc e x).
Proof. intros [Hl _]. destruct HP as (V & Hpd & Hk). split; [|split; [exact Hpd|exact Hk]]. destruct V. constructor; auto. Qed.

Lemma probe_ok b (ga : R) : ad_ok b -> exists b' ans, assess_bs ora (ell_space (N := RNum) ct) b ga = Ok (b', ans) /\ ad_ok b' /\
  (ans = true -> ad_best b' ga) /\ (ans = false -> ga < thr /\ forall d, ad_best b d -> ad_best b' d).
Proof.
  intros ([ga0 HI] & Ho & x & Hs & Hxv & Hxa). destruct b as [om sp op]. cbn [ba_omega ba_space ba_options] in *. subst sp op.
  unfold assess_bs. cbn [ba_omega ba_space ba_options].
  pose proof (Hu ga0 om ga HI) as HI1. pose proof (set_proper x Hxv) as HPx.
  destruct (feas_returns ct n (Inv ga) ora opt (of_update ora om ga) (ell_set_xc e x)) as (o' & e' & ans & k & E & HI2 & Hans); auto.
  { intros o1 y H1 H2. destruct (Ht ga o1 y H1 H2) as (o2 & an & Ea & _). exists o2, an. split; auto.
    destruct (Hc ga o1 y o2 an H1 H2 Ea) as [H3 H4]. split; auto. destruct an as [[g c]|]; auto. apply H4. }
  { apply valid_wf. apply HPx. }
  rewrite E. cbn [bind]. destruct ans as [y|].
  - destruct (Hans y eq_refl) as (Hy & o1 & H1 & H2). assert (HA : accepts ga y) by (split; [exact Hy|eauto]).
    eexists _, true. split; [reflexivity|]. split.
    + split; [exists ga; exact HI2|]. split; [reflexivity|]. exists y. split; [reflexivity|]. split; [exact Hy|]. right. exists ga. exact HA.
    + split; [intros _; exact HA|discriminate].
  - eexists _, false. split; [reflexivity|]. split.
    + split; [exists ga; exact HI2|]. split; [reflexivity|]. exists x. auto.
    + split; [discriminate|]. intros _. split; [|auto].
      destruct (Rlt_le_dec ga thr) as [|Hge]; auto. exfalso.
      destruct (feas_bound ct sat deep n (Inv ga) Hn z r Hr Hshrink gmin (K ga) ora opt (of_update ora om ga) (ell_set_xc e x)) as (o2 & e2 & y & k2 & E2 & _); auto.
      congruence.
Qed.
Lemma set_same : ell_set_xc e (e_xc e) = e.
Proof. now destruct e. Qed.

Lemma bsearch_adaptor (opt2 : Options RNum) om (ga0 l u : R) : Inv ga0 om -> l <= u -> 0 < tolerance opt2 ->
  exists b' flag k, bsearch (assess_bs ora (ell_space (N := RNum) ct)) opt2 (mkAdaptor om e opt) ((l, u) : RNum * RNum) = Ok (b', (l, u), (flag, k)) /\
    (k <= max_iters opt2)%nat /\ (forall i, (i < k)%nat -> tolerance opt2 <= (u - l) / 2 ^ (1 + i)) /\
    (k = max_iters opt2 \/ (u - l) / 2 ^ (1 + k) < tolerance opt2) /\
    (flag = true -> exists ga, accepts ga (e_xc (ba_space b')) /\ l <= ga <= u /\ ga <= Rmax l thr + (u - l) / 2 ^ k) /\
    (flag = false -> u <= Rmax l thr + (u - l) / 2 ^ k).
Proof.
  intros HI Hlu H2.
  destruct (bsearch_gap (assess_bs ora (ell_space (N := RNum) ct)) ad_ok ad_best thr probe_ok opt2 (mkAdaptor om e opt) l u) as (b' & flag & k & E & _ & H); auto.
  - split; [exists ga0; exact HI|]. split; [reflexivity|]. exists (e_xc e). split; [symmetry; apply set_same|]. split; [exact Hx|now left].
  - exists b', flag, k. split; [exact E|exact H].
Qed.
End Adaptor.
