(** assess_optim of the lowpass oracle, sequences of calls, runs. *)
From Coq Require Import ZArith Reals List Bool Arith Lia Lra.
From Flocq Require Import Core.
From Verif Require Import Num Res Arr ArrLemmas CuttingPlane DriverSpec DriverProofs DriverBest Spec RealLin EllReal LmiSpec ExtSpec ExtDefined Lowpass LowpassSpec LowpassProofs LowpassReal.
Import ListNotations.
Open Scope nat_scope.

Section Any.
Context {N : Num}.
Notation arr := (Arr N).
Lemma set_level_ok n (o : Lowpass N) sp : lw_ok n o -> lw_ok n (set_level o sp).
Proof. exact (fun H => H). Qed.
Definition seen (n : nat) (o : Lowpass N) (x : arr) (l : list Z) (s : N * Z) : Prop :=
  (s = (nninf, (-1)%Z) /\ forall k, In k l -> (v_resp n o x (Z.to_nat k) >?! nninf) = false) \/
  (In (snd s) l /\ fst s = v_resp n o x (Z.to_nat (snd s)) /\ exists k, In k l /\ (v_resp n o x (Z.to_nat k) >?! nninf) = true).
Lemma seen_tracks n o x : tracks n o x (seen n o x).
Proof.
  split; [left; split; [reflexivity|intros k []]|]. intros l s k Hk [(-> & H)|(H1 & H2 & j & H3 & H4)].
  - cbn [fst]. destruct (_ >?! nninf) eqn:E; [right|left].
    + cbn. split; [now left|]. split; [reflexivity|]. exists k. auto.
    + split; [reflexivity|]. intros j [<-|Hj]; auto.
  - right. destruct (_ >?! fst s); cbn [fst snd].
    + split; [now left|]. split; [reflexivity|]. exists j. split; [now right|exact H4].
    + split; [now right|]. split; [exact H2|]. exists j. split; [now right|exact H4].
Qed.
(** assess_optim on a vector of the right length, for any number type *)
Lemma lowpass_assess_any n (o : Lowpass N) (x : arr) sp : lw_ok n o -> is_vec n x ->
  let os := set_level o sp in
  (v_meets n os x /\ (forall k, Z.to_nat (lw_nwstop o) <= k < length (lw_spectrum o) -> (v_resp n o x k >?! nninf) = false) /\ lowpass_assess o x sp = Panic) \/
  exists o' sp' g c sh, lowpass_assess o x sp = Ok (o', sp', ((g, c), sh)) /\ lw_ok n o' /\ lw_same o o' /\
    (sh = true <-> v_meets n os x) /\
    (sh = false -> sp' = sp /\ v_cut n os x g c) /\
    (sh = true -> exists k, Z.to_nat (lw_nwstop o) <= k < length (lw_spectrum o) /\ sp' = v_resp n o x k /\ g = nth k (lw_spectrum o) (a_new 0) /\ c = mkParallel n0 (Some sp') /\
       exists j, Z.to_nat (lw_nwstop o) <= j < length (lw_spectrum o) /\ (v_resp n o x j >?! nninf) = true).
Proof.
  intros Ho Hx os. unfold lowpass_assess. fold (set_level o sp). fold os.
  destruct (lowpass_feas_ok n os x Ho Hx (seen n os x) (seen_tracks n os x)) as (o' & r & E & O & Sm & Sp & C). rewrite E. cbn [bind].
  destruct r as [[g c]|].
  - right. exists o', sp, g, c, false. split; [reflexivity|]. split; [exact O|]. split; [exact Sm|].
    split; [split; [discriminate|intros K; exfalso; exact (cut_not_meets n os x _ _ C K)]|]. split; [auto|discriminate].
  - destruct C as (M & _ & l & L & T). cbn [lw_nwstop lw_spectrum os set_level] in L. pose proof Ho as (_ & _ & _ & O1 & O2 & _).
    destruct T as [(T1 & T2)|(T1 & T2 & j & T3 & T4)].
    + left. split; [exact M|]. injection T1 as F K. split.
      * intros k Hk. specialize (T2 (Z.of_nat k)). rewrite Nat2Z.id in T2. apply T2, L. lia.
      * rewrite K. reflexivity.
    + right. cbn [fst snd] in T1, T2. pose proof T1 as K. apply L in K. destruct Sm as (S1 & S2 & S3 & S4 & S5).
      unfold rdz. rewrite (proj2 (Z.ltb_ge _ 0)) by lia. rewrite S1. cbn [lw_spectrum os set_level].
      rewrite (rd_nth _ _ (a_new 0)) by lia. cbn [bind]. do 5 eexists. split; [reflexivity|]. split; [exact O|]. split; [repeat split; auto|].
      split; [tauto|]. split; [discriminate|]. intros _. exists (Z.to_nat (lw_kmax o')). split; [lia|]. split; [exact T2|]. split; [reflexivity|]. split; [reflexivity|].
      exists (Z.to_nat j). apply L in T3. split; [lia|exact T4].
Qed.
(** a query of another shape panics *)
Lemma vec_dec n (x : arr) : is_vec n x \/ ~ is_vec n x.
Proof. unfold is_vec. destruct (Nat.eq_dec (length (adata x)) n), (Nat.eq_dec (acols x) 0); tauto. Qed.
Lemma dot_not_vec n (a x : arr) : is_vec n a -> ~ is_vec n x -> a_dot a x = Panic.
Proof.
  intros [A1 A2] H. unfold a_dot, a_is_2d, a_len. rewrite A1, A2. cbn. destruct (Nat.eq_dec (acols x) 0) as [C|C].
  - rewrite C. cbn. destruct (Nat.eqb_spec n (length (adata x))); [|reflexivity]. exfalso. apply H. split; auto.
  - destruct (acols x) as [|c]; [congruence|]. reflexivity.
Qed.
Lemma round_panic {S R : Type} lo hi (step : Z -> S -> res (ctl S R)) idx s : (lo < hi)%Z -> (lo - 1 <= idx <= hi - 1)%Z ->
  (forall k, (lo <= k < hi)%Z -> step k s = Panic) -> lowpass_round lo hi step idx s = Panic.
Proof.
  intros H Hi K. unfold lowpass_round, loop_range. rewrite Nat.sub_0_r. destruct (Z.to_nat (hi - lo)) as [|t] eqn:E; [lia|]. cbn [loop_up].
  rewrite K; [reflexivity|]. destruct (Z.eqb_spec (idx + 1) hi); lia.
Qed.
Lemma round_none {S R : Type} lo (step : Z -> S -> res (ctl S R)) idx s : lowpass_round lo lo step idx s = Ok (Next (idx, s)).
Proof. unfold lowpass_round. rewrite Z.sub_diag. reflexivity. Qed.
Lemma lowpass_not_vec n (o : Lowpass N) x : lw_ok n o -> ~ is_vec n x -> lowpass_feas o x = Panic.
Proof.
  intros Ho Hx. pose proof Ho as (Hn & Hm & Hr & H1 & H2 & I1 & I2 & I3).
  assert (D : forall k {B} (K : arr -> N -> res B), (0 <= k < Z.of_nat (length (lw_spectrum o)))%Z -> (col <- rdz (lw_spectrum o) k ;; val <- a_dot col x ;; K col val) = Panic).
  { intros k B K Hk. unfold rdz. rewrite (proj2 (Z.ltb_ge k 0)) by lia. rewrite (rd_nth _ _ (a_new 0)) by lia. cbn [bind].
    rewrite (dot_not_vec n) by (auto; apply Hr, nth_In; lia). reflexivity. }
  unfold lowpass_feas. rewrite (rd_nth _ _ (a_new 0)) by lia. cbn [bind].
  destruct (Z.eq_dec (lw_nwpass o) 0) as [E1|E1].
  2: { rewrite round_panic; [reflexivity|lia|lia|]. intros k Hk. apply D. lia. }
  rewrite E1, round_none. cbn [bind]. destruct (Z.eq_dec (lw_nwstop o) (Z.of_nat (length (lw_spectrum o)))) as [E2|E2].
  2: { rewrite round_panic; [reflexivity|lia|lia|]. intros k Hk. apply D. lia. }
  rewrite E2, round_none. cbn [bind]. rewrite round_panic; [reflexivity|lia|lia|]. intros k Hk. apply D. lia.
Qed.
(** a run over any number type: the reported point passed every test *)
Lemma lowpass_best_any {S : Type} (sp : SearchSpace N arr (ParallelCut N) S) opt n (o : Lowpass N) s gamma o' s' gamma' xb k : lw_ok n o ->
  cutting_plane_optim lowpass_assess sp opt o s gamma = Ok (o', s', gamma', (xb, k)) ->
  lw_ok n o' /\ lw_same o o' /\
  match xb with
  | None => gamma' = gamma
  | Some x => is_vec n x /\ (exists level, v_meets n (set_level o level) x) /\
      exists j, Z.to_nat (lw_nwstop o) <= j < length (lw_spectrum o) /\ gamma' = v_resp n o x j
  end.
Proof.
  intros Ho E.
  refine (_ (optim_best2 lowpass_assess sp opt (fun q => lw_ok n q /\ lw_same o q) (fun _ => True)
    (fun x g => is_vec n x /\ (exists level, v_meets n (set_level o level) x) /\
      exists j, Z.to_nat (lw_nwstop o) <= j < length (lw_spectrum o) /\ g = v_resp n o x j) _ o s gamma o' s' gamma' xb k _ I E)).
  - intros ((A & B) & _ & C). auto.
  - intros q x g q' g' [gr c] sh [Q1 Q2] _ K. destruct (vec_dec n x) as [V|V].
    + destruct (lowpass_assess_any n q x g Q1 V) as [(_ & _ & P)|(q2 & g2 & gr2 & c2 & sh2 & K2 & O & Sm & D1 & D2 & D3)]; [congruence|].
      rewrite K in K2. inversion K2; subst q2 g2 gr2 c2 sh2. destruct Q2 as (S1 & S2 & S3 & S4 & S5).
      split; [split; [exact O|destruct Sm as (T1 & T2 & T3 & T4 & T5); repeat split; congruence]|]. split; [exact I|].
      assert (Rv : forall j, v_resp n q x j = v_resp n o x j) by (intros; unfold v_resp; now rewrite S1).
      assert (Rv2 : forall j, v_resp n (set_level q g) x j = v_resp n (set_level o g) x j) by exact Rv.
      destruct sh; [|apply D2; reflexivity]. split; [exact V|]. split.
      * exists g. destruct (proj1 D1 eq_refl) as (M1 & M2 & M3 & M4). unfold v_meets in *. cbn [set_level lw_nwpass lw_nwstop lw_spectrum lw_lp lw_up lw_sp] in *.
        rewrite S1, S2, S3, S4, S5 in *.
        split; [intros j Hj; rewrite <- Rv2; apply M1, Hj|]. split; [intros j Hj; rewrite <- Rv2; apply M2, Hj|]. split; [intros j Hj; rewrite <- Rv2; apply M3, Hj|exact M4].
      * destruct (D3 eq_refl) as (j & J1 & J2 & _). exists j. rewrite <- Rv, <- S1, <- S3. auto.
    + exfalso. unfold lowpass_assess in K. fold (set_level q g) in K. rewrite (lowpass_not_vec n) in K by auto. discriminate.
  - split; [exact Ho|repeat split].
Qed.
End Any.

Open Scope R_scope.
(** ** over the extended reals *)
Lemma lowpass_feas_E (o : Lowpass ENum) f sp (x : Arr RNum) : lw_about o f -> lw_sp o = Fin sp -> is_vec (f_n f) x ->
  exists o' r, lowpass_feas (N := ENum) o (fin_arr x) = Ok (o', r) /\ lw_about o' f /\ lw_sp o' = Fin sp /\
    (r = None <-> meets f sp (xvec x)) /\
    (forall g c, r = Some (g, c) -> exists g0 b0 b1, g = fin_arr g0 /\ is_vec (f_n f) g0 /\ c = fin_par b0 b1 /\ 0 < b0 /\
       keeps (f_n f) (xvec g0) (xvec x) b0 b1 (meets f sp)).
Proof.
  intros Ha Hsp Hx. destruct (lowpass_exhaustive (f_n f) o (fin_arr x) (proj1 Ha) (fin_vec _ _ Hx)) as (o' & r & E & O & Sm & Sp & C & D).
  exists o', r. split; [exact E|]. split; [now apply lw_about_same with o|]. split; [congruence|]. split.
  - rewrite C. split; [intros K; exact (proj1 (v_meets_E o f x Ha K) sp Hsp)|exact (meets_v o f x Ha sp Hsp)].
  - intros g c K. apply (v_cut_E o f x Ha sp g c Hsp). auto.
Qed.
Lemma set_level_about (o : Lowpass ENum) f sp : lw_about o f -> lw_about (set_level o sp) f.
Proof. exact (fun H => H). Qed.
Lemma lowpass_assess_E (o : Lowpass ENum) f sp (x : Arr RNum) : lw_about o f -> is_vec (f_n f) x -> (f_q f < f_m f)%nat ->
  exists o' sp' g b0 b1 sh, lowpass_assess (N := ENum) o (fin_arr x) (Fin sp) = Ok (o', Fin sp', ((fin_arr g, fin_par b0 b1), sh)) /\
    lw_about o' f /\ is_vec (f_n f) g /\ (sh = true <-> meets f sp (xvec x)) /\
    (sh = false -> sp' = sp /\ 0 < b0) /\
    (sh = true -> stop_level f (xvec x) sp' /\ sp' <= sp /\ b0 = 0 /\ b1 = Some sp') /\
    keeps (f_n f) (xvec g) (xvec x) b0 b1 (meets f sp').
Proof.
  intros Ha Hx Hq. unfold lowpass_assess. fold (set_level (N := ENum) o (Fin sp)). set (os := set_level (N := ENum) o (Fin sp)).
  assert (Has : lw_about os f) by exact Ha.
  destruct (lowpass_feas_ok (f_n f) os (fin_arr x) (proj1 Has) (fin_vec _ _ Hx) (best_of f x) (best_tracks os f x Has)) as (o' & r & E & O & Sm & Sp & C).
  rewrite E. cbn [bind]. assert (Ao : lw_about o' f) by now apply lw_about_same with os.
  destruct r as [[g c]|].
  - destruct (v_cut_E os f x Has sp g c eq_refl C) as (g0 & b0 & b1 & -> & V & -> & B & K).
    exists o', sp, g0, b0, b1, false. split; [reflexivity|]. split; [exact Ao|]. split; [exact V|].
    split; [split; [discriminate|intros M; exfalso; apply (cut_not_meets (N := ENum) _ os _ _ _ C); now apply (meets_v os f x Has sp)]|].
    split; [auto|]. split; [discriminate|exact K].
  - destruct C as (M & _ & l & L & T). destruct (v_meets_E os f x Has M) as [M1 M2]. specialize (M1 sp eq_refl).
    pose proof Has as (_ & _ & _ & Q & _). rewrite (spec_len os f Has), Q in L.
    destruct T as [(-> & _)|(k & T1 & T2 & T3 & T4)]. { exfalso. apply (proj2 (L (Z.of_nat (f_q f)))). lia. }
    injection T3 as F K. rewrite K. unfold rdz. rewrite (proj2 (Z.ltb_ge _ 0)) by lia.
    rewrite (rd_nth _ _ (a_new 0)) by (rewrite (spec_len o' f Ao); lia). cbn [bind].
    destruct (row_fin o' f Ao (Z.to_nat k) ltac:(lia)) as (r & Er & Vr & Hr). rewrite Er, F.
    set (sp' := response f (xvec x) (Z.to_nat k)) in *.
    assert (Lv : stop_level f (xvec x) sp').
    { split; [exists (Z.to_nat k); split; [lia|reflexivity]|]. intros j Hj. specialize (T4 (Z.of_nat j)). rewrite Nat2Z.id in T4. apply T4, L. lia. }
    exists o', sp', r, 0, (Some sp'), true. split; [reflexivity|]. split; [exact Ao|]. split; [exact Vr|]. split; [tauto|]. split; [discriminate|].
    split.
    + intros _. split; [exact Lv|]. split; [|auto]. destruct M1 as (_ & _ & M3 & _). apply M3. lia.
    + intros y (_ & _ & M3 & _). specialize (M3 (Z.to_nat k) ltac:(lia)).
      rewrite dot_minus_r, <- !(resp_dot f (Z.to_nat k) r ltac:(lia) Hr). fold sp'. lra.
Qed.
Lemma lowpass_calls_E (o : Lowpass ENum) f (l : list (Arr RNum * option R)) : lw_about o f -> (f_q f < f_m f)%nat ->
  (exists sp, lw_sp o = Fin sp) ->
  (forall c, In c l -> is_vec (f_n f) (fst c)) ->
  exists o', lw_calls (N := ENum) o (map (fun c => (fin_arr (fst c), option_map Fin (snd c))) l) = Ok o' /\ lw_about o' f /\ exists sp, lw_sp o' = Fin sp.
Proof.
  intros Ha Hq Hsp Hl. revert o Ha Hsp. induction l as [|[x [sp|]] t IH]; intros o Ha [sp0 Hsp]; cbn [map lw_calls fst snd option_map].
  - exists o. eauto.
  - destruct (lowpass_assess_E o f sp x Ha (Hl _ (or_introl eq_refl)) Hq) as (o' & sp' & g & b0 & b1 & sh & E & A & _).
    assert (L : lw_sp o' = Fin sp).
    { unfold lowpass_assess in E. fold (set_level (N := ENum) o (Fin sp)) in E.
      destruct (lowpass_exhaustive (f_n f) (set_level (N := ENum) o (Fin sp)) (fin_arr x) (proj1 Ha) (fin_vec _ _ (Hl _ (or_introl eq_refl)))) as (o2 & r & E2 & _ & _ & Sp & _).
      rewrite E2 in E. cbn [bind] in E. destruct r as [c|]; [inversion E; subst; exact Sp|].
      destruct (rdz _ _); [|discriminate]. cbn [bind] in E. inversion E; subst; exact Sp. }
    rewrite E. cbn [bind]. apply IH; eauto. intros c Hc. apply Hl. now right.
  - destruct (lowpass_feas_E o f sp0 x Ha Hsp (Hl _ (or_introl eq_refl))) as (o' & r & E & A & Sp & _).
    rewrite E. cbn [bind]. apply IH; eauto. intros c Hc. apply Hl. now right.
Qed.
(** the stop-band level decides feasibility once the other constraints hold *)
Lemma lowpass_best_E {S : Type} (sp : SearchSpace ENum (Arr ENum) (ParallelCut ENum) S) opt (o : Lowpass ENum) f s (gamma : ext) o' s' gamma' x0 k :
  lw_about o f -> (f_q f < f_m f)%nat ->
  cutting_plane_optim (N := ENum) (lowpass_assess (N := ENum)) sp opt o s gamma = Ok (o', s', gamma', (Some (fin_arr x0), k)) ->
  lw_about o' f /\ is_vec (f_n f) x0 /\ exists level, gamma' = Fin level /\ stop_level f (xvec x0) level /\ meets f level (xvec x0).
Proof.
  intros Ha Hq E.
  refine (_ (optim_best2 (N := ENum) (lowpass_assess (N := ENum)) sp opt (fun q => lw_about q f) (fun _ => True)
    (fun x g => forall x0, x = fin_arr x0 -> is_vec (f_n f) x0 /\ exists level, g = Fin level /\ stop_level f (xvec x0) level /\ meets f level (xvec x0)) _ o s gamma o' s' gamma' _ k Ha I E)).
  - intros (A & _ & C). specialize (C x0 eq_refl). auto.
  - intros q x g q' g' [gr c] sh Q _ K. destruct (vec_dec (f_n f) x) as [V|V].
    2: { exfalso. unfold lowpass_assess in K. fold (set_level (N := ENum) q g) in K. rewrite (lowpass_not_vec (f_n f)) in K; [discriminate|exact (proj1 Q)|exact V]. }
    destruct (lowpass_assess_any (N := ENum) (f_n f) q x g (proj1 Q) V) as [(_ & _ & P)|(q2 & g2 & gr2 & c2 & sh2 & K2 & O & Sm & D1 & D2 & D3)]; [congruence|].
    rewrite K in K2. inversion K2; subst q2 g2 gr2 c2 sh2. split; [now apply lw_about_same with q|]. split; [exact I|].
    destruct sh; [|apply D2; reflexivity]. intros y ->. assert (Vy : is_vec (f_n f) y) by (destruct V as [V1 V2]; cbn in V1, V2; rewrite map_length in V1; split; auto).
    split; [exact Vy|].
    unfold lowpass_assess in K. fold (set_level (N := ENum) q g) in K. set (qs := set_level (N := ENum) q g) in *.
    assert (Qs : lw_about qs f) by exact Q.
    destruct (lowpass_feas_ok (f_n f) qs (fin_arr y) (proj1 Qs) V (best_of f y) (best_tracks qs f y Qs)) as (o2 & r & E2 & _ & _ & _ & C).
    rewrite E2 in K. cbn [bind] in K. destruct r as [cc|]; [inversion K|]. destruct C as (M & _ & l & L & T).
    destruct (rdz _ _) as [row|]; [|discriminate]. cbn [bind] in K. inversion K as [[K1 K3 K4]]. clear K.
    pose proof Qs as (_ & _ & _ & Qq & _). rewrite (spec_len qs f Qs), Qq in L.
    destruct T as [(-> & _)|(j & T1 & T2 & T3 & T4)]. { exfalso. apply (proj2 (L (Z.of_nat (f_q f)))). lia. }
    injection T3 as F Km.
    assert (Lv : stop_level f (xvec y) (response f (xvec y) (Z.to_nat j))).
    { split; [exists (Z.to_nat j); split; [lia|reflexivity]|]. intros i Hi. specialize (T4 (Z.of_nat i)). rewrite Nat2Z.id in T4. apply T4, L. lia. }
    exists (response f (xvec y) (Z.to_nat j)). split; [rewrite <- F, K1; reflexivity|]. split; [exact Lv|]. exact (proj2 (v_meets_E qs f y Qs M) _ Lv).
Qed.
