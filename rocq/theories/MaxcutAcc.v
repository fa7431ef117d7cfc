(** The max-cut oracle in binary64: whole weights are added without error (C125). *)
From Coq Require Import ZArith Reals Lra Lia Psatz List Bool Arith.
From Flocq Require Import Core IEEE754.BinarySingleNaN.
From Verif Require Import Num Res Arr ArrLemmas CuttingPlane DriverSpec DriverProofs DriverBest Spec RealLin LmiSpec FloatLemmas FloatErr StepAccSpec Svm SvmSpec MaxcutProofs MaxcutAccSpec.
Import ListNotations.
Local Open Scope R_scope.
#[local] Opaque fadd fsub fmul fdiv fsqrt fofZ.

(** [v] is the whole number [r], at most [b] in size *)
Definition whole (v : f64) (r : R) (b : Z) : Prop := fin v = true /\ val v = r /\ exists k, r = IZR k /\ (Z.abs k <= b)%Z.
Lemma rnd_whole k : (Z.abs k <= 2 ^ 53)%Z -> rnd (IZR k) = IZR k.
Proof. intros H. destruct (fofZ_small k H) as [V _]. rewrite <- V. apply rnd_val. Qed.
Lemma whole_lt k : (Z.abs k <= 2 ^ 53)%Z -> Rabs (IZR k) < bpow radix2 femax.
Proof. intros H. destruct (fofZ_small k H) as [V _]. rewrite <- V. apply val_bound. Qed.
Lemma whole_add v r b v' r' b' : whole v r b -> whole v' r' b' -> (b + b' <= 2 ^ 53)%Z -> whole (fadd v v') (r + r') (b + b').
Proof.
  intros (F1 & V1 & k1 & E1 & B1) (F2 & V2 & k2 & E2 & B2) H. assert (E : val v + val v' = IZR (k1 + k2)) by (rewrite plus_IZR, V1, V2, E1, E2; reflexivity).
  destruct (fadd_fin v v' F1 F2) as [V Fi]; [rewrite E, rnd_whole by lia; apply whole_lt; lia|]. split; [exact Fi|]. split; [rewrite V, E, rnd_whole by lia; rewrite <- E, V1, V2; reflexivity|].
  exists (k1 + k2)%Z. split; [rewrite plus_IZR, E1, E2; reflexivity|lia].
Qed.
Lemma whole_weaken v r b b' : whole v r b -> (b <= b')%Z -> whole v r b'.
Proof. intros (F1 & V1 & k1 & E1 & B1) H. split; [exact F1|]. split; [exact V1|]. exists k1. split; [exact E1|lia]. Qed.
Lemma whole_twice v r b : whole v r b -> (2 * b <= 2 ^ 53)%Z -> whole (fmul v (fofZ 2)) (2 * r) (2 * b).
Proof.
  intros (F1 & V1 & k1 & E1 & B1) H. destruct (fofZ_small 2 ltac:(lia)) as [V2 F2]. assert (E : val v * val (fofZ 2) = IZR (2 * k1)) by (rewrite mult_IZR, V1, V2, E1; ring).
  destruct (fmul_fin v (fofZ 2) F1 F2) as [V Fi]; [rewrite E, rnd_whole by lia; apply whole_lt; lia|]. split; [exact Fi|]. split; [rewrite V, E, rnd_whole by lia; rewrite <- E, V1, V2; ring|].
  exists (2 * k1)%Z. split; [rewrite mult_IZR, E1; reflexivity|lia].
Qed.

Section Any.
Context {lm : Libm} (n : nat) (B : Z) (o : Maxcut (FNum lm)) (x : Arr (FNum lm)).
Notation F := (FNum lm).
Hypotheses (Ho : whole_graph n B o) (Lx : (n <= length (adata x))%nat).
Notation sg := (mc_sign (N := F) x).
Notation w := (fentry n (mc_weights o)).
Notation s := (fside x).
Notation pick i j := (if Bool.eqb (s i) (s j) then 0 else w i j).
Lemma B0 : (0 <= B)%Z.
Proof. pose proof (wg_n _ _ _ Ho) as Hn. destruct (wg_whole _ _ _ Ho 0%nat 0%nat Hn Hn) as (k & _ & K). lia. Qed.
Lemma sgf_len : (n <= length (adata sg))%nat.
Proof. unfold mc_sign, a_map, a_mapd. cbn. now rewrite map_length. Qed.
Lemma sgf_nth i : (i < n)%nat -> nth i (adata sg) n0 = if s i then n1 (N := F) else nopp (n := F) n1.
Proof.
  intros Hi. unfold mc_sign, a_map, a_mapd. cbn [adata]. rewrite (nth_map_lt _ _ _ _ (n0 (N := F))) by (exact (Nat.lt_le_trans _ _ _ Hi Lx)). reflexivity.
Qed.
Lemma sgf_idx i : (i < n)%nat -> a_idx sg i = Ok (if s i then n1 (N := F) else nopp (n := F) n1).
Proof. intros Hi. rewrite <- sgf_nth by exact Hi. unfold a_idx. apply rd_nth. exact (Nat.lt_le_trans _ _ _ Hi sgf_len). Qed.
Lemma sgf_neq i j : negb (neqb (n := F) (if s i then n1 (N := F) else nopp (n := F) n1) (if s j then n1 (N := F) else nopp (n := F) n1)) = negb (Bool.eqb (s i) (s j)).
Proof. destruct (s i), (s j); vm_compute; reflexivity. Qed.
Lemma wf_idx i j : (i < n)%nat -> (j < n)%nat -> exists v : f64, a_idx2 (mc_weights o) i j = Ok (v : F) /\ whole v (w i j) B.
Proof.
  intros Hi Hj. pose proof (wg_new _ _ _ Ho) as E. pose proof (wg_dim _ _ _ Ho) as En. pose proof (wg_len _ _ _ Ho) as L.
  assert (C : acols (mc_weights o) = n).
  { unfold maxcut_new in E. destruct (Nat.eqb_spec (arows (mc_weights o)) (acols (mc_weights o))) as [Q|]; [|discriminate]. cbn [assert] in E.
    destruct (a_is_2d (mc_weights o)); [|discriminate]. cbn [assert] in E. inversion E as [E1]. rewrite <- E1 in En. cbn in En. congruence. }
  assert (Q : (i * n + j < length (adata (mc_weights o)))%nat) by (rewrite L; apply flat_lt; auto).
  exists (nth (i * n + j) (adata (mc_weights o)) (n0 (N := F))). unfold a_idx2. rewrite C. split; [apply rd_nth; exact Q|].
  split; [|split; [reflexivity|exact (wg_whole _ _ _ Ho i j Hi Hj)]]. pose proof (wg_fin _ _ _ Ho) as A. unfold all_finite in A. rewrite Forall_forall in A. apply A, nth_In, Q.
Qed.
Lemma size i : (i <= n)%nat -> ((Z.of_nat i + 1) * Z.of_nat n * B <= 2 ^ 53)%Z.
Proof. intros Hi. pose proof (wg_size _ _ _ Ho). pose proof (wg_n _ _ _ Ho). pose proof B0. assert ((Z.of_nat i + 1) * (Z.of_nat n * B) <= (2 * Z.of_nat n) * (Z.of_nat n * B))%Z by (apply Z.mul_le_mono_nonneg_r; [nia|lia]). nia. Qed.
Lemma add_one (a : R) p v i j : (i < n)%nat -> (j < n)%nat -> whole v a p -> (p + B <= 2 ^ 53)%Z ->
  exists v', (if negb (Bool.eqb (s i) (s j)) then (w <- a_idx2 (mc_weights o) i j ;; Ok (nadd (n := F) v w)) else Ok (v : F)) = Ok (v' : F) /\ whole v' (a + pick i j) (p + B).
Proof.
  intros Hi Hj Hv Hp. destruct (Bool.eqb (s i) (s j)); cbn [negb].
  - exists v. split; [reflexivity|]. rewrite Rplus_0_r. eapply whole_weaken; [exact Hv|]. pose proof B0. lia.
  - destruct (wf_idx i j Hi Hj) as (u & -> & Hu). cbn [bind]. exists (fadd v u). split; [reflexivity|]. apply whole_add; auto.
Qed.
Lemma mcf_value : exists v : f64, mc_value o sg = Ok (v : F) /\ whole v (cut_of n w s) (2 ^ 53).
Proof.
  unfold mc_value. rewrite (wg_dim _ _ _ Ho). unfold cut_of. rewrite <- (Rsum_swap_tri n (fun i j => pick i j)). pose proof B0 as B0.
  match goal with |- exists v, for_range 0 n ?b ?z = _ /\ _ => destruct (for_range_inv (fun k (c : F) => whole c (Rsum k (fun i => Rsum n (fun j => if (i <? j)%nat then pick i j else 0))) (Z.of_nat k * Z.of_nat n * B)) 0 n b z) as (v & E & Hv) end.
  - lia.
  - split; [reflexivity|]. split; [reflexivity|]. exists 0%Z. split; [reflexivity|]. lia.
  - intros i c Hi Hc. cbn [Rsum].
    match goal with |- exists t', for_range _ _ ?b c = _ /\ _ =>
      destruct (for_range_inv (fun k (c' : F) => whole c' (Rsum i (fun i => Rsum n (fun j => if (i <? j)%nat then pick i j else 0)) + Rsum k (fun j => if (i <? j)%nat then pick i j else 0)) (Z.of_nat i * Z.of_nat n * B + Z.of_nat k * B)) (i + 1) n b c) as (v & E & Hv) end.
    + lia.
    + rewrite (Rsum_zero (i + 1)). { rewrite Rplus_0_r. eapply whole_weaken; [exact Hc|]. nia. } intros j Hj. rewrite (proj2 (Nat.ltb_ge i j)) by lia. reflexivity.
    + intros j c' Hj Hc'. rewrite (sgf_idx i), (sgf_idx j) by lia. cbn [bind]. rewrite sgf_neq. cbn [Rsum]. rewrite (proj2 (Nat.ltb_lt i j)) by lia.
      destruct (add_one _ _ c' i j ltac:(lia) ltac:(lia) Hc') as (v' & E & Hv').
      { pose proof (size i ltac:(lia)). assert (Z.of_nat j * B + B <= Z.of_nat n * B)%Z by nia. nia. }
      exists v'. split; [exact E|]. rewrite <- Rplus_assoc. eapply whole_weaken; [exact Hv'|]. nia.
    + exists v. split; [exact E|]. eapply whole_weaken; [exact Hv|]. nia.
  - exists v. split; [exact E|]. eapply whole_weaken; [exact Hv|]. pose proof (wg_size _ _ _ Ho). nia.
Qed.
Lemma mcf_grad : exists g, mc_grad o sg = Ok g /\ length (adata g) = n /\ acols g = 0%nat /\
  forall i, (i < n)%nat -> whole (nth i (adata g) (n0 (N := F)) : f64) (2 * degree_of n w s i) (2 ^ 53).
Proof.
  unfold mc_grad. rewrite (wg_dim _ _ _ Ho). unfold degree_of. pose proof B0 as B0. pose proof (wg_n _ _ _ Ho) as Hn. pose proof (wg_size _ _ _ Ho) as Hs.
  assert (Sn : (2 * (Z.of_nat n * B) <= 2 ^ 53)%Z) by nia.
  match goal with |- exists g, bind (for_range 0 n ?b ?z) _ = _ /\ _ => destruct (for_range_inv (fun k (g : Arr F) => exists d, g = mkArr (N := F) d n 0 /\ length d = n /\ 
     (forall i, (i < k)%nat -> whole (nth i d (n0 (N := F)) : f64) (Rsum n (fun j => pick i j)) (Z.of_nat n * B)) /\ forall i, (k <= i < n)%nat -> nth i d (n0 (N := F)) = n0 (N := F)) 0 n b z) as (g & E & d & -> & Ld & D & _) end.
  - lia.
  - exists (repeat (n0 (N := F)) n). split; [reflexivity|]. split; [apply repeat_length|]. split; [intros; lia|]. intros; apply nth_repeat.
  - intros i g Hi (d & -> & Ld & D1 & D2).
    match goal with |- exists t', for_range _ _ ?b ?z = _ /\ _ =>
      destruct (for_range_inv (fun k (g' : Arr F) => exists d', g' = mkArr (N := F) d' n 0 /\ length d' = n /\ whole (nth i d' (n0 (N := F)) : f64) (Rsum k (fun j => pick i j)) (Z.of_nat k * B) /\ forall i', i' <> i -> nth i' d' (n0 (N := F)) = nth i' d (n0 (N := F))) 0 n b z) as (g & E & d' & -> & Ld' & D3 & D4) end.
    + lia.
    + exists d. split; [reflexivity|]. split; [exact Ld|]. split; [|auto]. rewrite D2 by lia. split; [reflexivity|]. split; [reflexivity|]. exists 0%Z. split; [reflexivity|lia].
    + intros j g' Hj (d' & -> & Ld' & D3 & D4). rewrite (sgf_idx i), (sgf_idx j) by lia. cbn [bind]. rewrite sgf_neq. cbn [Rsum].
      destruct (Bool.eqb (s i) (s j)); cbn [negb].
      * eexists. split; [reflexivity|]. exists d'. split; [reflexivity|]. split; [exact Ld'|]. split; [rewrite Rplus_0_r; eapply whole_weaken; [exact D3|nia]|exact D4].
      * destruct (wf_idx i j ltac:(lia) ltac:(lia)) as (u & -> & Hu). cbn [bind]. assert (Li : (i < length d')%nat) by (eapply Nat.lt_le_trans; [apply Hi|]; apply Nat.eq_le_incl; symmetry; exact Ld').
        unfold a_idx, a_setidx. cbn [adata arows acols]. rewrite (rd_nth _ _ (n0 (N := F))) by exact Li. cbn [bind].
        rewrite wr_ok by exact Li. cbn [bind]. eexists. split; [reflexivity|]. eexists. split; [reflexivity|]. split; [now rewrite upd_length|].
        split; [rewrite nth_upd_same by exact Li; eapply whole_weaken; [apply (whole_add _ _ _ _ _ _ D3 Hu); nia|nia]|].
        intros i' Hi'. rewrite nth_upd_other by auto. now apply D4.
    + eexists. split; [exact E|]. exists d'. split; [reflexivity|]. split; [exact Ld'|]. split.
      * intros k Hk. destruct (Nat.eq_dec k i) as [->|]; [exact D3|]. rewrite D4 by auto. apply D1. lia.
      * intros k Hk. rewrite D4 by lia. apply D2. lia.
  - rewrite E. cbn [bind]. eexists. split; [reflexivity|]. unfold a_muls, a_mapd. cbn [adata acols]. split; [now rewrite map_length|]. split; [reflexivity|].
    intros i Hi. rewrite (nth_map_lt _ _ _ _ (n0 (N := F))) by (eapply Nat.lt_le_trans; [exact Hi|]; apply Nat.eq_le_incl; symmetry; exact Ld).
    eapply whole_weaken; [exact (whole_twice _ _ _ (D i Hi) Sn)|lia].
Qed.
Lemma maxcut_f (gamma : F) : exists (gamma' : f64) g (beta : f64) b, maxcut_assess o x gamma = Ok (o, gamma' : F, ((g, mkSingle (N := F) beta), b)) /\
  (is_finite (gamma : f64) = true -> (b = true <-> B2R (gamma : f64) < cut_of n w s)) /\ ((gamma : f64) = B754_infinity true -> b = true) /\
  (b = true -> is_finite gamma' = true /\ B2R gamma' = cut_of n w s /\ is_finite beta = true /\ B2R beta = - cut_of n w s) /\ (b = false -> gamma' = gamma /\ beta = gamma) /\
  length (adata g) = n /\ acols g = 0%nat /\ all_finite g /\ (forall i, (i < n)%nat -> fcoords g i = - (2 * degree_of n w s i)).
Proof.
  unfold maxcut_assess. destruct mcf_value as (v & Ev & Fv & Vv & _). rewrite Ev. cbn [bind]. destruct mcf_grad as (g & E & L & C & G). rewrite E. cbn [bind].
  assert (Neg : length (adata (a_neg g)) = n /\ acols (a_neg g) = 0%nat /\ all_finite (a_neg g) /\ (forall i, (i < n)%nat -> fcoords (a_neg g) i = - (2 * degree_of n w s i))).
  { unfold a_neg, a_mapd. cbn [adata acols]. split; [now rewrite map_length|]. split; [exact C|]. split.
    - apply Forall_forall. intros u Hu. apply in_map_iff in Hu as (u0 & <- & Hu). apply (In_nth _ _ (n0 (N := F))) in Hu as (i & Hi & <-). rewrite L in Hi.
      change (is_finite (Bopp (nth i (adata g) (n0 (N := F)) : f64)) = true). rewrite is_finite_Bopp. apply (G i Hi).
    - intros i Hi. unfold fcoords. cbn [adata]. rewrite (nth_map_lt _ _ _ _ (n0 (N := F))) by (eapply Nat.lt_le_trans; [exact Hi|]; apply Nat.eq_le_incl; symmetry; exact L).
      change (B2R (Bopp (nth i (adata g) (n0 (N := F)) : f64)) = - (2 * degree_of n w s i)). rewrite B2R_Bopp. f_equal. apply (G i Hi). }
  change (nltb (n := F) gamma v) with (Bltb (gamma : f64) v). destruct (Bltb (gamma : f64) v) eqn:K.
  - exists v, (a_neg g), (Bopp v), true. split; [reflexivity|]. split. { intros Fg. rewrite (fltb_fin _ _ Fg Fv), Vv in K. split; [|auto]. intros _. destruct (Rlt_bool_spec (B2R (gamma : f64)) (cut_of n w s)); [auto|discriminate]. }
    split; [auto|]. split; [intros _; rewrite is_finite_Bopp, B2R_Bopp, Vv; auto|]. split; [discriminate|exact Neg].
  - exists (gamma : f64), (a_neg g), (gamma : f64), false. split; [reflexivity|]. split. { intros Fg. rewrite (fltb_fin _ _ Fg Fv), Vv in K. split; [discriminate|]. intros Q. destruct (Rlt_bool_spec (B2R (gamma : f64)) (cut_of n w s)); [discriminate|lra]. }
    split; [|split; [discriminate|split; [auto|exact Neg]]]. intros Eg. rewrite Eg in K. destruct v as [sv|sv| |sv m e Hb]; try discriminate; destruct sv; discriminate.
Qed.
End Any.

(** a query that is too short panics *)
Lemma mcf_len {lm : Libm} n B (o : Maxcut (FNum lm)) x (gamma : FNum lm) r : whole_graph n B o -> maxcut_assess o x gamma = Ok r -> (n <= length (adata x))%nat.
Proof.
  intros Ho E. pose proof (wg_n _ _ _ Ho) as Hn. pose proof (wg_dim _ _ _ Ho) as En. unfold maxcut_assess in E. apply bind_inv in E as (c & _ & E). apply bind_inv in E as (g & E & _).
  unfold mc_grad in E. apply bind_inv in E as (g1 & E & _). rewrite En in E.
  assert (L : length (adata (mc_sign (N := FNum lm) x)) = length (adata x)) by (unfold mc_sign, a_map, a_mapd; cbn; apply map_length).
  rewrite <- L. eapply (for_range_inv_ok (fun k _ => (k <= length (adata (mc_sign (N := FNum lm) x)))%nat) 0 n); [lia|exact E|lia|].
  intros i t t' Hi _ F. cbv beta in F. destruct (Nat.lt_ge_cases i (length (adata (mc_sign (N := FNum lm) x)))) as [Q|Q]; [lia|exfalso].
  destruct n as [|n]; [lia|]. unfold for_range in F. rewrite Nat.sub_0_r in F. cbn [for_up] in F. unfold a_idx in F at 1. rewrite rd_panic in F by exact Q. discriminate.
Qed.
Definition at_least (g0 g : f64) : Prop := (is_finite g = true \/ g = B754_infinity true) /\ (is_finite g0 = true -> is_finite g = true /\ B2R g0 <= B2R g).
Lemma maxcut_run {lm : Libm} {S : Type} (sp : SearchSpace (FNum lm) (Arr (FNum lm)) (SingleCut (FNum lm)) S) opt n B (o : Maxcut (FNum lm)) s (gamma : FNum lm) o' s' (gamma' : FNum lm) xb k :
  whole_graph n B o -> is_finite (gamma : f64) = true \/ (gamma : f64) = B754_infinity true -> cutting_plane_optim maxcut_assess sp opt o s gamma = Ok (o', s', gamma', (xb, k)) ->
  o' = o /\ (is_finite (gamma : f64) = true -> is_finite (gamma' : f64) = true /\ B2R (gamma : f64) <= B2R (gamma' : f64)) /\
  match xb with None => gamma' = gamma | Some x => is_finite (gamma' : f64) = true /\ B2R (gamma' : f64) = cut_of n (fentry n (mc_weights o)) (fside x) end.
Proof.
  intros Ho Hg E.
  destruct (optim_best2 maxcut_assess sp opt (fun q => q = o) (fun g => at_least gamma g) (fun x (g : FNum lm) => is_finite (g : f64) = true /\ B2R (g : f64) = cut_of n (fentry n (mc_weights o)) (fside x))
    ltac:(intros q y g q' g' [gr [be]] sh -> J K; pose proof (mcf_len n B o y g _ Ho K) as L;
      destruct (maxcut_f n B o y Ho L g) as (g2 & gr2 & b2 & sh2 & K2 & D1 & D2 & D3 & D4 & _);
      rewrite K in K2; inversion K2; subst q' g2 gr2 b2 sh2; split; [reflexivity|];
      destruct sh;
      [destruct (D3 eq_refl) as (D5 & D6 & _); split; [|auto]; split; [left; exact D5|]; intros Fg; split; [exact D5|];
         destruct J as [_ J]; destruct (J Fg) as [J1 J2]; pose proof (proj1 (D1 J1) eq_refl); lra
      |destruct (D4 eq_refl) as [D5 _]; split; [rewrite D5; exact J|exact D5]]) o s gamma o' s' gamma' xb k eq_refl) as (A & C & D).
  - split; [exact Hg|]. intros Fg. split; [exact Fg|lra].
  - exact E.
  - split; [exact A|]. split; [exact (proj2 C)|exact D].
Qed.
(** at a point of numbers the sides are those of C58 *)
Lemma fside_fin {lm : Libm} (x : Arr (FNum lm)) i : is_finite (nth i (adata x) (n0 (N := FNum lm)) : f64) = true -> fside x i = side (fcoords x) i.
Proof.
  intros H. unfold fside, side, fcoords. rewrite (fleb_fin (B754_zero false) _ eq_refl H). change (val (B754_zero false)) with 0. destruct (Rle_dec 0 _) as [Q|Q]; destruct (Rle_bool_spec 0 (B2R (nth i (adata x) (n0 (N := FNum lm)) : f64))); auto; lra.
Qed.
Lemma cut_fin {lm : Libm} n w (x : Arr (FNum lm)) : (forall i, (i < n)%nat -> is_finite (nth i (adata x) (n0 (N := FNum lm)) : f64) = true) -> cut_of n w (fside x) = cut_weight n w (fcoords x).
Proof. intros H. unfold cut_of, cut_weight. apply Rsum_ext. intros j Hj. apply Rsum_ext. intros i Hi. rewrite !fside_fin by (apply H; lia). reflexivity. Qed.

(** the complete graph on three vertices with weights 1, 2, 3 *)
Notation tri := (mkMaxcut (N := FNum lm0) (mkArr (N := FNum lm0) [nZ 0; nZ 1; nZ 2; nZ 1; nZ 0; nZ 3; nZ 2; nZ 3; nZ 0] 3 3) 3).
Lemma tri_ok : whole_graph 3 3 tri.
Proof.
  split; try lia; try reflexivity.
  - repeat constructor; apply fofZ_small; lia.
  - intros i j Hi Hj. unfold fentry. destruct i as [|[|[|i]]]; [| | |lia]; (destruct j as [|[|[|j]]]; [| | |lia]); cbn [Nat.mul Nat.add adata nth mc_weights]; eexists; (split; [apply fofZ_small; lia|lia]).
Qed.
Definition cut_is (o : Maxcut (FNum lm0)) (x : Arr (FNum lm0)) (ga : FNum lm0) : bool :=
  match maxcut_assess o x (nopp (n := FNum lm0) npinf) with Ok (_, ga', (_, true)) => neqb ga' ga | _ => false end.
Lemma tri_run : cut_is tri (mkArr (N := FNum lm0) [nZ 1; nZ 1; nZ (-1)] 3 0) (nZ 5) = true.
Proof. vm_compute. reflexivity. Qed.
