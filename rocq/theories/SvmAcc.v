(** The SVM oracle in binary64 (C124). *)
From Coq Require Import ZArith Reals Lra Lia Psatz List Bool Arith.
From Flocq Require Import Core IEEE754.BinarySingleNaN.
From Verif Require Import Num Res Arr ArrLemmas CuttingPlane DriverSpec DriverProofs DriverBest Spec RealLin LmiSpec FloatLemmas FloatErr KernAcc FcosAcc StepAccSpec ProfAcc Svm SvmSpec SvmProofs SvmAccSpec.
Import ListNotations.
Local Open Scope R_scope.
#[local] Opaque fadd fsub fmul fdiv fsqrt fofZ.

Lemma Rsum_const m c : Rsum m (fun _ => c) = INR m * c.
Proof. induction m as [|m IH]; [cbn; ring|]. rewrite S_INR. cbn [Rsum]. rewrite IH. ring. Qed.

Section S.
Context {lm : Libm} (r c : nat) (X W : R) (data : Arr (FNum lm)) (labels : list Z) (xc : Arr (FNum lm)).
Notation F := (FNum lm).
Hypothesis H : svm_range r c X W data labels xc.
Notation d := (fsamples data labels r c).
Notation z := (fcoords xc).
Notation E := (svm_err c X W).
Notation N := (INR c).
Notation vm := (v_margin (N := F) c data labels xc).
Notation ac i := (accum (N := F) nsum0 (fun j => nmul (n := F) (vget xc j) (mget c (adata data) i j)) c).

Lemma N1 : 1 <= N. Proof. replace 1 with (INR 1) by reflexivity. apply le_INR. apply (sr_cols _ _ _ _ _ _ _ H). Qed.
Lemma N8 : 8 * N * uu <= 1. Proof. apply nu8. apply (sr_dim _ _ _ _ _ _ _ H). Qed.
Lemma W0 : 0 <= W. Proof. eapply Rle_trans; [apply Rabs_pos|apply (sr_query _ _ _ _ _ _ _ H 0%nat); lia]. Qed.
Lemma label_ok i : (i < r)%nat -> exists s, (s = 1 \/ s = -1) /\ val (nZ (n := F) (nth i labels 0%Z) : f64) = s /\ fin (nZ (n := F) (nth i labels 0%Z) : f64) = true /\ IZR (nth i labels 0%Z) = s.
Proof.
  intros Hi. exists (IZR (nth i labels 0%Z)). change (nZ (n := F) (nth i labels 0%Z) : f64) with (fofZ (nth i labels 0%Z)).
  destruct (sr_lab _ _ _ _ _ _ _ H i Hi) as [E1|E1]; rewrite E1; (split; [cbn; lra|]); destruct (fofZ_small (nth i labels 0%Z)) as [V Fi]; try (rewrite E1; cbn; lia); rewrite E1 in *; auto.
Qed.
Lemma sign_mul (s x : f64) : fin s = true -> fin x = true -> (val s = 1 \/ val s = -1) -> val (fmul s x) = val s * val x /\ fin (fmul s x) = true.
Proof.
  intros Fs Fx Hs. assert (G : rnd (val s * val x) = val s * val x).
  { destruct Hs as [->| ->]; [rewrite Rmult_1_l; apply rnd_val|]. replace (-1 * val x) with (- val x) by ring. rewrite <- (B2R_Bopp _ _ x). apply rnd_val. }
  destruct (fmul_fin s x Fs Fx) as [V Fi]; [|rewrite G in V; auto]. rewrite G. destruct Hs as [->| ->]; rewrite Rabs_mult; [rewrite Rabs_R1|replace (-1) with (- (1)) by ring; rewrite Rabs_Ropp, Rabs_R1]; rewrite Rmult_1_l; apply val_bound.
Qed.
Lemma data_fin i j : (i < r)%nat -> (j < c)%nat -> fin (mget c (adata data) i j : f64) = true.
Proof.
  intros Hi Hj. pose proof (sr_data _ _ _ _ _ _ _ H) as A. unfold all_finite in A. rewrite Forall_forall in A. apply A. unfold mget. apply nth_In.
  destruct (sr_mat _ _ _ _ _ _ _ H) as (L & _). change (length (adata data : list F) = (r * c)%nat) in L. assert (LL : (i * c + j < r * c)%nat) by nia. rewrite <- L in LL. exact LL.
Qed.
Lemma z_fin j : (j <= c)%nat -> fin (vget xc j : f64) = true.
Proof. intros Hj. apply vget_fin; [apply (sr_fin _ _ _ _ _ _ _ H)|]. pose proof (sr_vec _ _ _ _ _ _ _ H) as L. exact (Nat.le_lt_trans _ _ _ Hj L). Qed.
Lemma prod_b i j : (i < r)%nat -> (j < c)%nat -> Rabs (z j * fentry c data i j) <= X * W.
Proof.
  intros Hi Hj. rewrite Rabs_mult, Rmult_comm. apply Rmult_le_compat; try apply Rabs_pos; [apply (sr_size _ _ _ _ _ _ _ H); auto|apply (sr_query _ _ _ _ _ _ _ H); lia].
Qed.
Lemma XW600 i : (i < r)%nat -> 0 <= X * W <= bpow radix2 600.
Proof.
  intros Hi. pose proof W0. pose proof (sr_cols _ _ _ _ _ _ _ H). assert (0 <= X) by (eapply Rle_trans; [apply Rabs_pos|apply (sr_size _ _ _ _ _ _ _ H i 0%nat Hi); lia]).
  split; [nra|]. change 600%Z with (300 + 300)%Z. rewrite bpow_plus. apply Rmult_le_compat; auto; [apply (sr_X _ _ _ _ _ _ _ H)|apply (sr_W _ _ _ _ _ _ _ H)].
Qed.
Lemma ac_ok i : (i < r)%nat -> fin (ac i : f64) = true /\ Rabs (val (ac i : f64) - dot c z (fentry c data i)) <= 3 * N * uu * (N * (X * W)) + 4 * N * ee /\ Rabs (dot c z (fentry c data i)) <= N * (X * W).
Proof.
  intros Hi. assert (Fa : fin (ac i : f64) = true).
  { apply (accum_small lm (nsum0 (n := F)) (fun j => vget xc j) (fun j => mget c (adata data) i j) eq_refl eq_refl c (sr_dim _ _ _ _ _ _ _ H)). intros j Hj. split; [apply z_fin; lia|]. split; [apply data_fin; auto|].
    eapply Rle_trans; [exact (prod_b i j Hi Hj)|apply (XW600 i Hi)]. }
  assert (SB : Rsum c (fun j => Rabs (z j * fentry c data i j)) <= N * (X * W)). { rewrite <- Rsum_const. apply Rsum_le. intros j Hj. apply prod_b; auto. }
  split; [exact Fa|]. split.
  - eapply Rle_trans; [exact (accum_err_z lm (nsum0 (n := F)) (fun j => vget xc j) (fun j => mget c (adata data) i j) eq_refl c Fa N8)|].
    apply Rplus_le_compat_r. apply Rmult_le_compat_l; [|exact SB]. pose proof N1. pose proof (bpow_gt_0 radix2 (-53)). apply Rmult_le_pos; lra.
  - eapply Rle_trans; [apply Rabs_Rsum|exact SB].
Qed.
Lemma vm_ok i : (i < r)%nat -> fin (vm i : f64) = true /\ Rabs (val (vm i : f64) - margin d z i) <= E.
Proof.
  intros Hi. destruct (ac_ok i Hi) as (Fa & Ea & Da). destruct (label_ok i Hi) as (s & Hs & Vs & Fs & Is). pose proof (z_fin c (le_n _)) as Fb. pose proof (sr_query _ _ _ _ _ _ _ H c (le_n _)) as Bb.
  pose proof N1. pose proof N8. pose proof W0. destruct (XW600 i Hi) as [P0 P600]. set (P := X * W) in *. pose proof uu_small as U. pose proof (bpow_gt_0 radix2 (-53)) as U0. pose proof (bpow_gt_0 radix2 (-1075)) as E0.
  set (D := dot c z (fentry c data i)) in *. set (B := z c) in *. change (B2R (vget xc c : f64)) with B in *.
  assert (NP : 0 <= N * P) by (apply Rmult_le_pos; lra).
  assert (T1 : 3 * N * uu * (N * P) <= N * P) by (replace (3 * N * uu * (N * P)) with (3 / 8 * (8 * N * uu) * (N * P)) by field; nra).
  assert (EE : ee * N <= uu). { pose proof ee_small. assert (N <= / uu) by (apply (Rmult_le_reg_r uu); [lra|]; rewrite Rinv_l by lra; lra). apply Rle_trans with (ee * / uu); [apply Rmult_le_compat_l; lra|]. rewrite <- bpow_opp, <- bpow_plus. apply bpow_le. lia. }
  assert (SB : Rabs (val (ac i : f64) + B) <= 2 * (N * P) + W + 1).
  { replace (val (ac i : f64) + B) with ((val (ac i : f64) - D) + D + B) by ring. eapply Rle_trans; [apply Rabs_triang|]. eapply Rle_trans; [apply Rplus_le_compat_r, Rabs_triang|]. change (B2R (vget xc c : f64)) with B in Bb. nra. }
  assert (Big : 2 * (N * P) + W + 1 <= bpow radix2 1010).
  { assert (N <= bpow radix2 26). { rewrite INR_IZR_INZ. replace (bpow radix2 26) with (IZR (2 ^ 26)) by reflexivity. apply IZR_le, (sr_dim _ _ _ _ _ _ _ H). }
    assert (N * P <= bpow radix2 626). { change 626%Z with (26 + 600)%Z. rewrite bpow_plus. apply Rmult_le_compat; lra. }
    pose proof (sr_W _ _ _ _ _ _ _ H). assert (bpow radix2 300 <= bpow radix2 626) by (apply bpow_le; lia). assert (1 <= bpow radix2 626) by (replace 1 with (bpow radix2 0) by reflexivity; apply bpow_le; lia).
    assert (4 * bpow radix2 626 <= bpow radix2 1010). { replace 4 with (bpow radix2 2) by (simpl; lra). rewrite <- bpow_plus. apply bpow_le. lia. } lra. }
  destruct (fadd_fin (ac i) (vget xc c) Fa Fb) as [Va Fs2]. { apply big_fin. change (val (vget xc c : f64)) with B. lra. }
  change (val (vget xc c : f64)) with B in Va.
  destruct (sign_mul (nZ (n := F) (nth i labels 0%Z)) (fadd (ac i) (vget xc c)) Fs Fs2) as [Vm Fm]; [rewrite Vs; exact Hs|].
  change (vm i : f64) with (fmul (nZ (n := F) (nth i labels 0%Z)) (fadd (ac i) (vget xc c))). split; [exact Fm|].
  rewrite Vm, Vs, Va. unfold margin. cbn [s_y s_x s_cols fsamples]. rewrite Is. fold B.
  change (dot c z (fun j => fentry c data i j)) with D. change (dot c z (fentry c data i)) with D.
  rewrite <- Rmult_minus_distr_l, Rabs_mult. replace (Rabs s) with 1 by (destruct Hs as [->| ->]; [now rewrite Rabs_R1|replace (-1) with (- (1)) by ring; now rewrite Rabs_Ropp, Rabs_R1]). rewrite Rmult_1_l.
  pose proof (rnd_err (val (ac i : f64) + B)) as RE.
  replace (rnd (val (ac i : f64) + B) - (D + B)) with ((rnd (val (ac i : f64) + B) - (val (ac i : f64) + B)) + (val (ac i : f64) - D)) by ring.
  eapply Rle_trans; [apply Rabs_triang|].
  assert (SB2 : Rabs (val (ac i : f64) + B) <= (3 * N * uu * (N * P) + 4 * N * ee) + N * P + W).
  { replace (val (ac i : f64) + B) with ((val (ac i : f64) - D) + D + B) by ring. eapply Rle_trans; [apply Rabs_triang|]. eapply Rle_trans; [apply Rplus_le_compat_r, Rabs_triang|]. change (B2R (vget xc c : f64)) with B in Bb. lra. }
  assert (UB : uu * Rabs (val (ac i : f64) + B) <= uu * ((3 * N * uu * (N * P) + 4 * N * ee) + N * P + W)) by (apply Rmult_le_compat_l; lra).
  assert (UN : uu * (N * P) <= uu * (N * N * P)). { apply Rmult_le_compat_l; [lra|]. rewrite Rmult_assoc. apply Rle_trans with (1 * (N * P)); [lra|]. apply Rmult_le_compat_r; lra. }
  assert (UT : uu * (3 * N * uu * (N * P)) <= uu * (N * P)) by (apply Rmult_le_compat_l; lra).
  assert (UE : uu * (4 * N * ee) <= ee). { replace (uu * (4 * N * ee)) with (4 * N * uu * ee) by ring. apply Rle_trans with (1 * ee); [apply Rmult_le_compat_r; lra|lra]. }
  assert (EN : ee <= ee * N) by nra.
  unfold svm_err. fold P. rewrite !Rmult_plus_distr_l in UB.
  replace (3 * N * uu * (N * P)) with (3 * (uu * (N * N * P))) in Ea by ring.
  replace (5 * (N * N) * uu * P) with (5 * (uu * (N * N * P))) by ring. replace (6 * N * ee) with (6 * (ee * N)) by ring. replace (4 * N * ee) with (4 * (ee * N)) in Ea by ring. lra.
Qed.
Lemma rm_ok k : (k <= r)%nat -> (0 < k)%nat ->
  exists j, run_min (N := F) c data labels xc k = (vm j, j) /\ (j < k)%nat /\ forall i, (i < k)%nat -> val (vm j : f64) <= val (vm i : f64).
Proof.
  induction k as [|k IH]; intros Hk K0; [lia|]. destruct (vm_ok k ltac:(lia)) as [Fk _]. destruct k as [|k].
  - exists 0%nat. cbn [run_min fst]. split.
    + change (nltb (n := F) (vm 0%nat) npinf) with (Bltb (vm 0%nat : f64) (npinf (n := F))).
      assert (B : Bltb (vm 0%nat : f64) (npinf (n := F)) = true). { destruct (vm 0%nat : f64) as [s|s| |s m e B]; try discriminate; destruct s; reflexivity. } rewrite B. reflexivity.
    + split; [lia|]. intros i Hi. assert (i = 0)%nat as -> by lia. lra.
  - destruct IH as (j & Ej & J1 & J2); [lia..|]. destruct (vm_ok j ltac:(lia)) as [Fj _]. cbn [run_min] in Ej |- *. cbn [run_min]. rewrite Ej. cbn [fst].
    change (nltb (n := F) (vm (S k)) (vm j)) with (Bltb (vm (S k) : f64) (vm j : f64)). rewrite (fltb_fin _ _ Fk Fj). destruct (Rlt_bool_spec (val (vm (S k) : f64)) (val (vm j : f64))) as [C|C].
    + exists (S k). split; [reflexivity|]. split; [lia|]. intros i Hi. destruct (Nat.eq_dec i (S k)) as [->|]; [lra|]. specialize (J2 i ltac:(lia)). lra.
    + exists j. split; [reflexivity|]. split; [lia|]. intros i Hi. destruct (Nat.eq_dec i (S k)) as [->|]; [exact C|]. apply J2. lia.
Qed.

Lemma svm_call (gamma : F) : exists (gamma' : f64) g (beta : f64), svm_assess (svm_new data labels) xc gamma = Ok (svm_new data labels, gamma' : F, ((g, mkSingle (N := F) beta), true)) /\
  length (adata g) = (c + 1)%nat /\ acols g = 0%nat /\ all_finite g /\ fin gamma' = true /\ beta = gamma' /\
  ((val gamma' = 0 /\ (forall j, (j < c + 1)%nat -> fcoords g j = 0) /\ forall i, (i < r)%nat -> 1 - E <= margin d z i) \/
   (exists k, (k < r)%nat /\ val gamma' < 1 /\ Rabs (val gamma' - margin d z k) <= E /\ (forall i, (i < r)%nat -> val gamma' <= margin d z i + E) /\
     (forall j, (j < c)%nat -> fcoords g j = - (IZR (nth k labels 0%Z) * fentry c data k j)) /\ fcoords g c = - IZR (nth k labels 0%Z) /\
     forall u, (forall i, (i < r)%nat -> val gamma' + E <= margin d u i) -> dot (c + 1) (fcoords g) (fun j => u j - z j) <= 0)).
Proof.
  pose proof (svm_assess_ok (N := F) r c data labels xc (sr_cols _ _ _ _ _ _ _ H) (sr_mat _ _ _ _ _ _ _ H) (sr_len _ _ _ _ _ _ _ H) (sr_vec _ _ _ _ _ _ _ H) gamma) as K.
  assert (Zero : forall m k, run_min (N := F) c data labels xc r = (m, k) -> nleb (n := F) n1 m = true -> (forall i, (i < r)%nat -> 1 - E <= margin d z i) -> exists (gamma' : f64) g (beta : f64),
    svm_assess (svm_new data labels) xc gamma = Ok (svm_new data labels, gamma' : F, ((g, mkSingle (N := F) beta), true)) /\
    length (adata g) = (c + 1)%nat /\ acols g = 0%nat /\ all_finite g /\ fin gamma' = true /\ beta = gamma' /\ val gamma' = 0 /\ (forall j, (j < c + 1)%nat -> fcoords g j = 0) /\ forall i, (i < r)%nat -> 1 - E <= margin d z i).
  { intros m k Em Hm Hall. specialize (K m k Em (or_introl Hm)). rewrite Hm in K. exists (n0 (N := F)), (a_new (N := F) (c + 1)), (n0 (N := F)). split; [exact K|].
    split; [apply repeat_length|]. split; [reflexivity|]. split; [apply Forall_forall; intros v Hv; apply repeat_spec in Hv; rewrite Hv; reflexivity|]. split; [reflexivity|]. split; [reflexivity|]. split; [reflexivity|]. split; [|exact Hall].
    intros j Hj. unfold fcoords. cbn [a_new adata]. rewrite nth_repeat. reflexivity. }
  destruct (Nat.eq_dec r 0) as [R0|R0].
  - destruct (Zero (npinf (n := F)) 0%nat) as (g1 & g & b1 & A & B & C & D & E1 & E2 & E3 & E4 & E5); [rewrite R0; reflexivity|vm_compute; reflexivity|intros; lia|].
    exists g1, g, b1. do 6 (split; [assumption|]). left. auto.
  - destruct (rm_ok r (le_n _) ltac:(lia)) as (k & Ek & K1 & K2). destruct (vm_ok k K1) as [Fk Bk].
    assert (N1v : val (n1 (N := F) : f64) = 1 /\ fin (n1 (N := F) : f64) = true) by (apply (fofZ_small 1); cbn; lia). destruct N1v as [N1v N1f].
    destruct (nleb (n := F) n1 (vm k)) eqn:C.
    + destruct (Zero (vm k) k Ek C) as (g1 & g & b1 & A & B & C1 & D & E1 & E2 & E3 & E4 & E5).
      * intros i Hi. change (Bleb (n1 (N := F) : f64) (vm k : f64) = true) in C. rewrite (fleb_fin _ _ N1f Fk), N1v in C. destruct (Rle_bool_spec 1 (val (vm k : f64))); [|discriminate].
        destruct (vm_ok i Hi) as [_ Bi]. specialize (K2 i Hi). apply Rabs_le_inv in Bi. lra.
      * exists g1, g, b1. do 6 (split; [assumption|]). left. auto.
    + assert (Rp : (0 < r)%nat) by lia. specialize (K (vm k) k Ek (or_intror Rp)). rewrite C in K. change (Bleb (n1 (N := F) : f64) (vm k : f64) = false) in C. rewrite (fleb_fin _ _ N1f Fk), N1v in C. destruct (Rle_bool_spec 1 (val (vm k : f64))) as [|C']; [discriminate|].
      destruct (label_ok k K1) as (s & Hs & Vs & Fs & Is).
      set (g := a_from (N := F) (map (fun j => nmul (n := F) (nopp (n := F) (nZ (n := F) (nth k labels 0%Z))) (mget c (adata data) k j)) (seq 0 c) ++ [nopp (n := F) (nZ (n := F) (nth k labels 0%Z))])) in *.
      assert (Vn : val (nopp (n := F) (nZ (n := F) (nth k labels 0%Z)) : f64) = - s /\ fin (nopp (n := F) (nZ (n := F) (nth k labels 0%Z)) : f64) = true).
      { change (nopp (n := F) (nZ (n := F) (nth k labels 0%Z)) : f64) with (Bopp (nZ (n := F) (nth k labels 0%Z) : f64)). rewrite B2R_Bopp, is_finite_Bopp. split; [now rewrite Vs|exact Fs]. }
      destruct Vn as [Vn Fn].
      assert (Mg : forall j, (j < c)%nat -> val (fmul (nopp (n := F) (nZ (n := F) (nth k labels 0%Z)) : f64) (mget c (adata data) k j : f64)) = - (s * fentry c data k j) /\ fin (fmul (nopp (n := F) (nZ (n := F) (nth k labels 0%Z)) : f64) (mget c (adata data) k j : f64)) = true).
      { intros j Hj. destruct (sign_mul _ (mget c (adata data) k j : f64) Fn (data_fin k j K1 Hj)) as [V1 V2]; [rewrite Vn; destruct Hs as [->| ->]; [right|left]; ring|]. split; [|exact V2]. rewrite V1, Vn. change (val (mget c (adata data) k j : f64)) with (fentry c data k j). ring. }
      assert (G1 : forall j, (j < c)%nat -> fcoords g j = - (IZR (nth k labels 0%Z) * fentry c data k j)).
      { intros j Hj. rewrite Is, <- (proj1 (Mg j Hj)). unfold fcoords, g. cbn [a_from adata]. rewrite app_nth1 by (rewrite map_length, seq_length; exact Hj). rewrite nth_map_seq by exact Hj. reflexivity. }
      assert (G2 : fcoords g c = - IZR (nth k labels 0%Z)).
      { rewrite Is, <- Vn. unfold fcoords, g. cbn [a_from adata]. rewrite app_nth2 by (rewrite map_length, seq_length; lia). rewrite map_length, seq_length, Nat.sub_diag. reflexivity. }
      exists (vm k : f64), g, (vm k : f64). split; [exact K|]. split; [unfold g; cbn [a_from adata]; rewrite app_length, map_length, seq_length; reflexivity|]. split; [reflexivity|].
      split. { unfold all_finite, g. cbn [a_from adata]. apply Forall_app. split; [|constructor; [exact Fn|constructor]]. apply Forall_forall. intros v Hv. apply in_map_iff in Hv as (j & <- & Hj). apply in_seq in Hj. apply (proj2 (Mg j ltac:(lia))). }
      split; [exact Fk|]. split; [reflexivity|]. right. exists k. split; [exact K1|]. split; [exact C'|]. split; [exact Bk|].
      split. { intros i Hi. destruct (vm_ok i Hi) as [_ Bi]. specialize (K2 i Hi). apply Rabs_le_inv in Bi. lra. }
      split; [exact G1|]. split; [exact G2|].
      intros u Hu. specialize (Hu k K1). apply Rabs_le_inv in Bk.
      assert (Ed : dot (c + 1) (fcoords g) (fun j => u j - z j) = margin d z k - margin d u k).
      { unfold margin, dot. cbn [s_y s_x s_cols fsamples]. rewrite Nat.add_1_r. cbn [Rsum]. rewrite G2. rewrite (Rsum_ext c _ (fun j => (IZR (nth k labels 0%Z)) * (z j * fentry c data k j) - (IZR (nth k labels 0%Z)) * (u j * fentry c data k j))) by (intros j Hj; rewrite G1 by exact Hj; ring).
        rewrite Rsum_minus, !Rsum_scal. ring. }
      rewrite Ed. lra.
Qed.
End S.

(** the reported level belongs to the reported point *)
Lemma svm_run_f {lm : Libm} {S : Type} (sp : SearchSpace (FNum lm) (Arr (FNum lm)) (SingleCut (FNum lm)) S) opt r c X W data labels s (gamma : FNum lm) o' s' (gamma' : FNum lm) x k :
  cutting_plane_optim svm_assess sp opt (svm_new data labels) s gamma = Ok (o', s', gamma', (Some x, k)) -> svm_range r c X W data labels x ->
  o' = svm_new data labels /\ is_finite (gamma' : f64) = true /\
  ((B2R (gamma' : f64) = 0 /\ forall i, (i < r)%nat -> 1 - svm_err c X W <= margin (fsamples data labels r c) (fcoords x) i) \/
   (B2R (gamma' : f64) < 1 /\ (forall i, (i < r)%nat -> B2R (gamma' : f64) <= margin (fsamples data labels r c) (fcoords x) i + svm_err c X W) /\
    exists i, (i < r)%nat /\ margin (fsamples data labels r c) (fcoords x) i <= B2R (gamma' : f64) + svm_err c X W)).
Proof.
  intros E Hx.
  destruct (optim_best2 svm_assess sp opt (fun q => q = svm_new data labels) (fun _ => True) (fun x (g : FNum lm) => svm_range r c X W data labels x -> is_finite (g : f64) = true /\
    ((B2R (g : f64) = 0 /\ forall i, (i < r)%nat -> 1 - svm_err c X W <= margin (fsamples data labels r c) (fcoords x) i) \/
     (B2R (g : f64) < 1 /\ (forall i, (i < r)%nat -> B2R (g : f64) <= margin (fsamples data labels r c) (fcoords x) i + svm_err c X W) /\
      exists i, (i < r)%nat /\ margin (fsamples data labels r c) (fcoords x) i <= B2R (g : f64) + svm_err c X W)))
    ltac:(intros q y g q' g' cut sh -> _ K; destruct (svm_always _ _ _ _ _ _ _ K) as [-> ->]; split; [reflexivity|]; split; [exact I|]; intros Hy;
      destruct (svm_call r c X W data labels y Hy g) as (g2 & gr & b2 & K2 & _ & _ & _ & Fg & _ & D); rewrite K in K2; injection K2 as -> _; split; [exact Fg|];
      destruct D as [(D1 & _ & D3)|(i & I1 & I2 & I3 & I4 & _)]; [left; auto|right]; split; [exact I2|]; split; [exact I4|]; exists i; split; [exact I1|]; apply Rabs_le_inv in I3; lra)
    (svm_new data labels) s gamma o' s' gamma' (Some x) k eq_refl I E) as (A & _ & D).
  split; [exact A|exact (D Hx)].
Qed.
