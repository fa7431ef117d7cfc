(** What the max-cut oracle computes. *)
From Coq Require Import ZArith Reals List Bool Arith Lia Lra.
From Flocq Require Import Core.
From Verif Require Import Num Res Arr ArrLemmas CuttingPlane DriverSpec DriverProofs DriverBest Spec RealLin EllReal LdltProofs LmiSpec Svm SvmSpec.
Import ListNotations.
Open Scope R_scope.

Lemma nth_map_lt {A B} (f : A -> B) l i d d' : (i < length l)%nat -> nth i (map f l) d = f (nth i l d').
Proof. intros H. rewrite (nth_indep _ d (f d')) by (now rewrite map_length). apply map_nth. Qed.
(** the two ways of adding up the edges *)
Lemma Rsum_swap_tri n f : Rsum n (fun i => Rsum n (fun j => if (i <? j)%nat then f i j else 0)) = Rsum n (fun j => Rsum j (fun i => f i j)).
Proof.
  induction n as [|n IH]; [reflexivity|]. cbn [Rsum]. rewrite <- IH. clear IH.
  rewrite (Rsum_ext n (fun i => Rsum n _ + _) (fun i => Rsum n (fun j => if (i <? j)%nat then f i j else 0) + f i n)).
  2: { intros i Hi. rewrite (proj2 (Nat.ltb_lt i n)) by lia. reflexivity. }
  rewrite Rsum_plus. rewrite (Rsum_zero n (fun j => if (n <? j)%nat then f n j else 0)).
  2: { intros j Hj. rewrite (proj2 (Nat.ltb_ge n j)) by lia. reflexivity. }
  rewrite (proj2 (Nat.ltb_ge n n)) by lia. ring.
Qed.

Section Any.
Variables (n : nat) (w : mtx) (o : Maxcut RNum) (x : Arr RNum).
Hypotheses (Ho : mc_about o n w) (Lx : (n <= length (adata x))%nat).
Notation sg := (mc_sign (N := RNum) x).
Lemma sg_len : (n <= length (adata sg))%nat.
Proof. unfold mc_sign, a_map, a_mapd. cbn. now rewrite map_length. Qed.
Lemma sg_nth i : (i < n)%nat -> nth i (adata sg) 0 = if side (xvec x) i then 1 else -1.
Proof.
  intros Hi. unfold mc_sign, a_map, a_mapd. cbn [adata].
  rewrite (nth_map_lt _ _ _ _ 0) by (change (num RNum) with R in *; lia). unfold side, xvec.
  change (nleb (n := RNum)) with Rle_bool. change (n0 (N := RNum)) with 0. destruct (Rle_dec 0 _) as [H|H].
  - rewrite (proj2 (Rle_bool_iff _ _)) by exact H. reflexivity.
  - rewrite (proj2 (Rle_bool_no _ _)) by (apply Rnot_le_lt; exact H). reflexivity.
Qed.
Lemma sg_neq i j : (i < n)%nat -> (j < n)%nat ->
  negb (neqb (n := RNum) (nth i (adata sg) 0) (nth j (adata sg) 0)) = negb (Bool.eqb (side (xvec x) i) (side (xvec x) j)).
Proof.
  intros Hi Hj. rewrite !sg_nth by auto. f_equal. change (neqb (n := RNum)) with Req_bool.
  destruct (side (xvec x) i), (side (xvec x) j); cbn [Bool.eqb]; (apply Req_bool_iff || apply Req_bool_no); lra.
Qed.
Lemma w_idx i j : (i < n)%nat -> (j < n)%nat -> a_idx2 (mc_weights o) i j = Ok (w i j).
Proof.
  intros Hi Hj. destruct Ho as (_ & E & En & L & W). unfold a_idx2.
  assert (C : acols (mc_weights o) = n).
  { unfold maxcut_new in E. destruct (Nat.eqb_spec (arows (mc_weights o)) (acols (mc_weights o))) as [Q|]; [|discriminate]. cbn [assert] in E.
    destruct (a_is_2d (mc_weights o)); [|discriminate]. cbn [assert] in E. inversion E as [E1]. rewrite <- E1 in En. cbn in En. congruence. }
  rewrite C. rewrite (rd_nth _ _ 0) by (change (num RNum) with R in *; rewrite L; apply flat_lt; auto). now rewrite W.
Qed.
Lemma sg_idx i : (i < n)%nat -> a_idx sg i = Ok (nth i (adata sg) 0).
Proof. intros Hi. unfold a_idx. apply rd_nth. pose proof sg_len. lia. Qed.

Lemma mc_value_ok : mc_value (N := RNum) o sg = Ok (cut_weight n w (xvec x)).
Proof.
  destruct Ho as (_ & _ & En & _ & _). unfold mc_value. rewrite En. unfold cut_weight. rewrite <- Rsum_swap_tri.
  set (e := fun i j => if Bool.eqb (side (xvec x) i) (side (xvec x) j) then 0 else w i j).
  match goal with |- for_range 0 n ?B ?z = _ => destruct (for_range_inv (fun k (c : R) => c = Rsum k (fun i => Rsum n (fun j => if (i <? j)%nat then e i j else 0))) 0 n B z) as (s & E & ->) end;
  [lia|reflexivity| |exact E].
  intros i c Hi Ec. cbn [Rsum]. rewrite <- Ec.
  match goal with |- exists t', for_range _ _ ?B c = _ /\ _ =>
    destruct (for_range_inv (fun k (c' : R) => c' = c + Rsum k (fun j => if (i <? j)%nat then e i j else 0)) (i + 1) n B c) as (s & E & Es) end.
  - lia.
  - rewrite Rsum_zero; [ring|]. intros j Hj. rewrite (proj2 (Nat.ltb_ge i j)) by lia. reflexivity.
  - intros j c' Hj Ec'. rewrite (sg_idx i), (sg_idx j) by lia. cbn [bind]. rewrite sg_neq by lia. cbn [Rsum].
    rewrite (proj2 (Nat.ltb_lt i j)) by lia. unfold e at 2. destruct (Bool.eqb (side (xvec x) i) (side (xvec x) j)); cbn [negb].
    + eexists. split; [reflexivity|]. rewrite Ec'. ring.
    + rewrite w_idx by lia. cbn [bind]. eexists. split; [reflexivity|]. rewrite Ec'. cbn [nadd RNum]. ring.
  - exists s. split; [exact E|exact Es].
Qed.
Lemma mc_grad_ok : exists g, mc_grad (N := RNum) o sg = Ok g /\ length (adata g) = n /\ acols g = 0%nat /\
  forall i, (i < n)%nat -> xvec g i = 2 * cut_degree n w (xvec x) i.
Proof.
  destruct Ho as (_ & _ & En & _ & _). unfold mc_grad. rewrite En. unfold cut_degree.
  set (e := fun i j => if Bool.eqb (side (xvec x) i) (side (xvec x) j) then 0 else w i j).
  match goal with |- exists g, bind (for_range 0 n ?B ?z) _ = _ /\ _ => destruct (for_range_inv (fun k (g : Arr RNum) => exists d, g = mkArr (N := RNum) d n 0 /\ length d = n /\ 
     (forall i, (i < k)%nat -> nth i d 0 = Rsum n (fun j => e i j)) /\ forall i, (k <= i < n)%nat -> nth i d 0 = 0) 0 n B z) as (s & E & d & -> & Ld & D & _) end.
  - lia.
  - exists (repeat 0 n). split; [reflexivity|]. split; [apply repeat_length|]. split; [intros; lia|]. intros; apply nth_repeat.
  - intros i g Hi (d & -> & Ld & D1 & D2).
    match goal with |- exists t', for_range _ _ ?B ?z = _ /\ _ =>
      destruct (for_range_inv (fun k (g' : Arr RNum) => exists d', g' = mkArr (N := RNum) d' n 0 /\ length d' = n /\ nth i d' 0 = Rsum k (fun j => e i j) /\ forall i', i' <> i -> nth i' d' 0 = nth i' d 0) 0 n B z) as (s & E & d' & -> & Ld' & D3 & D4) end.
    + lia.
    + exists d. split; [reflexivity|]. split; [exact Ld|]. split; [apply D2; lia|auto].
    + intros j g' Hj (d' & -> & Ld' & D3 & D4). rewrite (sg_idx i), (sg_idx j) by lia. cbn [bind]. rewrite sg_neq by lia. cbn [Rsum]. unfold e at 2.
      destruct (Bool.eqb (side (xvec x) i) (side (xvec x) j)); cbn [negb].
      * eexists. split; [reflexivity|]. exists d'. split; [reflexivity|]. split; [exact Ld'|]. split; [rewrite Rplus_0_r; exact D3|exact D4].
      * rewrite w_idx by lia. cbn [bind]. unfold a_idx, a_setidx. cbn [adata arows acols]. rewrite (rd_nth _ _ 0) by (change (num RNum) with R in *; lia). cbn [bind].
        rewrite wr_ok by (change (num RNum) with R in *; lia). cbn [bind]. eexists. split; [reflexivity|]. eexists. split; [reflexivity|]. split; [now rewrite upd_length|].
        split; [rewrite nth_upd_same by (change (num RNum) with R in *; lia); rewrite <- D3; reflexivity|].
        intros i' Hi'. rewrite nth_upd_other by auto. now apply D4.
    + eexists. split; [exact E|]. exists d'. split; [reflexivity|]. split; [exact Ld'|]. split.
      * intros k Hk. destruct (Nat.eq_dec k i) as [->|]; [exact D3|]. rewrite D4 by auto. apply D1. lia.
      * intros k Hk. rewrite D4 by lia. apply D2. lia.
  - rewrite E. cbn [bind]. eexists. split; [reflexivity|]. unfold a_muls, a_mapd, xvec. cbn [adata acols]. split; [now rewrite map_length|]. split; [reflexivity|].
    intros i Hi. rewrite (nth_map_lt _ _ _ _ 0) by (change (num RNum) with R in *; lia).
    rewrite D by auto. unfold n2. cbn [nmul nZ RNum]. change (num RNum) with R. apply Rmult_comm.
Qed.
Lemma maxcut_ok (gamma : R) : exists gamma' g beta b, maxcut_assess (N := RNum) o x gamma = Ok (o, gamma', ((g, mkSingle (N := RNum) beta), b)) /\
  (b = true <-> gamma < cut_weight n w (xvec x)) /\
  (b = true -> gamma' = cut_weight n w (xvec x) /\ beta = - gamma') /\ (b = false -> gamma' = gamma /\ beta = gamma) /\
  length (adata g) = n /\ acols g = 0%nat /\ (forall i, (i < n)%nat -> xvec g i = - (2 * cut_degree n w (xvec x) i)).
Proof.
  unfold maxcut_assess. rewrite mc_value_ok. cbn [bind]. destruct mc_grad_ok as (g & E & L & C & G). rewrite E. cbn [bind].
  assert (Neg : length (adata (a_neg g)) = n /\ acols (a_neg g) = 0%nat /\ (forall i, (i < n)%nat -> xvec (a_neg g) i = - (2 * cut_degree n w (xvec x) i))).
  { unfold a_neg, a_mapd. cbn [adata acols]. split; [now rewrite map_length|]. split; [exact C|]. intros i Hi. unfold xvec at 1. cbn [adata].
    rewrite (nth_map_lt _ _ _ _ 0) by (change (num RNum) with R in *; lia). rewrite <- G by auto. reflexivity. }
  change (nltb (n := RNum)) with Rlt_bool. destruct (Rlt_bool gamma (cut_weight n w (xvec x))) eqn:K.
  - apply Rlt_bool_iff in K. do 4 eexists. split; [reflexivity|]. split; [tauto|]. split; [auto|]. split; [discriminate|exact Neg].
  - apply Rlt_bool_no in K. do 4 eexists. split; [reflexivity|]. split; [split; [discriminate|intros; lra]|]. split; [discriminate|]. split; [auto|exact Neg].
Qed.
End Any.

(** a query that is too short panics *)
Lemma mc_len n w (o : Maxcut RNum) x (gamma : R) r : mc_about o n w -> maxcut_assess (N := RNum) o x gamma = Ok r -> (n <= length (adata x))%nat.
Proof.
  intros Ho E. pose proof Ho as (Hn & _ & En & _ & _). unfold maxcut_assess in E. apply bind_inv in E as (c & _ & E). apply bind_inv in E as (g & E & _).
  unfold mc_grad in E. apply bind_inv in E as (g1 & E & _). rewrite En in E.
  assert (L : length (adata (mc_sign (N := RNum) x)) = length (adata x)) by (unfold mc_sign, a_map, a_mapd; cbn; apply map_length).
  rewrite <- L. eapply (for_range_inv_ok (fun k _ => (k <= length (adata (mc_sign (N := RNum) x)))%nat) 0 n); [lia|exact E|lia|].
  intros i t t' Hi _ F. cbv beta in F. destruct (Nat.lt_ge_cases i (length (adata (mc_sign (N := RNum) x)))) as [Q|Q]; [lia|exfalso].
  destruct n as [|n]; [lia|]. unfold for_range in F. rewrite Nat.sub_0_r in F. cbn [for_up] in F. unfold a_idx in F at 1. rewrite rd_panic in F by exact Q. discriminate.
Qed.
(** a whole optimisation, with any search space *)
Lemma maxcut_best {S : Type} (sp : SearchSpace RNum (Arr RNum) (SingleCut RNum) S) opt n w (o : Maxcut RNum) s (gamma : R) o' s' gamma' xb k :
  mc_about o n w -> cutting_plane_optim (N := RNum) (maxcut_assess (N := RNum)) sp opt o s gamma = Ok (o', s', gamma', (xb, k)) ->
  o' = o /\ gamma <= gamma' /\ match xb with None => gamma' = gamma | Some x => gamma' = cut_weight n w (xvec x) /\ (n <= length (adata x))%nat end.
Proof.
  intros Ho E.
  destruct (optim_best (maxcut_assess (N := RNum)) sp opt (fun q => q = o) (fun g : R => gamma <= g) (fun x => (n <= length (adata x))%nat) (fun x => cut_weight n w (xvec x))
    ltac:(intros q y g q' g' [gr [be]] sh -> J K; pose proof (mc_len n w o y g _ Ho K) as L;
      destruct (maxcut_ok n w o y Ho L g) as (g2 & gr2 & b2 & sh2 & K2 & D1 & D2 & D3 & _);
      rewrite K in K2; inversion K2; subst q' g2 gr2 b2 sh2; split; [reflexivity|];
      destruct sh; [destruct (D2 eq_refl) as [D2' _]; pose proof (proj1 D1 eq_refl); split; [rewrite D2'; change (num RNum) with R in *; lra|auto]
                   |destruct (D3 eq_refl) as [D3' _]; split; [rewrite D3'; exact J|exact D3']]) o s gamma o' s' gamma' xb k eq_refl (Rle_refl _) E) as (A & B & C).
  auto.
Qed.

(** the cut at (1,1,-1) excludes (1,-1,-1), whose cut weight is larger *)
Lemma maxcut_invalid : exists o n w x (gamma gamma' : R) g beta z, mc_about o n w /\ length (adata x) = n /\
  maxcut_assess (N := RNum) o x gamma = Ok (o, gamma', ((g, mkSingle (N := RNum) beta), true)) /\
  gamma' < cut_weight n w z /\ 0 < dot n (xvec g) (fun i => z i - xvec x i) /\ 0 < dot n (xvec g) (fun i => z i - xvec x i) + beta.
Proof.
  pose (W := mkArr (N := RNum) [0; 3; 1; 3; 0; 1; 1; 1; 0] 3 3). pose (o := mkMaxcut W 3).
  pose (w := fun i j => nth (i * 3 + j) (adata W) 0). pose (x := mkArr (N := RNum) [1; 1; -1] 3 0).
  pose (z := fun i : nat => if (i =? 0)%nat then 1 else -1).
  assert (Ho : mc_about o 3 w) by (repeat split; auto; lia).
  destruct (maxcut_ok 3 w o x Ho (le_n _) 0) as (gamma' & g & beta & b & E & D1 & D2 & _ & _ & _ & G).
  assert (X0 : side (xvec x) 0 = true) by (unfold side, xvec; cbn; destruct (Rle_dec 0 1); [reflexivity|lra]).
  assert (X1 : side (xvec x) 1 = true) by (unfold side, xvec; cbn; destruct (Rle_dec 0 1); [reflexivity|lra]).
  assert (X2 : side (xvec x) 2 = false) by (unfold side, xvec; cbn; destruct (Rle_dec 0 (-1)); [lra|reflexivity]).
  assert (Z0 : side z 0 = true) by (unfold side, z; cbn; destruct (Rle_dec 0 1); [reflexivity|lra]).
  assert (Z1 : side z 1 = false) by (unfold side, z; cbn; destruct (Rle_dec 0 (-1)); [lra|reflexivity]).
  assert (Z2 : side z 2 = false) by (unfold side, z; cbn; destruct (Rle_dec 0 (-1)); [lra|reflexivity]).
  assert (CX : cut_weight 3 w (xvec x) = 2) by (unfold cut_weight; cbn [Rsum]; rewrite X0, X1, X2; unfold w; cbn; lra).
  assert (CZ : cut_weight 3 w z = 4) by (unfold cut_weight; cbn [Rsum]; rewrite Z0, Z1, Z2; unfold w; cbn; lra).
  assert (B : b = true) by (apply D1; lra). subst b. destruct (D2 eq_refl) as [D3 D4].
  assert (GG : dot 3 (xvec g) (fun i => z i - xvec x i) = 4).
  { unfold dot. cbn [Rsum]. rewrite !G by lia. unfold cut_degree. cbn [Rsum]. rewrite X0, X1, X2. unfold w, z, xvec. cbn. lra. }
  exists o, 3%nat, w, x, 0, gamma', g, beta, z. split; [exact Ho|]. split; [reflexivity|]. split; [exact E|]. rewrite GG, D4, D3, CX, CZ. lra.
Qed.
Lemma maxcut_new_panic {N : Num} (w : Arr N) : maxcut_new w = Panic <-> arows w <> acols w \/ acols w = 0%nat.
Proof.
  unfold maxcut_new, Res.assert, a_is_2d. destruct (Nat.eqb_spec (arows w) (acols w)); [|intuition]. destruct (Nat.ltb_spec 0 (acols w)); split; intros H'; try discriminate; auto; lia.
Qed.
