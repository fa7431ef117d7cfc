(** Concrete cases for the power iterations, and the repository's test replayed
    in binary64. *)
From Coq Require Import Reals List Arith Lia Lra ZArith Bool.
From Flocq Require Import Core IEEE754.BinarySingleNaN.
From Verif Require Import Num Res Arr ArrLemmas Spec RealLin ExtDefined PowerIter PowerSpec PowerOps PowerProofs PowerMore PowerConv Replay.
Import ListNotations.
Open Scope R_scope.

(** 2-D examples *)
Definition mat2 (a b c d : R) : Arr ENum := mkArr (N := ENum) [Fin a; Fin b; Fin c; Fin d] 2 2.
Definition vec2 (a b : R) : Arr ENum := mkArr (N := ENum) [Fin a; Fin b] 2 0.
Definition m2 (a b c d : R) : mtx := fun i j => match i, j with O, O => a | O, _ => b | _, O => c | _, _ => d end.
Definition v2 (a b : R) : vec := fun i => match i with O => a | _ => b end.
Lemma mat2_holds a b c d : holds_mat 2 (mat2 a b c d) (m2 a b c d).
Proof.
  split; [reflexivity|]. split; [reflexivity|]. split; [reflexivity|]. intros i j Hi Hj.
  destruct i as [|[|i]]; [| |lia]; (destruct j as [|[|j]]; [| |lia]); reflexivity.
Qed.
Lemma vec2_holds a b : holds 2 (vec2 a b) (v2 a b).
Proof. split; [reflexivity|]. split; [reflexivity|]. intros i Hi. destruct i as [|[|i]]; [| |lia]; reflexivity. Qed.
Ltac two := cbn [dot quad rayleigh mulmv Rsum pow_mv m2 v2].
Notation popt m t := (mkPOptions (N := ENum) m (Fin t)).

(** C63: the vector left by variant 3 when it runs out of rounds *)
Lemma diag_level : none_below 1 (levels_agree 2 (m2 2 0 0 1) (v2 1 1) 0).
Proof.
  intros j Hj [_ H]. replace j with 0%nat in H by lia. unfold rayleigh, quad, dot, mulmv in H. cbn [Rsum pow_mv m2 v2 mulmv] in H.
  unfold mulmv in H. cbn [Rsum m2 v2] in H.
  assert (E : (0 + 1 * (0 + 2 * 1 + 0 * 1) + 1 * (0 + 0 * 1 + 1 * 1)) / (0 + 1 * 1 + 1 * 1) = 3 / 2) by field.
  match type of H with Rabs (?x - ?y) <= 0 => assert (E1 : x = 3 / 2) by field; assert (E2 : y = 9 / 5) by field; rewrite E1, E2 in H end.
  rewrite Rabs_left in H; lra.
Qed.
Lemma power3_unnormalised : exists a x0 m tol x q u,
  power_iteration3 (N := ENum) a x0 (popt m tol) = Ok (x, (q, m)) /\ holds 2 x u /\ dot 2 u u = 5.
Proof.
  exists (mat2 2 0 0 1), (vec2 1 1), 1%nat, 0.
  destruct (power3_outcome 2 (mat2 2 0 0 1) (vec2 1 1) (m2 2 0 0 1) (v2 1 1) 0 1 ltac:(lia) (mat2_holds _ _ _ _) (vec2_holds _ _)) as [_ H].
  destruct (H diag_level) as (x & q & c & E & _ & _ & Hx & _ & Hc). exists x, q. eexists. split; [exact E|]. split; [exact Hx|].
  rewrite Hc.
  - unfold dot. cbn [Rsum pow_mv]. unfold mulmv. cbn [Rsum m2 v2]. ring.
  - intros j Hj. replace j with 1%nat by lia. unfold dot. cbn [Rsum pow_mv]. unfold mulmv. cbn [Rsum m2 v2].
    apply Rlt_le_trans with (powerRZ 10 1).
    + replace (powerRZ 10 1) with 10 by (unfold powerRZ; simpl; ring). lra.
    + unfold powerRZ. apply Rle_pow; [lra|]. lia.
Qed.

(** C64: a start inside another eigenspace stays there *)
Lemma diag_eig i : (i < 2)%nat -> mulmv 2 (m2 2 0 0 1) (v2 0 1) i = 1 * v2 0 1 i.
Proof. intros Hi. unfold mulmv. cbn [Rsum]. destruct i as [|[|i]]; [| |lia]; cbn [m2 v2]; ring. Qed.
Lemma v2_nonzero b : b <> 0 -> nonzero 2 (v2 0 b).
Proof. intros H. exists 1%nat. split; auto. Qed.
Lemma not_dominant : exists a x0 M v, holds_mat 2 a M /\ holds 2 x0 v /\ nonzero 2 v /\
  (forall m tol run, (0 < m)%nat -> 0 <= tol -> variants a x0 (popt m tol) run -> exists x, run = Ok (x, (Fin 1, 0%nat))) /\
  exists u, dot 2 u u = 1 /\ quad 2 M u = 2.
Proof.
  exists (mat2 2 0 0 1), (vec2 0 1), (m2 2 0 0 1), (v2 0 1). split; [apply mat2_holds|]. split; [apply vec2_holds|]. split; [apply v2_nonzero; lra|]. split.
  - intros m tol run Hm Ht Hr.
    destruct (power_eigen 2 (mat2 2 0 0 1) (vec2 0 1) (m2 2 0 0 1) (v2 0 1) tol m ltac:(lia) (mat2_holds _ _ _ _) (vec2_holds _ _) 1 ltac:(lra)
      (v2_nonzero 1 ltac:(lra)) diag_eig Ht Hm run Hr) as (x & E & _). eauto.
  - exists (v2 1 0). unfold quad, dot, mulmv. cbn [Rsum m2 v2]. split; ring.
Qed.

(** C73: two equal quotients say nothing about the vector *)
Lemma swing_first m tol : 0 <= tol -> (0 < m)%nat -> first_below m (levels_agree 2 (m2 1 0 0 (-1)) (v2 1 1) tol) 0.
Proof.
  intros Ht Hm. split; auto. split; [|intros; lia]. split.
  - exists 0%nat. split; [lia|]. cbn [pow_mv]. unfold mulmv. cbn [Rsum m2 v2]. lra.
  - unfold rayleigh, quad, dot. cbn [Rsum pow_mv]. unfold mulmv. cbn [Rsum m2 v2].
    match goal with |- Rabs (?x - ?y) <= _ => assert (E1 : x = 0) by field; assert (E2 : y = 0) by field; rewrite E1, E2 end.
    rewrite Rminus_eq_0, Rabs_R0. auto.
Qed.
Lemma levels_mislead : exists a x0 M v, holds_mat 2 a M /\ holds 2 x0 v /\ sym 2 M /\
  forall m tol run, (0 < m)%nat -> 0 <= tol ->
  (run = power_iteration2 (N := ENum) a x0 (popt m tol) \/ run = power_iteration3 (N := ENum) a x0 (popt m tol)) ->
  exists x u, run = Ok (x, (Fin 0, 0%nat)) /\ holds 2 x u /\ dot 2 u u = 1 /\
    norm2 2 (fun i => mulmv 2 M u i - 0 * u i) = 1 /\ forall w, nonzero 2 w -> ~ forall i, (i < 2)%nat -> mulmv 2 M w i = 0 * w i.
Proof.
  exists (mat2 1 0 0 (-1)), (vec2 1 1), (m2 1 0 0 (-1)), (v2 1 1). split; [apply mat2_holds|]. split; [apply vec2_holds|]. split.
  { intros i j Hi Hj. destruct i as [|[|i]]; [| |lia]; (destruct j as [|[|j]]; [| |lia]); reflexivity. }
  intros m tol run Hm Ht Hr. pose proof (swing_first m tol Ht Hm) as Hf.
  assert (G : nonzero 2 (pow_mv 2 (m2 1 0 0 (-1)) (v2 1 1) 1) /\ exists x,
     run = Ok (x, (Fin (rayleigh 2 (m2 1 0 0 (-1)) (pow_mv 2 (m2 1 0 0 (-1)) (v2 1 1) 1)), 0%nat)) /\
     holds 2 x (along2 2 (pow_mv 2 (m2 1 0 0 (-1)) (v2 1 1) 1))).
  { destruct Hr as [->| ->].
    - destruct (power2_outcome 2 (mat2 1 0 0 (-1)) (vec2 1 1) (m2 1 0 0 (-1)) (v2 1 1) tol m ltac:(lia) (mat2_holds _ _ _ _) (vec2_holds _ _)) as [H _]. now apply H.
    - destruct (power3_outcome 2 (mat2 1 0 0 (-1)) (vec2 1 1) (m2 1 0 0 (-1)) (v2 1 1) tol m ltac:(lia) (mat2_holds _ _ _ _) (vec2_holds _ _)) as [H _]. now apply H. }
  destruct G as (Hz & x & E & Hx).
  exists x. eexists. split; [|split; [exact Hx|]].
  - rewrite E. do 4 f_equal. unfold rayleigh, quad, dot. cbn [Rsum pow_mv]. unfold mulmv. cbn [Rsum m2 v2]. field.
  - split; [now apply unit_dot|]. split.
    + pose proof (unit_dot 2 _ Hz) as U. set (u := along2 2 _) in *. unfold norm2. transitivity (sqrt 1); [|apply sqrt_1]. f_equal. transitivity (dot 2 u u); [|exact U].
      unfold dot, mulmv. cbn [Rsum m2]. ring.
    + intros w (i & Hi & Hw) H. pose proof (H 0%nat ltac:(lia)) as H0. pose proof (H 1%nat ltac:(lia)) as H1.
      unfold mulmv in H0, H1. cbn [Rsum m2] in H0, H1. destruct i as [|[|i]]; [| |lia]; apply Hw; lra.
Qed.

(** a zero iterate: NaN *)
Example nilpotent_nan : exists x, power_iteration (N := ENum) (mat2 0 1 0 0) (vec2 0 1) (popt 5 (-1)) = Ok (x, (Nan, 5%nat)) /\ undefined 2 x.
Proof.
  destruct (power1_outcome 2 (mat2 0 1 0 0) (vec2 0 1) (m2 0 1 0 0) (v2 0 1) (-1) 5 ltac:(lia) (mat2_holds _ _ _ _) (vec2_holds _ _)) as (_ & _ & H).
  apply H.
  - intros j Hj [_ [A|A]]; match type of A with norm1 ?n ?x <= _ => pose proof (norm1_nonneg n x) end; lra.
  - intros (i & Hi & Hw). apply Hw. cbn [pow_mv]. unfold mulmv. destruct i as [|[|i]]; [| |lia]; cbn [Rsum m2 v2]; ring.
Qed.
(** the hypotheses of the convergence theorems *)
Example conv_hyps :
  (forall i, (i < 2)%nat -> v2 1 1 i = v2 1 0 i + v2 0 1 i) /\ nonzero 2 (v2 1 0) /\
  (forall i, (i < 2)%nat -> mulmv 2 (m2 2 0 0 1) (v2 1 0) i = 2 * v2 1 0 i) /\ 0 <= 1 < Rabs 2 /\
  (forall k i, (i < 2)%nat -> Rabs (pow_mv 2 (m2 2 0 0 1) (v2 0 1) k i) <= 1 * 1 ^ k).
Proof.
  split; [|split; [|split; [|split]]].
  - intros i Hi. destruct i as [|[|i]]; [| |lia]; cbn; ring.
  - exists 0%nat. split; [lia|]. cbn. lra.
  - intros i Hi. unfold mulmv. cbn [Rsum]. destruct i as [|[|i]]; [| |lia]; cbn [m2 v2]; ring.
  - rewrite Rabs_pos_eq; lra.
  - intros k i Hi. rewrite pow1.
    assert (E : forall k j, (j < 2)%nat -> pow_mv 2 (m2 2 0 0 1) (v2 0 1) k j = v2 0 1 j).
    { induction k0 as [|k0 IH]; intros j Hj; auto. cbn [pow_mv].
      rewrite (mulmv_ext 2 _ (m2 2 0 0 1) _ (v2 0 1)) by auto. rewrite diag_eig by auto. ring. }
    rewrite E by auto. destruct i as [|[|i]]; [| |lia]; cbn [v2]; [rewrite Rabs_R0; lra|rewrite Rabs_R1; lra].
Qed.
(** a symmetric positive semidefinite matrix *)
Example psd_hyps : sym 2 (m2 2 0 0 1) /\ psd 2 (m2 2 0 0 1).
Proof.
  split.
  - intros i j Hi Hj. destruct i as [|[|i]]; [| |lia]; (destruct j as [|[|j]]; [| |lia]); reflexivity.
  - intros x. unfold quad, dot, mulmv. cbn [Rsum m2]. nra.
Qed.

(** power_iteration.rs 179-229 *)
Definition tm : Arr F := mkArr (N := F) (map (fun z => flit z (-1)) [37; -36; 7; -36; 43; -28; 7; -28; 54]%Z) 3 3.
Definition tv : Arr F := a_from (N := F) (map (fun z => flit z (-1)) [3; 5; 4]%Z).
Definition count (r : res (Arr F * (num F * nat))) : option nat := match r with Ok (_, (_, k)) => Some k | Panic => None end.
Definition fopt (m : nat) (e : Z) : POptions F := mkPOptions (N := F) m (flit 1 e).
Example replay_power1 : count (power_iteration (N := F) tm tv (fopt 2000 (-7))) = Some 22%nat.
Proof. vm_compute. reflexivity. Qed.
Example replay_power4 : count (power_iteration4 (N := F) tm tv (fopt 2000 (-7))) = Some 21%nat.
Proof. vm_compute. reflexivity. Qed.
Example replay_power2 : count (power_iteration2 (N := F) tm tv (fopt 2000 (-14))) = Some 23%nat.
Proof. vm_compute. reflexivity. Qed.
Example replay_power3 : count (power_iteration3 (N := F) tm tv (fopt 2000 (-14))) = Some 23%nat.
Proof. vm_compute. reflexivity. Qed.
Example replay_power4_max : count (power_iteration4 (N := F) tm tv (fopt 5 (-14))) = Some 5%nat.
Proof. vm_compute. reflexivity. Qed.
