(** Cases for C116: ten times the repository's test matrix, and a 1 by 1 matrix so small
    that squares underflow. *)
From Coq Require Import ZArith Reals Lra Lia Psatz List Bool Arith.
From Flocq Require Import Core IEEE754.BinarySingleNaN.
From Verif Require Import Num Res Arr ArrLemmas Spec RealLin PowerIter PowerSpec PowerOps PowerMore FloatLemmas FloatErr FcosAcc StepAccSpec StepEx LdltFloat Replay PowAcc PowAccSpec PowAccRun.
Import ListNotations.
Local Open Scope R_scope.

Definition pml : list Z := [37; -36; 7; -36; 43; -28; 7; -28; 54]%Z.
Definition pm : Arr F := fmat 3 pml.
Definition pv : Arr F := ints [3; 5; 4]%Z.
(** 2^-24 *)
Definition ptol : f64 := @B754_finite fprec femax false 4503599627370496 (-76) eq_refl.
Notation popt m tol := (mkPOptions (N := F) m tol).
Lemma small_list (l : list Z) i : Forall (fun z => Z.abs z <= 100)%Z l -> (i < length l)%nat -> fin (nth i (map fofZ l) (n0 (N := F)) : f64) = true /\ val (nth i (map fofZ l) (n0 (N := F)) : f64) = IZR (nth i l 0%Z).
Proof.
  intros H Hi. rewrite (nth_indep _ _ (fofZ 0)) by (rewrite map_length; exact Hi). rewrite map_nth. rewrite Forall_forall in H. specialize (H (nth i l 0%Z) (nth_In _ _ Hi)). destruct (fofZ_small (nth i l 0%Z) ltac:(lia)) as [A B]. auto.
Qed.
Lemma small_all (l : list Z) : Forall (fun z => Z.abs z <= 100)%Z l -> Forall (fun v : f64 => is_finite v = true) (map fofZ l).
Proof. intros H. apply Forall_forall. intros v Hv. apply in_map_iff in Hv as (z & <- & Hz). rewrite Forall_forall in H. specialize (H z Hz). apply (fofZ_small z). lia. Qed.
Lemma pml_small : Forall (fun z => Z.abs z <= 100)%Z pml. Proof. repeat constructor; cbn; lia. Qed.
Lemma pv_small : Forall (fun z => Z.abs z <= 100)%Z [3; 5; 4]%Z. Proof. repeat constructor; cbn; lia. Qed.
Lemma pm_val i j : (i < 3)%nat -> (j < 3)%nat -> fentry 3 pm i j = IZR (nth (i * 3 + j) pml 0%Z).
Proof. intros Hi Hj. exact (proj2 (small_list pml (i * 3 + j) pml_small ltac:(change (length pml) with 9%nat; lia))). Qed.
Lemma pm_frob : frob 3 (fentry 3 pm) <= 102 /\ 101 <= frob 3 (fentry 3 pm).
Proof.
  unfold frob. cbn [Rsum]. rewrite !pm_val by lia. cbn [Nat.mul Nat.add nth pml]. split.
  - rewrite <- (sqrt_square 102) by lra. apply sqrt_le_1_alt. lra.
  - rewrite <- (sqrt_square 101) at 1 by lra. apply sqrt_le_1_alt. lra.
Qed.
(** the adjugate *)
Definition padj : mtx := fun i j => IZR (nth (i * 3 + j) [1538; 1748; 707; 1748; 1949; 784; 707; 784; 295]%Z 0%Z).
Lemma pm_sing u : / 4 * norm2 3 u <= norm2 3 (mulmv 3 (fentry 3 pm) u).
Proof.
  assert (E : norm2 3 (mulmv 3 padj (mulmv 3 (fentry 3 pm) u)) = 1073 * norm2 3 u).
  { replace 1073 with (Rabs (-1073)) by (rewrite Rabs_left; lra). rewrite <- norm2_any. apply PowerProofs.norm2_ext. intros i Hi. unfold mulmv. cbn [Rsum]. rewrite !pm_val by lia. destruct i as [|[|[|i]]]; [| | |lia]; unfold padj; cbn [Nat.mul Nat.add nth pml]; ring. }
  assert (Fp : frob 3 padj <= 4000). { unfold frob. cbn [Rsum]. unfold padj. cbn [Nat.mul Nat.add nth]. rewrite <- (sqrt_square 4000) by lra. apply sqrt_le_1_alt. lra. }
  pose proof (frob_bound 3 padj (mulmv 3 (fentry 3 pm) u)) as B. rewrite E in B. set (q := norm2 3 (mulmv 3 (fentry 3 pm) u)) in *. assert (0 <= q) by apply sqrt_pos. set (w := norm2 3 u) in *. assert (frob 3 padj * q <= 4000 * q) by (apply Rmult_le_compat_r; auto). lra.
Qed.
Lemma pm_regular : regular 3 pm (/ 4).
Proof.
  pose proof pm_frob as [F1 F2]. pose proof uu_small as U. constructor.
  - split; [lia|cbn; lia].
  - split; [reflexivity|split; reflexivity].
  - exact (small_all pml pml_small).
  - apply Rle_trans with (bpow radix2 7); [change (bpow radix2 7) with 128; lra|apply bpow_le; lia].
  - split; [change (/ 4) with (bpow radix2 (-2)); apply bpow_le; lia|]. replace (INR 3) with 3 by (cbn; ring). nra.
  - exact pm_sing.
Qed.
Lemma pv_start : start_ok 3 pv.
Proof.
  split; [reflexivity|]. split; [reflexivity|]. split; [exact (small_all _ pv_small)|].
  assert (V : forall i, (i < 3)%nat -> fcoords pv i = IZR (nth i [3; 5; 4]%Z 0%Z)) by (intros i Hi; exact (proj2 (small_list [3; 5; 4]%Z i pv_small Hi))). split.
  - intros i Hi. rewrite (V i Hi). apply Rle_trans with (bpow radix2 3); [|apply bpow_le; lia]. change (bpow radix2 3) with 8. destruct i as [|[|[|i]]]; [| | |lia]; cbn [nth]; apply Rabs_le; lra.
  - unfold dot. cbn [Rsum]. rewrite !V by lia. cbn [nth]. apply Rle_trans with (bpow radix2 0); [apply bpow_le; lia|]. change (bpow radix2 0) with 1. lra.
Qed.
Definition counted (r : res (Arr F * (F * nat))) (k : nat) : bool := match r with Ok (_, (_, j)) => (j =? k)%nat | Panic => false end.
Lemma p1_count : counted (power_iteration pm pv (popt 2000 (ptol : F))) 23 = true. Proof. vm_compute. reflexivity. Qed.
Lemma p4_count : counted (power_iteration4 pm pv (popt 2000 (ptol : F))) 22 = true. Proof. vm_compute. reflexivity. Qed.
Lemma ptol_val : val ptol = / 16777216. Proof. unfold ptol. cbn [B2R]. unfold F2R. cbn [Fnum Fexp cond_Zopp]. change (bpow radix2 (-76)) with (/ 75557863725914323419136). lra. Qed.
Lemma b1000 : bpow radix2 (-1000) <= / 1000000000000.
Proof. assert (H : bpow radix2 (-1000) <= bpow radix2 (-40)) by (apply bpow_le; lia). change (bpow radix2 (-40)) with (/ 1099511627776) in H. lra. Qed.
Lemma pow_case : regular 3 pm (/ 4) /\ start_ok 3 pv /\
  (exists x q, power_iteration pm pv (popt 2000 (ptol : F)) = Ok (x, (q, 23%nat)) /\ Rabs (dot 3 (fcoords x) (fcoords x) - 1) <= / 10000000000 /\ miss 3 pm x q <= 7 / 1000000) /\
  (exists x q, power_iteration4 pm pv (popt 2000 (ptol : F)) = Ok (x, (q, 22%nat)) /\ Rabs (dot 3 (fcoords x) (fcoords x) - 1) <= / 10000000000 /\ miss 3 pm x q <= 11 / 1000000).
Proof.
  split; [exact pm_regular|]. split; [exact pv_start|]. pose proof uu_small as U. pose proof pm_frob as [F1 F2]. pose proof b1000 as B. assert (B0 : 0 < bpow radix2 (-1000)) by apply bpow_gt_0. split.
  - destruct (pow_run1 lm0 3 pm (/ 4) pv pm_regular pv_start 2000 ptol eq_refl) as (x & q & k & E & _ & A & R). pose proof p1_count as C. unfold counted in C. rewrite E in C. apply Nat.eqb_eq in C. subst k. exists x, q. split; [exact E|].
    destruct A as (_ & _ & D & _). replace (INR 3) with 3 in * by (cbn; ring). split; [nra|]. eapply Rle_trans; [apply R, Nat.ltb_lt; reflexivity|]. rewrite ptol_val. set (p := frob 3 (fentry 3 pm)) in *. nra.
  - destruct (pow_run4 lm0 3 pm (/ 4) pv pm_regular pv_start 2000 ptol eq_refl) as (x & q & k & E & _ & A & R). pose proof p4_count as C. unfold counted in C. rewrite E in C. apply Nat.eqb_eq in C. subst k. exists x, q. split; [exact E|].
    destruct A as (_ & _ & D & _). replace (INR 3) with 3 in * by (cbn; ring). split; [nra|]. eapply Rle_trans; [apply R, Nat.ltb_lt; reflexivity|]. rewrite ptol_val. set (p := frob 3 (fentry 3 pm)) in *.
    assert (S3 : 0 <= sqrt 3 <= 174 / 100). { split; [apply sqrt_pos|]. rewrite <- (sqrt_square (174 / 100)) by lra. apply sqrt_le_1_alt. lra. } set (s := sqrt 3) in *. assert (SP : 0 <= s * p <= 17748 / 100) by nra. set (sp := s * p) in *. nra.
Qed.

(** 1.414 2^-537, 1.1 2^-537 and 1.7 2^-537 *)
Definition tiny_a : f64 := @B754_finite fprec femax false 6369051672525773 (-589) eq_refl.
Definition tiny_x : f64 := @B754_finite fprec femax false 4953959590107546 (-589) eq_refl.
Definition tiny_c : f64 := @B754_finite fprec femax false 7656119366529843 (-589) eq_refl.
Notation tm1 := (mkArr (N := F) [tiny_a] 1 1).
Notation tv1 := (mkArr (N := F) [tiny_x] 1 0).
Definition xchk (x : f64) : bool := is_finite x && Bleb (@B754_finite fprec femax false 4900000000000000 (-52) eq_refl) x.
Lemma tiny_run : match power_iteration tm1 tv1 (popt 5 (ptol : F)) with Ok (x, (q, k)) => xchk (nth 0 (adata x) (n0 (N := F))) && is_finite (q : f64) && Bleb tiny_c q && (k =? 0)%nat = true | Panic => False end.
Proof. vm_compute. reflexivity. Qed.
Lemma pow_small : exists (a x0 x : Arr F) (tol q : f64) (k m : nat), length (adata a) = 1%nat /\ arows a = 1%nat /\ acols a = 1%nat /\ all_finite a /\ 0 < fentry 1 a 0 0 /\
  length (adata x0) = 1%nat /\ acols x0 = 0%nat /\ all_finite x0 /\ 0 < fcoords x0 0%nat /\ B2R tol <= / 10000000 /\
  power_iteration a x0 (popt m (tol : F)) = Ok (x, (q : F, k)) /\ (k < m)%nat /\
  1 / 10 <= dot 1 (fcoords x) (fcoords x) - 1 /\ 2 / 10 * frob 1 (fentry 1 a) <= miss 1 a x q.
Proof.
  pose proof tiny_run as T. destruct (power_iteration tm1 tv1 (popt 5 (ptol : F))) as [[x [q k]]|] eqn:E; [|contradiction]. apply andb_true_iff in T as [T Tk]. apply andb_true_iff in T as [T Tc]. apply andb_true_iff in T as [T Tq]. apply Nat.eqb_eq in Tk. subst k.
  unfold xchk in T. apply andb_true_iff in T as [Fx Tx]. rewrite Bleb_correct in Tx, Tc by auto. change (B2R (nth 0 (adata x) (n0 (N := F)) : f64)) with (fcoords x 0%nat) in Tx. revert Tx Tc. case Rle_bool_spec; [intros Tx _|discriminate]. case Rle_bool_spec; [intros Tc _|discriminate].
  cbn [B2R] in Tx. unfold F2R in Tx. cbn [Fnum Fexp cond_Zopp] in Tx. change (bpow radix2 (-52)) with (/ 4503599627370496) in Tx.
  set (t := bpow radix2 (-589)). assert (T0 : 0 < t) by apply bpow_gt_0. assert (Va : val tiny_a = 6369051672525773 * t) by reflexivity. assert (Vx : val tiny_x = 4953959590107546 * t) by reflexivity. assert (Vc : val tiny_c = 7656119366529843 * t) by reflexivity.
  rewrite Vc in Tc. clear Vc. exists tm1, tv1, x, ptol, q, 0%nat, 5%nat. split; [reflexivity|]. split; [reflexivity|]. split; [reflexivity|]. split; [repeat constructor|]. split; [change (0 < val tiny_a); rewrite Va; nra|].
  split; [reflexivity|]. split; [reflexivity|]. split; [repeat constructor|]. split; [change (0 < val tiny_x); rewrite Vx; nra|]. split; [rewrite ptol_val; lra|]. split; [exact E|]. split; [lia|].
  assert (FA : fentry 1 tm1 0 0 = 6369051672525773 * t) by exact Va. assert (X1 : 108 / 100 <= fcoords x 0%nat) by lra. set (z := fcoords x 0%nat) in *. split; [unfold dot; cbn [Rsum]; fold z; nra|].
  unfold miss, norm2, frob, dot, mulmv. cbn [Rsum]. fold z. rewrite FA. set (A := 6369051672525773 * t) in *. assert (A0 : 0 < A) by (unfold A; lra). replace (0 + (0 + A * A)) with (A * A) by ring. rewrite sqrt_square by lra.
  set (Q := val q) in *. assert (QA : A * (12 / 10) <= Q) by (unfold A; lra). replace (0 + (0 + A * z - Q * z) * (0 + A * z - Q * z)) with (((Q - A) * z) * ((Q - A) * z)) by ring. assert (0 <= (Q - A) * z) by (apply Rmult_le_pos; lra). rewrite sqrt_square by assumption. nra.
Qed.
