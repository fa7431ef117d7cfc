(** The sum of an array in binary64 (C100). *)
From Coq Require Import ZArith Reals Lra Lia Bool Psatz Arith List.
From Flocq Require Import Core IEEE754.BinarySingleNaN.
From Verif Require Import Num Res Arr ArrLemmas ArrProps ArrMore Spec RealLin FloatLemmas FloatErr FcosAcc StepAccSpec ProfAcc KernAcc Replay.
Import ListNotations.
Local Open Scope R_scope.
#[local] Opaque fadd fsub fmul fdiv fsqrt fofZ.

Fixpoint total (l : list f64) : R := match l with [] => 0 | a :: l => val a + total l end.
Fixpoint total_abs (l : list f64) : R := match l with [] => 0 | a :: l => Rabs (val a) + total_abs l end.
Lemma total_abs_pos l : 0 <= total_abs l.
Proof. induction l as [|a l IH]; cbn [total_abs]; [lra|]. pose proof (Rabs_pos (val a)). lra. Qed.
Lemma fold_start l (z : f64) : fin (fold_left fadd l z) = true -> fin z = true /\ Forall (fun x : f64 => fin x = true) l.
Proof.
  revert z. induction l as [|a l IH]; intros z H; cbn [fold_left] in H; [auto|]. destruct (IH _ H) as [A B]. apply fadd_inv in A as (A1 & A2 & _). auto.
Qed.
Lemma fold_err l (z : f64) : fin (fold_left fadd l z) = true -> 8 * INR (length l) * uu <= 1 ->
  Rabs (val (fold_left fadd l z) - (val z + total l)) <= 2 * INR (length l) * uu * (Rabs (val z) + total_abs l) + 2 * INR (length l) * ee.
Proof.
  revert z. induction l as [|a l IH]; intros z H Hn.
  { cbn [fold_left total total_abs length INR]. rewrite Rplus_0_r, Rminus_diag_eq, Rabs_R0 by reflexivity. lra. }
  cbn [fold_left total total_abs] in *. change (length (a :: l)) with (S (length l)) in *. rewrite S_INR in *. pose proof uu_small as U. pose proof ee_small as E0. pose proof (pos_INR (length l)) as P. set (k := INR (length l)) in *.
  specialize (IH _ H ltac:(nra)). destruct (fold_start _ _ H) as [Fz _]. apply fadd_inv in Fz as (F1 & F2 & V). rewrite V in IH.
  pose proof (rnd_err (val z + val a)) as R. pose proof (Rabs_triang (val z) (val a)) as T. pose proof (total_abs_pos l) as TA. set (s := total_abs l) in *. set (w := val z + val a) in *. set (m := Rabs (val z) + Rabs (val a)) in *. assert (M : 0 <= m) by (unfold m; pose proof (Rabs_pos (val z)); pose proof (Rabs_pos (val a)); lra).
  assert (UM : uu * Rabs w <= uu * m) by (apply Rmult_le_compat_l; lra). assert (RW : Rabs (rnd w) <= m + uu * m + ee). { replace (rnd w) with ((rnd w - w) + w) by ring. eapply Rle_trans; [apply Rabs_triang|]. lra. }
  set (f := val (fold_left fadd l (fadd z a))) in *. replace (f - (val z + (val a + total l))) with ((f - (rnd w + total l)) + (rnd w - w)) by (unfold w; ring). eapply Rle_trans; [apply Rabs_triang|].
  assert (KU : 0 <= 2 * k * uu) by (apply Rmult_le_pos; lra). assert (Q : 2 * k * uu * (Rabs (rnd w) + s) <= 2 * k * uu * (m + uu * m + ee + s)) by (apply Rmult_le_compat_l; lra).
  assert (K4 : 2 * k * uu <= / 4) by lra. assert (Q1 : 2 * k * uu * (uu * m) <= / 4 * (uu * m)) by (apply Rmult_le_compat_r; [apply Rmult_le_pos; lra|exact K4]). assert (Q2 : 2 * k * uu * ee <= / 4 * ee) by (apply Rmult_le_compat_r; lra). assert (0 <= uu * m) by (apply Rmult_le_pos; lra). assert (0 <= uu * s) by (apply Rmult_le_pos; lra).
  replace (Rabs (val z) + (Rabs (val a) + s)) with (m + s) by (unfold m; ring). lra.
Qed.
Lemma fold_finite l (z : f64) j B : fin z = true -> Rabs (val z) <= 2 * j * B -> 0 <= j -> 1 <= B -> 2 * (j + INR (length l)) * B <= bpow radix2 1010 -> 2 * (j + INR (length l)) * uu <= / 2 ->
  Forall (fun x : f64 => fin x = true /\ Rabs (val x) <= B) l -> fin (fold_left fadd l z) = true.
Proof.
  revert z j. induction l as [|a l IH]; intros z j Fz Hz Hj HB H1 H2 HL; [exact Fz|]. inversion HL as [|? ? [Fa Ha] HL']; subst. change (length (a :: l)) with (S (length l)) in *. rewrite S_INR in *. pose proof (pos_INR (length l)) as P. set (k := INR (length l)) in *. cbn [fold_left].
  pose proof uu_small as U. pose proof ee_small as E0. pose proof (Rabs_triang (val z) (val a)) as T. assert (W : Rabs (val z + val a) <= (2 * j + 1) * B) by lra.
  assert (JB : 0 <= j * B) by (apply Rmult_le_pos; lra). assert (KB : 0 <= k * B) by (apply Rmult_le_pos; lra).
  destruct (fadd_fin z a Fz Fa) as [V Fs]; [apply big_fin; lra|]. apply (IH (fadd z a) (j + 1)); auto; try (unfold k in *; lra).
  rewrite V. pose proof (rnd_err (val z + val a)) as R. replace (rnd (val z + val a)) with ((rnd (val z + val a) - (val z + val a)) + (val z + val a)) by ring. eapply Rle_trans; [apply Rabs_triang|].
  assert (uu * Rabs (val z + val a) <= uu * ((2 * j + 1) * B)) by (apply Rmult_le_compat_l; lra). assert (KU : 0 <= k * uu) by (apply Rmult_le_pos; lra). assert (uu * (2 * j + 1) * B <= / 2 * B) by (apply Rmult_le_compat_r; lra). lra.
Qed.
Lemma Rsum_cons n (g : nat -> R) : Rsum (S n) g = g 0%nat + Rsum n (fun i => g (S i)).
Proof. induction n as [|n IH]; [cbn [Rsum]; ring|]. change (Rsum (S (S n)) g) with (Rsum (S n) g + g (S n)) || change (Rsum (S (S n)) g) with (g (S n) + Rsum (S n) g). rewrite IH. cbn [Rsum]. ring. Qed.
Lemma total_sum l (d : f64) : total l = Rsum (length l) (fun i => val (nth i l d)) /\ total_abs l = Rsum (length l) (fun i => Rabs (val (nth i l d))).
Proof. induction l as [|a l [IH1 IH2]]; [split; reflexivity|]. cbn [total total_abs length]. rewrite !Rsum_cons. cbn [nth]. rewrite IH1, IH2. split; reflexivity. Qed.
Section S.
Variable lm : Libm.
Notation F := (FNum lm).
Lemma sum_f64 n (a : Arr F) : (Z.of_nat n <= 2 ^ 26)%Z -> length (adata a) = n -> is_finite (a_sum a : f64) = true ->
  Rabs (B2R (a_sum a : f64) - Rsum n (fcoords a)) <= 2 * INR n * uu * Rsum n (fun i => Rabs (fcoords a i)) + 2 * INR n * ee.
Proof.
  intros Hn <- Hf. pose proof (fold_err (adata a) (nsum0 (n := F)) Hf (nu8 _ Hn)) as H. destruct (total_sum (adata a) (n0 (N := F))) as [E1 E2]. rewrite E1, E2 in H.
  change (val (nsum0 (n := F) : f64)) with 0 in H. rewrite Rabs_R0, !Rplus_0_l in H. exact H.
Qed.
Lemma sum_finite n (a : Arr F) : (Z.of_nat n <= 2 ^ 26)%Z -> length (adata a) = n -> all_finite a -> (forall i, (i < n)%nat -> Rabs (fcoords a i) <= bpow radix2 900) -> is_finite (a_sum a : f64) = true.
Proof.
  intros Hn HL Fa H. pose proof (nu8 n Hn) as K. assert (A : INR n <= bpow radix2 26). { rewrite INR_IZR_INZ. change (bpow radix2 26) with (IZR (2 ^ 26)). now apply IZR_le. }
  assert (HL' : @length f64 (adata a) = n) by exact HL.
  refine (fold_finite (adata a) (nsum0 (n := F)) 0 (bpow radix2 900) eq_refl _ (Rle_refl 0) _ _ _ _).
  - change (val (nsum0 (n := F) : f64)) with 0. rewrite Rabs_R0. lra.
  - change 1 with (bpow radix2 0). apply bpow_le. lia.
  - rewrite HL', Rplus_0_l. apply Rle_trans with (bpow radix2 1 * bpow radix2 26 * bpow radix2 900); [|rewrite <- !bpow_plus; apply bpow_le; lia]. apply Rmult_le_compat_r; [apply bpow_ge_0|]. change (bpow radix2 1) with 2. lra.
  - rewrite HL', Rplus_0_l. lra.
  - apply Forall_forall. intros x Hx. unfold all_finite in Fa. rewrite Forall_forall in Fa. split; [now apply Fa|]. apply (In_nth _ _ (n0 (N := F))) in Hx as (i & Hi & <-). apply H. lia.
Qed.
Lemma outer_f64 m n (a b o : Arr F) i j : is_vec m a -> is_vec n b -> a_outer a b = Ok o -> (i < m)%nat -> (j < n)%nat -> is_finite (mget n (adata o) i j : f64) = true ->
  Rabs (fentry n o i j - fcoords a i * fcoords b j) <= uu * Rabs (fcoords a i * fcoords b j) + ee.
Proof.
  intros Ha Hb E Hi Hj Hf. destruct (a_outer_ok m n a b Ha Hb) as (d & E2 & _ & Hd). assert (E3 := eq_trans (eq_sym E) E2). injection E3 as ->. cbn [adata] in Hf. rewrite (Hd i j Hi Hj) in Hf. change (fentry n (mkArr d m n) i j) with (val (mget n d i j : f64)). rewrite (Hd i j Hi Hj).
  apply (fmul_inv (vget a i) (vget b j)) in Hf as (_ & _ & V). change (Rabs (val (fmul (vget a i) (vget b j)) - fcoords a i * fcoords b j) <= uu * Rabs (fcoords a i * fcoords b j) + ee). rewrite V. apply rnd_err.
Qed.
Lemma rank_one_f64 n (a u b : Arr F) (alpha : f64) i j : (0 < n)%nat -> is_mat n n a -> is_vec n u -> a_rank_one_update a (alpha : F) u = Ok b -> (i < n)%nat -> (j <= i)%nat -> is_finite (mget n (adata b) i j : f64) = true ->
  Rabs (fentry n b i j - (fentry n a i j + val alpha * fcoords u i * fcoords u j)) <= uu * Rabs (fentry n a i j) + 4 * uu * Rabs (val alpha * fcoords u i * fcoords u j) + (3 + 2 * Rabs (fcoords u j)) * ee /\
  fentry n b j i = fentry n b i j.
Proof.
  intros Hn Ha Hu E Hi Hj Hf. destruct (rank_one_lower n a u (alpha : F) Hn Ha Hu) as (b2 & E2 & _ & Hd). assert (E3 := eq_trans (eq_sym E) E2). injection E3 as <-. destruct (Hd i j Hi Hj) as [V W].
  change (fentry n b i j) with (val (mget n (adata b) i j : f64)). change (fentry n b j i) with (val (mget n (adata b) j i : f64)). rewrite W. split; [|reflexivity]. rewrite V in Hf |- *.
  apply (fadd_inv (mget n (adata a) i j) (fmul (fmul alpha (vget u i)) (vget u j))) in Hf as (_ & F2 & V1). apply fmul_inv in F2 as (F3 & _ & V2). apply fmul_inv in F3 as (_ & _ & V3).
  change (Rabs (val (fadd (mget n (adata a) i j) (fmul (fmul alpha (vget u i)) (vget u j))) - (fentry n a i j + val alpha * fcoords u i * fcoords u j)) <= uu * Rabs (fentry n a i j) + 4 * uu * Rabs (val alpha * fcoords u i * fcoords u j) + (3 + 2 * Rabs (fcoords u j)) * ee).
  rewrite V1, V2, V3. change (val (mget n (adata a) i j : f64)) with (fentry n a i j). change (val (vget u i : f64)) with (fcoords u i). change (val (vget u j : f64)) with (fcoords u j).
  set (p := val alpha * fcoords u i). set (y := fcoords u j). set (A := fentry n a i j). pose proof uu_small as U. pose proof ee_small as E0. pose proof (rnd_err p) as R1. pose proof (rnd_err (rnd p * y)) as R2. pose proof (rnd_err (A + rnd (rnd p * y))) as R3. pose proof (Rabs_pos y) as Y0.
  assert (D1 : Rabs (rnd p * y - p * y) <= uu * Rabs (p * y) + Rabs y * ee). { replace (rnd p * y - p * y) with ((rnd p - p) * y) by ring. rewrite !Rabs_mult. apply Rle_trans with ((uu * Rabs p + ee) * Rabs y); [apply Rmult_le_compat_r; lra|]. lra. }
  set (t := Rabs (p * y)) in *. assert (T0 : 0 <= t) by apply Rabs_pos. assert (YE : 0 <= Rabs y * ee) by (apply Rmult_le_pos; lra). assert (UT : 0 <= uu * t) by (apply Rmult_le_pos; lra).
  assert (B1 : Rabs (rnd p * y) <= t + uu * t + Rabs y * ee). { replace (rnd p * y) with ((rnd p * y - p * y) + p * y) by ring. eapply Rle_trans; [apply Rabs_triang|]. fold t. lra. }
  assert (S1 : uu * (uu * t) <= / 1000 * (uu * t)) by (apply Rmult_le_compat_r; lra). assert (S2 : uu * (Rabs y * ee) <= / 1000 * (Rabs y * ee)) by (apply Rmult_le_compat_r; lra). assert (S3 : uu * ee <= / 1000 * ee) by (apply Rmult_le_compat_r; lra).
  assert (M1 : uu * Rabs (rnd p * y) <= uu * (t + uu * t + Rabs y * ee)) by (apply Rmult_le_compat_l; lra).
  assert (D2 : Rabs (rnd (rnd p * y) - p * y) <= (2 + / 1000) * (uu * t) + (1 + / 1000) * (Rabs y * ee) + ee). { replace (rnd (rnd p * y) - p * y) with ((rnd (rnd p * y) - rnd p * y) + (rnd p * y - p * y)) by ring. eapply Rle_trans; [apply Rabs_triang|]. lra. }
  set (w := rnd (rnd p * y)) in *. assert (UT2 : uu * t <= / 1000 * t) by (apply Rmult_le_compat_r; lra).
  assert (B2 : Rabs (A + w) <= Rabs A + t + ((2 + / 1000) * (uu * t) + (1 + / 1000) * (Rabs y * ee) + ee)). { replace (A + w) with (A + (p * y + (w - p * y))) by ring. eapply Rle_trans; [apply Rabs_triang|]. pose proof (Rabs_triang (p * y) (w - p * y)) as Q. fold t in Q. lra. }
  assert (M2 : uu * Rabs (A + w) <= uu * (Rabs A + t + ((2 + / 1000) * (uu * t) + (1 + / 1000) * (Rabs y * ee) + ee))) by (apply Rmult_le_compat_l; lra).
  replace (rnd (A + w) - (A + p * y)) with ((rnd (A + w) - (A + w)) + (w - p * y)) by ring. eapply Rle_trans; [apply Rabs_triang|]. lra.
Qed.
End S.
Lemma ksum_case : length (adata kx) = 3%nat /\ all_finite kx /\ (forall i, (i < 3)%nat -> Rabs (fcoords kx i) <= bpow radix2 900) /\ Beqb (a_sum kx : f64) (fofZ (-2)) = true.
Proof.
  assert (V : forall k, (Z.abs k <= 100)%Z -> B2R (fofZ k) = IZR k) by (intros k Hk; exact (proj1 (fofZ_small k ltac:(lia)))).
  assert (B : 100 <= bpow radix2 900). { apply Rle_trans with (bpow radix2 7); [change (bpow radix2 7) with 128; lra|apply bpow_le; lia]. }
  split; [reflexivity|]. split; [repeat constructor|]. split.
  - intros i Hi. destruct i as [|[|[|]]]; [| | |lia]; unfold fcoords; cbn [kx ints a_from adata map nth]; rewrite !V by lia; apply Rabs_le; lra.
  - vm_compute. reflexivity.
Qed.
(** the square [[1, 0], [2, 4]] plus 3 u u' with u = (1, -1) *)
Definition km : Arr F := mkArr (N := F) (map fofZ [1; 0; 2; 4]%Z) 2 2.
Definition ku : Arr F := ints [1; -1]%Z.
Lemma krank_case : is_mat 2 2 km /\ is_vec 2 ku /\ match a_rank_one_update km (fofZ 3 : F) ku with Ok b => Beqb (mget 2 (adata b) 1 0 : f64) (fofZ (-1)) && is_finite (mget 2 (adata b) 1 1 : f64) | _ => false end = true /\
  match a_outer kx ky with Ok o => Beqb (mget 3 (adata o) 1 2 : f64) (fofZ 28) | _ => false end = true.
Proof. split; [repeat split|]. split; [split; reflexivity|]. split; vm_compute; reflexivity. Qed.
