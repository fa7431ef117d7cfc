(** conjugate_gradient in binary64: how far the residual of an answer can be from the
    residual the method tracks (C113). *)
From Coq Require Import ZArith Reals Lra Lia Psatz List Bool Arith.
From Flocq Require Import Core IEEE754.BinarySingleNaN.
From Verif Require Import Num Res Arr ArrLemmas ArrProps Spec RealLin PowerSpec PowerMore FloatLemmas FloatErr FloatRel KernAcc FcosAcc StepAccSpec Cg CgProofs CgAccSpec.
Import ListNotations.
Local Open Scope R_scope.
Lemma sqrt_lt_fin (rho tol : f64) : Bltb (fsqrt rho) tol = true -> fin rho = true /\ 0 <= val rho.
Proof.
  intros Hlt. destruct rho as [z|[]| |[] m e H]; try (destruct tol as [?|[]| |[] ? ? ?]; discriminate Hlt).
  - split; [reflexivity|cbn; lra].
  - split; [reflexivity|]. cbn. apply F2R_ge_0. cbn. lia.
Qed.
Lemma rnd_nn v : 0 <= v -> 0 <= rnd v.
Proof. intros H. apply (round_ge_generic radix2 (SpecFloat.fexp fprec femax) (round_mode mode_NE) 0 v); [apply generic_format_0|exact H]. Qed.
#[local] Opaque fadd fsub fmul fdiv fsqrt fofZ.

(** ** Scalars *)
Lemma add_back a b B : Rabs (rnd (a + b)) <= B -> Rabs a <= B -> Rabs b <= 2 * B + uu * B + ee /\ Rabs (rnd (a + b) - (a + b)) <= uu * B + ee.
Proof.
  intros H1 H2. pose proof (rnd_err_r (a + b)) as E. pose proof uu_small as U. assert (E2 : Rabs (rnd (a + b) - (a + b)) <= uu * B + ee) by nra. split; [|exact E2].
  apply Rabs_le_inv in E2, H1, H2. apply Rabs_le. lra.
Qed.
Lemma mul_back a b B : Rabs (rnd (a * b)) <= B -> Rabs (a * b) <= B + uu * B + ee /\ Rabs (rnd (a * b) - a * b) <= uu * B + ee.
Proof.
  intros H1. pose proof (rnd_err_r (a * b)) as E. pose proof uu_small as U. assert (E2 : Rabs (rnd (a * b) - a * b) <= uu * B + ee) by nra. split; [|exact E2].
  apply Rabs_le_inv in E2, H1. apply Rabs_le. lra.
Qed.
Lemma upd_core x f sp B f' : 0 <= B -> f' = rnd sp -> Rabs (rnd (x + f)) <= B -> Rabs x <= B -> Rabs f = Rabs f' ->
  Rabs sp <= 21 / 10 * B + 3 * ee /\ Rabs (rnd (x + f) - (x + f)) + Rabs (f' - sp) <= 4 * (uu * B) + 3 * ee.
Proof.
  intros HB -> H1 H2 HF. destruct (add_back x f B H1 H2) as [A1 A2]. rewrite HF in A1. pose proof uu_small as U. pose proof ee_small as Ee.
  pose proof (rnd_err_r sp) as E. assert (E2 : Rabs (rnd sp - sp) <= uu * (2 * B + uu * B + ee) + ee) by nra.
  assert (T : Rabs sp <= Rabs (rnd sp) + Rabs (rnd sp - sp)). { replace sp with (rnd sp - (rnd sp - sp)) at 1 by ring. eapply Rle_trans; [apply Rabs_triang|]. rewrite Rabs_Ropp. lra. }
  assert (UB : 0 <= uu * B <= B / 1000) by (split; nra). assert (UUB : uu * (uu * B) <= uu * B / 1000) by nra. assert (UE : uu * ee <= ee / 1000) by nra. split; lra.
Qed.
Lemma add_upd (x s p : f64) B : 0 <= B -> fin (fadd x (fmul s p)) = true -> Rabs (val (fadd x (fmul s p))) <= B -> Rabs (val x) <= B ->
  fin x = true /\ fin s = true /\ fin p = true /\ Rabs (val s * val p) <= 21 / 10 * B + 3 * ee /\ Rabs (val (fadd x (fmul s p)) - (val x + val s * val p)) <= 4 * (uu * B) + 3 * ee.
Proof.
  intros HB Hf H1 H2. destruct (fadd_inv _ _ Hf) as (F1 & F2 & V). destruct (fmul_inv _ _ F2) as (F3 & F4 & V2). rewrite V in *.
  destruct (upd_core (val x) (val (fmul s p)) (val s * val p) B (val (fmul s p)) HB V2 H1 H2 eq_refl) as [A1 A2]. repeat (split; [assumption|]).
  replace (rnd (val x + val (fmul s p)) - (val x + val s * val p)) with ((rnd (val x + val (fmul s p)) - (val x + val (fmul s p))) + (val (fmul s p) - val s * val p)) by ring. eapply Rle_trans; [apply Rabs_triang|exact A2].
Qed.
Lemma sub_upd (x s p : f64) B : 0 <= B -> fin (fsub x (fmul s p)) = true -> Rabs (val (fsub x (fmul s p))) <= B -> Rabs (val x) <= B ->
  fin x = true /\ fin s = true /\ fin p = true /\ Rabs (val (fsub x (fmul s p)) - (val x - val s * val p)) <= 4 * (uu * B) + 3 * ee.
Proof.
  intros HB Hf H1 H2. destruct (fsub_inv _ _ Hf) as (F1 & F2 & V). destruct (fmul_inv _ _ F2) as (F3 & F4 & V2). rewrite V in *. unfold Rminus in H1 at 1.
  destruct (upd_core (val x) (- val (fmul s p)) (val s * val p) B (val (fmul s p)) HB V2 H1 H2 (Rabs_Ropp _)) as [A1 A2]. repeat (split; [assumption|]).
  replace (rnd (val x - val (fmul s p)) - (val x - val s * val p)) with ((rnd (val x + - val (fmul s p)) - (val x + - val (fmul s p))) - (val (fmul s p) - val s * val p)) by (unfold Rminus; ring). eapply Rle_trans; [apply Rabs_triang|]. rewrite Rabs_Ropp. exact A2.
Qed.
Lemma sum_le n (f : vec) B : (forall i, (i < n)%nat -> Rabs (f i) <= B) -> Rsum n (fun i => Rabs (f i)) <= INR n * B.
Proof. induction n as [|n IH]; intros H; [cbn; lra|]. cbn [Rsum]. rewrite S_INR. pose proof (IH (fun i Hi => H i ltac:(lia))). pose proof (H n ltac:(lia)). lra. Qed.

Section C.
Variable lm : Libm.
Notation F := (FNum lm).
Variables (n : nat) (a b : Arr F) (W X Y T : R).
Hypotheses (Hn : (0 < n)%nat) (H20 : (Z.of_nat n <= 2 ^ 20)%Z) (Ha : is_mat n n a) (HW : forall i j, (i < n)%nat -> (j < n)%nat -> Rabs (fentry n a i j) <= W)
  (HX : 0 <= X) (HY : 0 <= Y) (HT : 1 <= T).
Definition gap (x r : Arr F) (i : nat) : R := fcoords b i - Rsum n (fun j => fentry n a i j * fcoords x j) - fcoords r i.
Definition vfin (x : Arr F) : Prop := forall i, (i < n)%nat -> fin (vget x i : f64) = true.
Definition vle (x : Arr F) (B : R) : Prop := forall i, (i < n)%nat -> Rabs (fcoords x i) <= B.
Notation unit := (cg_unit n W X Y T).
Lemma W_pos : 0 <= W.
Proof. eapply Rle_trans; [apply Rabs_pos|exact (HW 0 0 Hn Hn)]. Qed.
Lemma n_facts : 1 <= INR n /\ INR n * uu <= / 1000.
Proof.
  split; [apply (le_INR 1); lia|]. assert (INR n <= 1048576) by (rewrite INR_IZR_INZ; apply IZR_le; lia). pose proof uu_small. nra.
Qed.
Lemma e1072 : bpow radix2 (-1072) = 8 * ee. Proof. change 8 with (bpow radix2 3). rewrite <- bpow_plus. reflexivity. Qed.
Lemma step_gap (x r p ad x' r' : Arr F) (s : f64) : is_vec n x -> is_vec n r -> is_vec n p -> a_dot_mv a p = Ok ad -> cg_axpy n x (s : F) p = Ok x' -> cg_axmy n r (s : F) ad = Ok r' ->
  vfin x' -> vfin r' -> vle x X -> vle x' X -> vle r Y -> vle r' Y -> Rabs (val s) <= T ->
  is_vec n x' /\ is_vec n r' /\ vfin x /\ vfin r /\ forall i, (i < n)%nat -> Rabs (gap x' r' i - gap x r i) <= unit.
Proof.
  intros Vx Vr Vp Ead Ex Er Fx' Fr' Bx Bx' Br Br' Bs. pose proof W_pos as W0. destruct n_facts as [N1 NU]. pose proof uu_small as U. pose proof ee_small as Ee.
  assert (Vad : is_vec n ad). { rewrite (a_dot_mv_ok n n a p Hn Ha Vp) in Ead. injection Ead as <-. split; [cbn; now rewrite map_length, seq_length|reflexivity]. }
  destruct (update_ok n (fun xi pi => nadd (n := F) xi (nmul (n := F) (s : F) pi)) x p Vx Vp) as (x2 & E2 & V2 & H2). assert (X2 : x2 = x') by (unfold cg_axpy in Ex; rewrite E2 in Ex; congruence). subst x2.
  destruct (update_ok n (fun xi pi => nsub (n := F) xi (nmul (n := F) (s : F) pi)) r ad Vr Vad) as (r2 & E3 & V3 & H3). assert (R2 : r2 = r') by (unfold cg_axmy in Er; rewrite E3 in Er; congruence). subst r2.
  assert (AX : forall j, (j < n)%nat -> fin (vget x j : f64) = true /\ fin s = true /\ fin (vget p j : f64) = true /\ Rabs (val s * fcoords p j) <= 21 / 10 * X + 3 * ee /\ Rabs (fcoords x' j - (fcoords x j + val s * fcoords p j)) <= 4 * (uu * X) + 3 * ee).
  { intros j Hj. specialize (Fx' j Hj). specialize (Bx' j Hj). specialize (Bx j Hj). unfold vget, fcoords in *. rewrite (H2 (n0 (N := F)) j Hj) in *. exact (add_upd _ s _ X HX Fx' Bx' Bx). }
  assert (AR : forall j, (j < n)%nat -> fin (vget r j : f64) = true /\ fin s = true /\ fin (vget ad j : f64) = true /\ Rabs (fcoords r' j - (fcoords r j - val s * fcoords ad j)) <= 4 * (uu * Y) + 3 * ee).
  { intros j Hj. specialize (Fr' j Hj). specialize (Br' j Hj). specialize (Br j Hj). unfold vget, fcoords in *. rewrite (H3 (n0 (N := F)) j Hj) in *. exact (sub_upd _ s _ Y HY Fr' Br' Br). }
  split; [exact V2|]. split; [exact V3|]. split; [intros j Hj; apply AX, Hj|]. split; [intros j Hj; apply AR, Hj|]. intros i Hi.
  destruct (AR i Hi) as (_ & _ & Fq & E3i). pose proof (mv_f64 lm n n a p ad i ltac:(lia) Hn Ha Vp Ead Hi Fq) as EM.
  set (A := fun j => fentry n a i j) in *. set (P := fun j => fcoords p j) in *. set (e2 := fun j => fcoords x' j - (fcoords x j + val s * P j)).
  assert (S1 : Rsum n (fun j => A j * fcoords x' j) = Rsum n (fun j => A j * fcoords x j) + val s * Rsum n (fun j => A j * P j) + Rsum n (fun j => A j * e2 j)).
  { rewrite <- Rsum_scal, <- !Rsum_plus. apply Rsum_ext. intros j Hj. unfold e2. ring. }
  assert (S2 : Rabs (Rsum n (fun j => A j * e2 j)) <= INR n * (W * (4 * (uu * X) + 3 * ee))).
  { eapply Rle_trans; [apply Rabs_Rsum|]. apply (sum_le n (fun j => A j * e2 j)). intros j Hj. rewrite Rabs_mult. pose proof (HW i j Hi Hj). destruct (AX j Hj) as (_ & _ & _ & _ & E). fold (e2 j) in E. apply Rmult_le_compat; auto using Rabs_pos. }
  assert (S3 : Rabs (val s) * Rsum n (fun j => Rabs (A j * P j)) <= INR n * (W * (21 / 10 * X + 3 * ee))).
  { rewrite <- Rsum_scal. rewrite (Rsum_ext n _ (fun j => Rabs (A j * (val s * P j)))). 2: { intros j Hj. rewrite !Rabs_mult. ring. }
    apply (sum_le n (fun j => A j * (val s * P j))). intros j Hj. rewrite Rabs_mult. pose proof (HW i j Hi Hj). destruct (AX j Hj) as (_ & _ & _ & E & _). apply Rmult_le_compat; auto using Rabs_pos. }
  assert (S4 : Rabs (val s * (fcoords ad i - Rsum n (fun j => A j * P j))) <= 3 * INR n * uu * (INR n * (W * (21 / 10 * X + 3 * ee))) + 4 * INR n * ee * T).
  { rewrite Rabs_mult. pose proof (Rabs_pos (val s)) as PS. eapply Rle_trans; [apply Rmult_le_compat_l; [exact PS|exact EM]|].
    replace (Rabs (val s) * (3 * INR n * uu * Rsum n (fun j => Rabs (A j * P j)) + 4 * INR n * ee)) with (3 * INR n * uu * (Rabs (val s) * Rsum n (fun j => Rabs (A j * P j))) + 4 * INR n * ee * Rabs (val s)) by ring.
    apply Rplus_le_compat; apply Rmult_le_compat_l; auto; nra. }
  unfold gap. fold A. change (Rsum n (fun j => fentry n a i j * fcoords x' j)) with (Rsum n (fun j => A j * fcoords x' j)). change (Rsum n (fun j => fentry n a i j * fcoords x j)) with (Rsum n (fun j => A j * fcoords x j)). rewrite S1.
  set (q := Rsum n (fun j => A j * P j)) in *. set (t2 := Rsum n (fun j => A j * e2 j)) in *. set (e3 := fcoords r' i - (fcoords r i - val s * fcoords ad i)) in *.
  replace (fcoords b i - (Rsum n (fun j => A j * fcoords x j) + val s * q + t2) - fcoords r' i - (fcoords b i - Rsum n (fun j => A j * fcoords x j) - fcoords r i)) with (val s * (fcoords ad i - q) - t2 - e3) by (unfold e3; ring).
  eapply Rle_trans; [apply Rabs_triang|]. eapply Rle_trans; [apply Rplus_le_compat_r, Rabs_triang|]. rewrite !Rabs_Ropp.
  unfold cg_unit. rewrite e1072. set (N := INR n) in *. set (WX := W * X). assert (0 <= WX) by (unfold WX; apply Rmult_le_pos; lra).
  assert (K1 : 3 * N * uu * (N * (W * (21 / 10 * X + 3 * ee))) = 63 / 10 * (N * N * (uu * WX)) + 9 * (N * uu) * (N * W * ee)) by (unfold WX; field).
  assert (K2 : N * (W * (4 * (uu * X) + 3 * ee)) = 4 * (N * (uu * WX)) + 3 * (N * W * ee)) by (unfold WX; ring).
  assert (P1 : 0 <= uu * WX) by (apply Rmult_le_pos; lra). assert (P0 : 0 <= N * N * (uu * WX)) by (repeat apply Rmult_le_pos; lra). assert (P2 : N * (uu * WX) <= N * N * (uu * WX)) by (apply Rmult_le_compat_r; [exact P1|clear - N1; nra]). assert (P3 : 0 <= N * W * ee) by (repeat apply Rmult_le_pos; lra). assert (P4 : (N * uu) * (N * W * ee) <= / 1000 * (N * W * ee)) by (apply Rmult_le_compat_r; lra). assert (P5 : 0 <= N * T * ee) by (repeat apply Rmult_le_pos; lra).
  replace ((11 * (N * N) * W * X + 4 * Y) * uu + (N * W + N * T + 1) * (8 * ee)) with (11 * (N * N * (uu * WX)) + 4 * (uu * Y) + 8 * (N * W * ee) + 8 * (N * T * ee) + 8 * ee) by (unfold WX; ring).
  assert (K3 : 4 * N * ee * T = 4 * (N * T * ee)) by ring. rewrite K1, K3 in S4. rewrite K2 in S2.
  set (m1 := N * N * (uu * WX)) in *. set (m2 := N * (uu * WX)) in *. set (m3 := N * W * ee) in *. set (m4 := N * T * ee) in *. replace (9 * (N * uu) * m3) with (9 * (N * uu * m3)) in S4 by ring. set (m5 := N * uu * m3) in *. set (m6 := uu * Y) in *. set (m7 := Rabs (val s * (fcoords ad i - q))) in *. set (m8 := Rabs t2) in *. set (m9 := Rabs e3) in *.
  clear - S4 S2 E3i P0 P2 P3 P4 P5 Ee. lra.
Qed.
(** the first residual *)
Lemma first_gap (x ax r : Arr F) : is_vec n b -> is_vec n x -> a_dot_mv a x = Ok ax -> a_sub b ax = Ok r -> vfin r -> vle x X -> vle r Y -> is_vec n r /\ forall i, (i < n)%nat -> Rabs (gap x r i) <= unit.
Proof.
  intros Vb Vx Ead Er Fr Bx Br. pose proof W_pos as W0. destruct n_facts as [N1 NU]. pose proof uu_small as U. pose proof ee_small as Ee.
  destruct (a_zip_ok _ _ _ _ Er) as (Z1 & Z2 & Z3 & Z4). destruct Vb as [Lb Cb]. split; [split; congruence|]. intros i Hi. specialize (Fr i Hi). pose proof (Br i Hi) as Bri. rewrite Lb in Z4. specialize (Z4 i Hi). change (vget r i = fsub (vget b i) (vget ax i)) in Z4.
  rewrite Z4 in Fr. destruct (fsub_inv _ _ Fr) as (F1 & F2 & V). assert (Vr : fcoords r i = rnd (fcoords b i - fcoords ax i)). { unfold fcoords at 1. fold (vget r i). rewrite Z4. exact V. }
  pose proof (mv_f64 lm n n a x ax i ltac:(lia) Hn Ha Vx Ead Hi F2) as EM. pose proof (rnd_err_r (fcoords b i - fcoords ax i)) as ER. rewrite <- Vr in ER.
  assert (S : Rsum n (fun j => Rabs (fentry n a i j * fcoords x j)) <= INR n * (W * X)). { apply (sum_le n (fun j => fentry n a i j * fcoords x j)). intros j Hj. rewrite Rabs_mult. apply Rmult_le_compat; auto using Rabs_pos. }
  unfold gap. set (q := Rsum n (fun j => fentry n a i j * fcoords x j)) in *. set (Q := Rsum n (fun j => Rabs _)) in *.
  replace (fcoords b i - q - fcoords r i) with ((fcoords ax i - q) - (fcoords r i - (fcoords b i - fcoords ax i))) by ring. eapply Rle_trans; [apply Rabs_triang|]. rewrite Rabs_Ropp.
  unfold cg_unit. rewrite e1072. set (N := INR n) in *. assert (0 <= W * X) by (apply Rmult_le_pos; lra). assert (M1 : 3 * N * uu * Q <= 3 * N * uu * (N * (W * X))) by (apply Rmult_le_compat_l; [repeat apply Rmult_le_pos; lra|exact S]). assert (M2 : 0 <= uu * (N * N * (W * X))) by (repeat apply Rmult_le_pos; lra). assert (M3 : uu * Rabs (fcoords r i) <= uu * Y) by (apply Rmult_le_compat_l; [lra|exact Bri]). assert (M4 : N * ee <= N * T * ee) by (rewrite <- (Rmult_1_r N) at 1; apply Rmult_le_compat_r; [lra|apply Rmult_le_compat_l; lra]). assert (M5 : 0 <= N * W * ee) by (repeat apply Rmult_le_pos; lra).
  replace ((11 * (N * N) * W * X + 4 * Y) * uu + (N * W + N * T + 1) * (8 * ee)) with (11 * (uu * (N * N * (W * X))) + 4 * (uu * Y) + 8 * (N * W * ee) + 8 * (N * T * ee) + 8 * ee) by ring. assert (0 <= uu * Y) by (apply Rmult_le_pos; lra). assert (M6 : 3 * N * uu * (N * (W * X)) = 3 * (uu * (N * N * (W * X)))) by ring.
  assert (EM' : Rabs (fcoords ax i - q) <= 3 * N * uu * Q + 4 * N * ee) by exact EM. clear EM. set (m1 := uu * (N * N * (W * X))) in *. set (m3 := N * W * ee) in *. set (m4 := N * T * ee) in *. replace (4 * N * ee) with (4 * (N * ee)) in EM' by ring. set (m5 := N * ee) in *. assert (0 <= m5) by (unfold m5; apply Rmult_le_pos; lra). lra.
Qed.
(** ** Rounds *)
Notation st := (cg_state (N := F)).
Definition sx (s : st) : Arr F := fst (fst (fst s)).
Definition sr (s : st) : Arr F := snd (fst (fst s)).
Definition sp (s : st) : Arr F := snd (fst s).
Definition svec (s : st) : Prop := is_vec n (sx s) /\ is_vec n (sr s) /\ is_vec n (sp s).
Lemma ok_vec (f : F -> F -> F) (x p x' : Arr F) : is_vec n x -> is_vec n p ->
  for_range 0 n (fun i x => pi <- a_idx p i ;; xi <- a_idx x i ;; a_setidx x i (f xi pi)) x = Ok x' -> is_vec n x'.
Proof. intros Vx Vp E. destruct (update_ok n f x p Vx Vp) as (y & E2 & V & _). rewrite E2 in E. congruence. Qed.
Lemma next_vec tol (s s1 : st) : svec s -> cg_step a n tol s = Ok (Next s1) -> svec s1.
Proof.
  destruct s as [[[x r] p] rho]. intros (Vx & Vr & Vp). cbn in Vx, Vr, Vp. unfold cg_step. cbn [bind].
  destruct (a_dot_mv a p) as [ad|] eqn:Ead; [|discriminate]. cbn [bind]. assert (Vad : is_vec n ad). { rewrite (a_dot_mv_ok n n a p Hn Ha Vp) in Ead. injection Ead as <-. split; [cbn; now rewrite map_length, seq_length|reflexivity]. }
  destruct (a_dot p ad) as [d|] eqn:Ed; [|discriminate]. cbn [bind]. destruct (neqb (n := F) d n0); [discriminate|].
  destruct (cg_axpy n x (ndiv (n := F) rho d) p) as [x1|] eqn:Ex; [|discriminate]. cbn [bind]. destruct (cg_axmy n r (ndiv (n := F) rho d) ad) as [r1|] eqn:Er; [|discriminate]. cbn [bind].
  destruct (a_dot r1 r1) as [rho1|] eqn:Erho; [|discriminate]. cbn [bind]. destruct (nltb (n := F) (nsqrt rho1) tol); [discriminate|].
  destruct (cg_dir n p (ndiv (n := F) rho1 rho) r1) as [p1|] eqn:Ep; [|discriminate]. cbn [bind]. intros E. injection E as <-. unfold svec. cbn.
  assert (V1 : is_vec n x1) by exact (ok_vec (fun xi pi => nadd (n := F) xi (nmul (n := F) (ndiv (n := F) rho d) pi)) x p x1 Vx Vp Ex).
  assert (V2 : is_vec n r1) by exact (ok_vec (fun xi pi => nsub (n := F) xi (nmul (n := F) (ndiv (n := F) rho d) pi)) r ad r1 Vr Vad Er).
  split; [exact V1|]. split; [exact V2|]. exact (ok_vec (fun pi ri => nadd (n := F) ri (nmul (n := F) (ndiv (n := F) rho1 rho) pi)) p r1 p1 Vp V2 Ep).
Qed.
Lemma next_gap tol (s s1 : st) : svec s -> cg_step a n tol s = Ok (Next s1) -> cg_within n a X Y T s -> cg_within n a X Y T s1 -> vfin (sx s1) -> vfin (sr s1) ->
  vfin (sx s) /\ vfin (sr s) /\ forall i, (i < n)%nat -> Rabs (gap (sx s1) (sr s1) i - gap (sx s) (sr s) i) <= unit.
Proof.
  destruct s as [[[x r] p] rho]. intros (Vx & Vr & Vp). cbn in Vx, Vr, Vp. unfold cg_step. cbn [bind].
  destruct (a_dot_mv a p) as [ad|] eqn:Ead; [|discriminate]. cbn [bind].
  destruct (a_dot p ad) as [d|] eqn:Ed; [|discriminate]. cbn [bind]. destruct (neqb (n := F) d n0); [discriminate|].
  destruct (cg_axpy n x (ndiv (n := F) rho d) p) as [x1|] eqn:Ex; [|discriminate]. cbn [bind]. destruct (cg_axmy n r (ndiv (n := F) rho d) ad) as [r1|] eqn:Er; [|discriminate]. cbn [bind].
  destruct (a_dot r1 r1) as [rho1|] eqn:Erho; [|discriminate]. cbn [bind]. destruct (nltb (n := F) (nsqrt rho1) tol); [discriminate|].
  destruct (cg_dir n p (ndiv (n := F) rho1 rho) r1) as [p1|] eqn:Ep; [|discriminate]. cbn [bind]. intros E. injection E as <-. cbn. intros (B1 & B2 & B3) (B4 & B5 & _) F1 F2.
  destruct (step_gap x r p ad x1 r1 (ndiv (n := F) rho d) Vx Vr Vp Ead Ex Er F1 F2 B1 B4 B2 B5 (B3 ad d Ead Ed)) as (_ & _ & G1 & G2 & G3). auto.
Qed.
Lemma path_gap tol s k s' : cg_path a n tol s k s' -> svec s -> (forall j s2, cg_path a n tol s j s2 -> cg_within n a X Y T s2) -> vfin (sx s') -> vfin (sr s') ->
  svec s' /\ vfin (sx s) /\ vfin (sr s) /\ forall i, (i < n)%nat -> Rabs (gap (sx s') (sr s') i - gap (sx s) (sr s) i) <= INR k * unit.
Proof.
  induction 1 as [s|s s1 k s' E P IH]; intros V HP F1 F2.
  - repeat (split; [assumption|]). intros i Hi. replace (_ - _) with 0 by ring. rewrite Rabs_R0. cbn. lra.
  - destruct (IH (next_vec tol s s1 V E)) as (V' & G1 & G2 & G3); auto. { intros j s2 Hj. apply (HP (S j) s2). econstructor; eauto. }
    destruct (next_gap tol s s1 V E (HP 0%nat s (cp_here _ _ _ _)) (HP 1%nat s1 (cp_next _ _ _ _ _ _ _ E (cp_here _ _ _ _))) G1 G2) as (G4 & G5 & G6). repeat (split; [assumption|]).
    intros i Hi. specialize (G3 i Hi). specialize (G6 i Hi). rewrite S_INR. replace (gap (sx s') (sr s') i - gap (sx s) (sr s) i) with ((gap (sx s') (sr s') i - gap (sx s1) (sr s1) i) + (gap (sx s1) (sr s1) i - gap (sx s) (sr s) i)) by ring. eapply Rle_trans; [apply Rabs_triang|]. lra.
Qed.
Lemma loop_path tol k i s res : loop_up k i (fun _ s => cg_step a n tol s) s = Ok (Done res) -> exists j s', (j < k)%nat /\ cg_path a n tol s j s' /\ cg_step a n tol s' = Ok (Done res).
Proof.
  revert i s. induction k as [|k IH]; intros i s; cbn [loop_up]; [discriminate|]. destruct (cg_step a n tol s) as [[s1|r]|] eqn:E; cbn [bind]; [| |discriminate].
  - intros H. destruct (IH _ _ H) as (j & s' & H1 & H2 & H3). exists (S j), s'. split; [lia|]. split; [econstructor; eauto|exact H3].
  - intros H. injection H as ->. exists 0%nat, s. split; [lia|]. split; [constructor|exact E].
Qed.
(** ** Acceptance *)
Lemma accept_norm (r : Arr F) (rho tol : f64) : is_vec n r -> a_dot r r = Ok rho -> fin tol = true -> Bltb (fsqrt rho) tol = true ->
  vfin r /\ 0 < val tol /\ norm2 n (fcoords r) <= (1 + 6 * INR n * uu) * val tol + bpow radix2 (-500).
Proof.
  intros Vr E Ft Hlt. pose proof uu_small as U. pose proof ee_small as Ee. destruct n_facts as [N1 NU].
  destruct (sqrt_lt_fin rho tol Hlt) as [Frho Prho]. destruct (fsqrt_fin rho Frho Prho) as [Vs Fs]. rewrite Bltb_correct in Hlt by assumption. rewrite Vs in Hlt. set (q := sqrt (val rho)) in *.
  assert (Hlt2 : rnd q < val tol). { revert Hlt. case Rlt_bool_spec; [auto|discriminate]. }
  split. { rewrite (a_dot_ok n r r Vr Vr) in E. injection E as E. subst rho. intros i Hi. exact (proj1 (accum_fin_z lm (nsum0 (n := F)) (fun i => vget r i) (fun i => vget r i) n Frho i Hi)). }
  assert (Q0 : 0 <= q) by apply sqrt_pos. assert (QQ : q * q = val rho) by (apply sqrt_sqrt; exact Prho).
  pose proof (rnd_err_r q) as ER. assert (R0 : 0 <= rnd q). { apply rnd_nn; exact Q0. } rewrite (Rabs_pos_eq (rnd q)) in ER by exact R0. apply Rabs_le_inv in ER.
  set (t := val tol) in *. assert (T0 : 0 < t) by lra. split; [exact T0|]. assert (Q1 : q <= (1 + uu) * t + ee) by (clear - ER Hlt2 U R0; nra).
  pose proof (dot_f64 lm n r r rho ltac:(lia) Vr Vr E Frho) as D. assert (DD : Rsum n (fun i => Rabs (fcoords r i * fcoords r i)) = dot n (fcoords r) (fcoords r)). { apply Rsum_ext. intros i Hi. apply Rabs_pos_eq. apply Rle_0_sqr. }
  rewrite DD in D. set (d := dot n (fcoords r) (fcoords r)) in *. assert (D0 : 0 <= d) by apply dot_self_nonneg. rewrite <- QQ in D. apply Rabs_le_inv in D.
  set (h := bpow radix2 (-520)). assert (H0 : 0 < h) by apply bpow_gt_0. assert (HH : 4 * INR n * ee <= h * h / 4).
  { assert (INR n <= 1048576) by (rewrite INR_IZR_INZ; apply IZR_le; lia). assert (HH : h * h = 34359738368 * ee). { unfold h. rewrite <- bpow_plus. change (-520 + -520)%Z with (35 + -1075)%Z. rewrite bpow_plus. reflexivity. } rewrite HH. nra. }
  set (N := INR n) in *. set (v := N * uu) in *. assert (V0 : 0 <= v <= / 1000) by (split; [unfold v; apply Rmult_le_pos; lra|exact NU]).
  assert (B : d <= ((1 + 2 * v) * (q + h)) * ((1 + 2 * v) * (q + h))).
  { assert (D1 : d * (1 - 3 * v) <= q * q + h * h / 4) by (unfold v; clear - D HH; nra). assert (0 <= q * h) by (apply Rmult_le_pos; lra). assert (D2 : q * q + h * h / 4 <= (q + h) * (q + h) * (1 - 0)) by nra.
    set (y := (q + h) * (q + h)) in *. assert (0 <= y) by (unfold y; apply Rle_0_sqr). replace ((1 + 2 * v) * (q + h) * ((1 + 2 * v) * (q + h))) with ((1 + 2 * v) * (1 + 2 * v) * y) by (unfold y; ring).
    assert (D3 : d * (1 - 3 * v) <= y) by lra. assert (D4 : 1 <= (1 - 3 * v) * ((1 + 2 * v) * (1 + 2 * v))) by nra. apply Rle_trans with (d * ((1 - 3 * v) * ((1 + 2 * v) * (1 + 2 * v)))); [nra|]. replace (d * ((1 - 3 * v) * ((1 + 2 * v) * (1 + 2 * v)))) with ((1 + 2 * v) * (1 + 2 * v) * (d * (1 - 3 * v))) by ring. apply Rmult_le_compat_l; [nra|exact D3]. }
  assert (S : norm2 n (fcoords r) <= (1 + 2 * v) * (q + h)). { unfold norm2. rewrite <- (sqrt_square ((1 + 2 * v) * (q + h))). - apply sqrt_le_1_alt. exact B. - apply Rmult_le_pos; lra. }
  assert (U2 : uu <= v) by (unfold v; rewrite <- (Rmult_1_l uu) at 1; apply Rmult_le_compat_r; lra).
  eapply Rle_trans; [exact S|]. replace (6 * N * uu) with (6 * v) by (unfold v; ring).
  assert (H5 : h <= bpow radix2 (-500) / 8). { unfold h. replace (bpow radix2 (-520)) with (bpow radix2 (-500) * bpow radix2 (-20)) by (rewrite <- bpow_plus; reflexivity). pose proof (bpow_gt_0 radix2 (-500)). change (bpow radix2 (-20)) with (/ 1048576). lra. }
  assert (E5 : ee <= bpow radix2 (-500) / 8). { replace ee with (bpow radix2 (-500) * bpow radix2 (-575)) by (rewrite <- bpow_plus; reflexivity). pose proof (bpow_gt_0 radix2 (-500)). assert (bpow radix2 (-575) <= bpow radix2 (-3)) by (apply bpow_le; lia). change (bpow radix2 (-3)) with (/ 8) in *. nra. }
  set (g := bpow radix2 (-500)) in *. assert (VT : v * t <= t / 1000) by nra. assert (UT : 0 <= uu * t <= v * t) by (split; nra). assert (VU : v * (uu * t) <= v * t / 1000) by nra. assert (0 < g) by lra. assert (v * h <= h) by nra. assert (v * ee <= ee) by nra.
  apply Rle_trans with ((1 + 2 * v) * ((1 + uu) * t + ee + h)); [apply Rmult_le_compat_l; lra|]. nra.
Qed.
(** ** Norms *)
Lemma norm2_tri (f g : vec) : norm2 n (fun i => f i + g i) <= norm2 n f + norm2 n g.
Proof.
  unfold norm2. pose proof (dot_self_nonneg n f) as A. pose proof (dot_self_nonneg n g) as B. set (A' := sqrt (dot n f f)). set (B' := sqrt (dot n g g)). assert (A0 : 0 <= A') by apply sqrt_pos. assert (B0 : 0 <= B') by apply sqrt_pos.
  assert (AA : A' * A' = dot n f f) by (apply sqrt_sqrt; exact A). assert (BB : B' * B' = dot n g g) by (apply sqrt_sqrt; exact B). rewrite <- (sqrt_square (A' + B')) by lra. apply sqrt_le_1_alt.
  assert (E : dot n (fun i => f i + g i) (fun i => f i + g i) = dot n f f + 2 * dot n f g + dot n g g). { unfold dot. rewrite <- Rsum_scal, <- !Rsum_plus. apply Rsum_ext. intros i _. ring. }
  rewrite E. pose proof (cauchy n f g) as C. rewrite <- AA, <- BB in *. assert (dot n f g <= A' * B'). { apply Rsqr_incr_0_var; [unfold Rsqr; nra|nra]. } nra.
Qed.
Lemma norm2_max (f : vec) B : (forall i, (i < n)%nat -> Rabs (f i) <= B) -> norm2 n f <= INR n * B.
Proof.
  intros H. destruct n_facts as [N1 _]. assert (B0 : 0 <= B) by (eapply Rle_trans; [apply Rabs_pos|exact (H 0%nat Hn)]). unfold norm2. rewrite <- (sqrt_square (INR n * B)) by (apply Rmult_le_pos; lra). apply sqrt_le_1_alt.
  assert (S : dot n f f <= INR n * (B * B)). { unfold dot. rewrite (Rsum_ext n _ (fun i => Rabs (f i * f i))). - apply (sum_le n (fun i => f i * f i)). intros i Hi. rewrite Rabs_mult. apply Rmult_le_compat; auto using Rabs_pos. - intros i _. symmetry. apply Rabs_pos_eq, Rle_0_sqr. }
  assert (0 <= B * B) by nra. replace (INR n * B * (INR n * B)) with (INR n * INR n * (B * B)) by ring. assert (INR n <= INR n * INR n) by nra. nra.
Qed.
Lemma coord_norm (f : vec) i : (i < n)%nat -> Rabs (f i) <= norm2 n f.
Proof.
  intros Hi. unfold norm2. rewrite <- (sqrt_square (Rabs (f i))) by apply Rabs_pos. apply sqrt_le_1_alt. rewrite <- Rabs_mult, Rabs_pos_eq by apply Rle_0_sqr. exact (Rsum_pos_one n i (fun i => f i * f i) Hi (fun j _ => Rle_0_sqr (f j))).
Qed.
(** ** The whole run *)
Theorem cg_answer (x0 : option (Arr F)) (tol : F) (m : nat) (x : Arr F) : is_vec n b -> match x0 with Some v => is_vec n v | None => True end -> fin (tol : f64) = true ->
  2 * val (tol : f64) + bpow radix2 (-400) <= Y ->
  (forall s k s', cg_first a b x0 s -> cg_path a n tol s k s' -> cg_within n a X Y T s') ->
  conjugate_gradient a b x0 tol m = Ok (Solved x) -> vfin x -> vle x X ->
  norm2 n (fun i => fcoords b i - Rsum n (fun j => fentry n a i j * fcoords x j)) <= (1 + 6 * INR n * uu) * val (tol : f64) + bpow radix2 (-500) + INR n * (INR m + 1) * unit.
Proof.
  intros Vb V0 Ft HYt HP Run Fx Bx. pose proof uu_small as U. destruct n_facts as [N1 NU]. unfold conjugate_gradient in Run. assert (Ln : a_len b = n) by (destruct Vb as [L _]; exact L). rewrite Ln in Run.
  set (xs := match x0 with Some x0 => x0 | None => a_new n end) in *. assert (Vxs : is_vec n xs). { unfold xs. destruct x0; [exact V0|]. split; [apply repeat_length|reflexivity]. }
  destruct (a_dot_mv a xs) as [ax|] eqn:Eax; [|discriminate]. cbn [bind] in Run. destruct (a_sub b ax) as [r|] eqn:Er; [|discriminate]. cbn [bind] in Run. destruct (a_dot r r) as [rho|] eqn:Erho; [|discriminate]. cbn [bind] in Run.
  unfold loop_range in Run. rewrite Nat.sub_0_r in Run. set (s0 := (xs, r, r, rho) : st) in *.
  destruct (loop_up m 0 (fun _ s => cg_step a n tol s) s0) as [[s1|res]|] eqn:El; [discriminate| |discriminate]. cbn [bind] in Run. injection Run as ->.
  assert (First : cg_first a b x0 s0). { unfold cg_first, s0. split; [unfold xs; rewrite Ln; reflexivity|]. split; [reflexivity|]. exists ax. auto. }
  destruct (loop_path tol m 0 s0 _ El) as (k & s & Hk & Pth & Hs). specialize (HP s0). pose proof (fun j s' => HP j s' First) as HP'. clear HP.
  assert (Vr : is_vec n r). { destruct (a_zip_ok _ _ _ _ Er) as (_ & _ & _ & _). destruct Vb as [L C]. destruct (a_zip_ok _ _ _ _ Er) as (Z1 & Z2 & Z3 & Z4). split; congruence. }
  assert (SV : svec s0) by (repeat split; try apply Vxs; apply Vr).
  assert (VS : svec s). { clear - Pth SV Hn Ha. induction Pth; auto. apply IHPth. eapply next_vec; eauto. }
  pose proof (HP' k s Pth) as Ws. destruct s as [[[x1 r1] p1] rho1]. destruct VS as (Vx1 & Vr1 & Vp1). cbn in Vx1, Vr1, Vp1. destruct Ws as (Bx1 & Br1 & BT). unfold cg_step in Hs.
  destruct (a_dot_mv a p1) as [ad|] eqn:Ead; [|discriminate]. cbn [bind] in Hs. assert (Vad : is_vec n ad). { rewrite (a_dot_mv_ok n n a p1 Hn Ha Vp1) in Ead. injection Ead as <-. split; [cbn; now rewrite map_length, seq_length|reflexivity]. }
  destruct (a_dot p1 ad) as [d|] eqn:Ed; [|discriminate]. cbn [bind] in Hs. destruct (neqb (n := F) d n0); [discriminate|].
  destruct (cg_axpy n x1 (ndiv (n := F) rho1 d) p1) as [x2|] eqn:Ex; [|discriminate]. cbn [bind] in Hs. destruct (cg_axmy n r1 (ndiv (n := F) rho1 d) ad) as [r2|] eqn:Er2; [|discriminate]. cbn [bind] in Hs.
  destruct (a_dot r2 r2) as [rho2|] eqn:Erho2; [|discriminate]. cbn [bind] in Hs. destruct (nltb (n := F) (nsqrt rho2) tol) eqn:Acc.
  2: { destruct (cg_dir n p1 (ndiv (n := F) rho2 rho1) r2); discriminate. }
  injection Hs as ->. assert (Vr2 : is_vec n r2) by exact (ok_vec (fun xi pi => nsub (n := F) xi (nmul (n := F) (ndiv (n := F) rho1 d) pi)) r1 ad r2 Vr1 Vad Er2).
  destruct (accept_norm r2 rho2 tol Vr2 Erho2 Ft Acc) as (Fr2 & Pt & Nr2).
  assert (Br2 : vle r2 Y). { intros i Hi. eapply Rle_trans; [apply (coord_norm (fcoords r2) i Hi)|]. eapply Rle_trans; [exact Nr2|]. eapply Rle_trans; [|exact HYt]. assert (bpow radix2 (-500) <= bpow radix2 (-400)) by (apply bpow_le; lia).
    assert (INR n * uu * val (tol : f64) <= / 1000 * val (tol : f64)) by (apply Rmult_le_compat_r; lra). lra. }
  destruct (step_gap x1 r1 p1 ad x r2 (ndiv (n := F) rho1 d) Vx1 Vr1 Vp1 Ead Ex Er2 Fx Fr2 Bx1 Bx Br1 Br2 (BT ad d eq_refl Ed)) as (_ & _ & Fx1 & Fr1 & G1).
  destruct (path_gap tol s0 k _ Pth SV HP' Fx1 Fr1) as (_ & _ & Fr0 & G2). cbn in Fr0, G2.
  destruct (HP' 0%nat s0 (cp_here _ _ _ _)) as (Bx0 & Br0 & _). destruct (first_gap xs ax r Vb Vxs Eax Er Fr0 Bx0 Br0) as [_ G3].
  assert (U0 : 0 <= unit) by (eapply Rle_trans; [apply Rabs_pos|exact (G3 0%nat Hn)]).
  assert (G : forall i, (i < n)%nat -> Rabs (gap x r2 i) <= (INR m + 1) * unit).
  { intros i Hi. specialize (G1 i Hi). specialize (G2 i Hi). specialize (G3 i Hi). replace (gap x r2 i) with ((gap x r2 i - gap x1 r1 i) + (gap x1 r1 i - gap xs r i) + gap xs r i) by ring.
    eapply Rle_trans; [apply Rabs_triang|]. eapply Rle_trans; [apply Rplus_le_compat_r, Rabs_triang|]. assert (INR k + 1 <= INR m) by (rewrite <- S_INR; apply le_INR; lia). assert ((INR k + 1) * unit <= INR m * unit) by (apply Rmult_le_compat_r; assumption). lra. }
  assert (Ng := norm2_max (gap x r2) _ G). pose proof (norm2_tri (fcoords r2) (gap x r2)) as Tri.
  assert (Eq : norm2 n (fun i => fcoords b i - Rsum n (fun j => fentry n a i j * fcoords x j)) = norm2 n (fun i => fcoords r2 i + gap x r2 i)). { unfold norm2, dot. f_equal. apply Rsum_ext. intros i _. unfold gap. ring. }
  rewrite Eq. eapply Rle_trans; [exact Tri|]. rewrite Rmult_assoc. lra.
Qed.
End C.
