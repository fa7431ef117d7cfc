(** Concrete matrices over the reals used by the examples. *)
From Coq Require Import Reals List Bool Arith Lia Lra Psatz.
From Verif Require Import Num Res Arr CuttingPlane ArrLemmas Spec RealLin EllSpec EllReal Ldlt LdltLemmas LdltSpec LdltReal LdltProofs Lmi LmiSpec LmiProofs.
Import ListNotations.
Open Scope R_scope.

Definition m2 (a b c d : R) : Arr RNum := mkArr (N := RNum) [a; b; c; d] 2 2.
Lemma m2_square a b c d : square 2 (m2 a b c d).
Proof. repeat split. Qed.
Lemma m2_sym a b d : sym 2 (entries 2 (m2 a b b d)).
Proof.
  intros i j Hi Hj. destruct i as [|[|]], j as [|[|]]; try lia; reflexivity.
Qed.
Lemma m2_quad a b d x : quad 2 (entries 2 (m2 a b b d)) x = a * (x 0%nat * x 0%nat) + 2 * b * (x 0%nat * x 1%nat) + d * (x 1%nat * x 1%nat).
Proof. unfold quad, dot, mulmv, entries. cbn. ring. Qed.
Lemma m2_reads a b d : reads (N := RNum) 2 (a_get (m2 a b b d)) (entries 2 (m2 a b b d)).
Proof. apply (square_reads (N := RNum) 2), m2_square. Qed.
Lemma mgr_new {N : Num} n : mgr n (ldlt_new (N := N) n).
Proof. exists []. reflexivity. Qed.

Definition spd2 : Arr RNum := m2 2 1 1 2.
Definition ind2 : Arr RNum := m2 1 2 2 1.
Lemma spd2_pd : pd 2 (entries 2 spd2).
Proof.
  intros x (i & Hi & Hx). unfold spd2. rewrite m2_quad.
  destruct i as [|[|]]; [| |lia].
  - pose proof (Rsqr_pos_lt _ Hx). unfold Rsqr in *. nra.
  - pose proof (Rsqr_pos_lt _ Hx). unfold Rsqr in *. nra.
Qed.
Lemma ind2_not_pd : ~ pd 2 (entries 2 ind2).
Proof.
  intros H. specialize (H (fun i => if (i =? 0)%nat then 1 else -1)). unfold ind2 in H. rewrite m2_quad in H. cbn in H.
  assert (0 < 1 * (1 * 1) + 2 * 2 * (1 * -1) + 1 * (-1 * -1)); [|lra]. apply H. exists 0%nat. split; [lia|]. cbn. lra.
Qed.

(** accepted although indefinite *)
Definition bad2 : Arr RNum := m2 0 15 15 18.
Lemma semi_accepts_indefinite : exists a m', square 2 a /\ sym 2 (entries 2 a) /\ (exists x, quad 2 (entries 2 a) x < 0) /\
  ldlt_factor_semi (N := RNum) (a_get a) (ldlt_new 2) = Ok (m', true).
Proof.
  exists bad2.
  assert (E : exists m' b, ldlt_factor_semi (N := RNum) (a_get bad2) (ldlt_new 2) = Ok (m', b) /\ b = true).
  { unfold ldlt_factor_semi, ldlt_new, loop_range. cbn [l_ndim l_storage loop_up Nat.sub].
    unfold ldlt_row at 1. cbn -[ldlt_row Raux.Rlt_bool Raux.Req_bool IZR].
    rewrite (proj2 (Rlt_bool_no _ _)) by lra. rewrite (proj2 (Req_bool_iff _ _)) by lra. cbn -[ldlt_row Raux.Rlt_bool Raux.Req_bool IZR].
    unfold ldlt_row. cbn -[Raux.Rlt_bool Raux.Req_bool IZR].
    rewrite (proj2 (Rlt_bool_no _ _)) by lra. rewrite (proj2 (Req_bool_no _ _)) by lra. cbn. eauto. }
  destruct E as (m' & b & E & ->). exists m'. split; [apply m2_square|]. split; [apply m2_sym|]. split; [|exact E].
  exists (fun i => if (i =? 0)%nat then -1 else 1). unfold bad2. rewrite m2_quad. cbn. lra.
Qed.

Definition psd2 : Arr RNum := m2 1 1 1 1.
Lemma psd2_psd : psd 2 (entries 2 psd2) /\ ~ pd 2 (entries 2 psd2).
Proof.
  split.
  - intros x. unfold psd2. rewrite m2_quad. pose proof (Rle_0_sqr (x 0%nat + x 1%nat)). unfold Rsqr in *. lra.
  - intros H. specialize (H (fun i => if (i =? 0)%nat then 1 else -1)). unfold psd2 in H. rewrite m2_quad in H. cbn in H.
    assert (0 < 1 * (1 * 1) + 2 * 1 * (1 * -1) + 1 * (-1 * -1)); [|lra]. apply H. exists 0%nat. split; [lia|]. cbn. lra.
Qed.

(** an LMI in one variable: I - x [[0,1],[1,0]] > 0 iff |x| < 1 *)
Definition lmi1 : LMI RNum := lmi_new (N := RNum) [m2 0 1 1 0] (m2 1 0 0 1).
Definition lmi01 : LMI0 RNum := mkLMI0 (N := RNum) [m2 1 0 0 1; m2 0 1 1 0] (ldlt_new 2).
Definition x1 (v : R) : Arr RNum := mkArr (N := RNum) [v] 1 0.
Definition x2 (v w : R) : Arr RNum := mkArr (N := RNum) [v; w] 2 0.
Lemma lmi1_ok : lmi_ok 2 lmi1 /\ sym 2 (entries 2 (lmi_b lmi1)) /\ all_sym 2 (lmi_f lmi1).
Proof.
  split; [|split].
  - apply lmi_new_ok; [apply m2_square|]. constructor; [apply m2_square|constructor].
  - apply (m2_sym 1 0 1).
  - constructor; [apply (m2_sym 0 1 0)|constructor].
Qed.
Lemma lmi1_pencil v x : quad 2 (pencil 2 1 (lmi_f lmi1) (lmi_b lmi1) v) x =
  x 0%nat * x 0%nat + x 1%nat * x 1%nat - 2 * v 0%nat * (x 0%nat * x 1%nat).
Proof.
  rewrite quad_pencil. cbn [Rsum]. change (nth 0 (lmi_f lmi1) (lmi_b lmi1)) with (m2 0 1 1 0). change (lmi_b lmi1) with (m2 1 0 0 1).
  rewrite !m2_quad. ring.
Qed.
Lemma lmi1_feasible : pd 2 (pencil 2 1 (lmi_f lmi1) (lmi_b lmi1) (fun _ => 1 / 2)).
Proof.
  intros x (i & Hi & Hx). rewrite lmi1_pencil. destruct i as [|[|]]; [| |lia]; pose proof (Rsqr_pos_lt _ Hx); unfold Rsqr in *; nra.
Qed.
Lemma lmi1_infeasible : ~ pd 2 (pencil 2 1 (lmi_f lmi1) (lmi_b lmi1) (xvec (x1 2))).
Proof.
  intros H. specialize (H (fun _ => 1)). rewrite lmi1_pencil in H. unfold xvec, x1 in H. cbn in H.
  assert (0 < 1 * 1 + 1 * 1 - 2 * 2 * (1 * 1)); [|lra]. apply H. exists 0%nat. split; [lia|lra].
Qed.
Lemma lmi01_ok : lmi0_ok 2 lmi01 /\ all_sym 2 (lmi0_f lmi01).
Proof.
  split; [split|].
  - repeat constructor.
  - apply mgr_new.
  - constructor; [apply (m2_sym 1 0 1)|constructor; [apply (m2_sym 0 1 0)|constructor]].
Qed.
Lemma lmi01_pencil v x : quad 2 (pencil0 2 2 (lmi0_f lmi01) v) x =
  v 0%nat * (x 0%nat * x 0%nat + x 1%nat * x 1%nat) + 2 * v 1%nat * (x 0%nat * x 1%nat).
Proof.
  rewrite quad_pencil0. cbn [Rsum]. change (nth 0 (lmi0_f lmi01) _) with (m2 1 0 0 1). change (nth 1 (lmi0_f lmi01) _) with (m2 0 1 1 0).
  rewrite !m2_quad. ring.
Qed.
Lemma lmi01_both : pd 2 (pencil0 2 2 (lmi0_f lmi01) (xvec (x2 1 0))) /\ ~ pd 2 (pencil0 2 2 (lmi0_f lmi01) (xvec (x2 1 2))).
Proof.
  split.
  - intros x (i & Hi & Hx). rewrite lmi01_pencil. unfold xvec, x2. cbn.
    destruct i as [|[|]]; [| |lia]; pose proof (Rsqr_pos_lt _ Hx); unfold Rsqr in *; nra.
  - intros H. specialize (H (fun i => if (i =? 0)%nat then 1 else -1)). rewrite lmi01_pencil in H. unfold xvec, x2 in H. cbn in H.
    assert (0 < 1 * (1 * 1 + -1 * -1) + 2 * 2 * (1 * -1)); [|lra]. apply H. exists 0%nat. split; [lia|cbn; lra].
Qed.

Lemma ind2_rejected : exists m', ldlt_factor (N := RNum) (a_get ind2) (ldlt_new 2) = Ok (m', false).
Proof.
  destruct (factor_decides 2 _ _ _ (mgr_new 2) (m2_reads 1 2 1) (m2_sym 1 2 1)) as (m' & b & E & H). exists m'. etransitivity; [exact E|].
  destruct b; auto. exfalso. apply ind2_not_pd. now apply H.
Qed.
Lemma spd2_accepted : exists m', ldlt_factor (N := RNum) (a_get spd2) (ldlt_new 2) = Ok (m', true).
Proof.
  destruct (factor_decides 2 _ _ _ (mgr_new 2) (m2_reads 2 1 2) (m2_sym 2 1 2)) as (m' & b & E & H). exists m'. etransitivity; [exact E|].
  rewrite (proj2 H spd2_pd). reflexivity.
Qed.
