(** The cuts of the oracles of the repository, in binary64: they satisfy the
    hypotheses of the theorems on kappa. *)
From Coq Require Import ZArith Reals List Bool Arith Lia Lra.
From Flocq Require Import Core IEEE754.BinarySingleNaN.
From Verif Require Import Num Res Arr CuttingPlane EllCalc Ell FloatLemmas RunProofs Examples Profit Lowpass Squares Portfolio
  FloatSign KappaSpec.
Import ListNotations.
Open Scope R_scope.

Lemma pos_clear (x : f64) : Bltb (fofZ 0) x = true -> clear x.
Proof. destruct x as [s|s| |s m e Hb]; try (destruct s); intros H; try discriminate H; reflexivity. Qed.

Lemma robin_pos {N : Num} {S : Type} m (step : Z -> S -> res (S * N)) idx s i2 s2 fj :
  round_robin m step idx s = Ok (Done (i2, s2, fj)) -> nltb n0 fj = true.
Proof.
  intros E. unfold round_robin, loop_range in E.
  match type of E with loop_up ?k ?lo ?body ?st = _ =>
    pose proof (loop_part (fun _ (_ : Z * S) => True) (fun '((_, _, f) : Z * S * num N) => nltb n0 f = true) body k lo st) as L end.
  rewrite E in L. apply L; auto. clear. intros i [i1 s1] [[i2 s2] f] _ _ EB. cbv zeta in EB. apply bind_inv in EB as ([s3 f3] & _ & EB).
  destruct (nltb n0 f3) eqn:B; inversion EB; subst. exact B.
Qed.

(** signs of sums and differences, infinite values included *)
Lemma sub_pos (x y : f64) : Bltb y x = true -> Bltb (fofZ 0) (fsub x y) = true.
Proof.
  intros H. destruct (is_finite x) eqn:Fx; [destruct (is_finite y) eqn:Fy|].
  - rewrite (fltb_fin y x Fy Fx) in H. destruct (Rlt_bool_spec (val y) (val x)) as [L|]; [|discriminate].
    generalize (Bminus_correct fprec femax fprec_gt_0 fprec_lt_emax mode_NE x y Fx Fy). change (Bminus mode_NE x y) with (fsub x y). case Rlt_bool_spec; intros Hb K.
    + destruct K as (V & Ff & _). assert (Fz : fin (fofZ 0) = true) by reflexivity. rewrite (fltb_fin _ _ Fz Ff). apply Rlt_bool_true. change (val (fofZ 0)) with 0.
      rewrite V. change (0 < rnd (val x - val y)).
      destruct (pow2_below (val x - val y)) as (p & Hp & P1 & _); [lra| |].
      { exists (val x), (val y). split; [apply val_generic|]. split; [apply val_generic|lra]. }
      pose proof (bpow_gt_0 radix2 p). apply Rlt_le_trans with (1 := H0).
      rewrite <- (rnd_generic (bpow radix2 p)) by (apply bpow_generic; exact Hp). apply rnd_le. exact P1.
    + destruct K as (V & Es). assert (S : Bsign (fsub x y) = Bsign x) by (apply overflow_sign in V; exact V).
      assert (Sx : Bsign x = false).
      { destruct (Bsign x) eqn:Sx; auto. symmetry in Es. apply negb_true_iff in Es. exfalso. pose proof (plus_val y Es). assert (val x <= 0).
        { destruct x as [s|s| |s m e Hb']; cbn in Sx; subst; cbn; try apply Rle_refl. apply F2R_le_0. apply Pos2Z.neg_is_nonpos. } lra. }
      rewrite Sx in V. destruct (fsub x y) as [s|s| |s m e Hb']; cbn in V; try discriminate V; inversion V; subst; reflexivity.
  - destruct x as [s|s| |s m e Hb]; try discriminate Fx; destruct y as [s'|s'| |s' m' e' Hb']; try discriminate Fy; try discriminate H; try (destruct s'); try discriminate H; reflexivity.
  - destruct x as [s|s| |s m e Hb]; try discriminate Fx; destruct y as [s'|s'| |s' m' e' Hb']; try discriminate H; try (destruct s); try discriminate H; try (destruct s'); try discriminate H; reflexivity.
Qed.
Lemma add_pos (x y : f64) : Bltb x y = true -> Bltb (fofZ 0) (fadd (Bopp x) y) = true.
Proof.
  intros H. destruct (is_finite x) eqn:Fx; [destruct (is_finite y) eqn:Fy|].
  - rewrite (fltb_fin x y Fx Fy) in H. destruct (Rlt_bool_spec (val x) (val y)) as [L|]; [|discriminate].
    assert (Fo : fin (Bopp x) = true) by (rewrite is_finite_Bopp; exact Fx).
    assert (Vo : val (Bopp x) = - val x) by (apply B2R_Bopp).
    generalize (Bplus_correct fprec femax fprec_gt_0 fprec_lt_emax mode_NE (Bopp x) y Fo Fy). change (Bplus mode_NE (Bopp x) y) with (fadd (Bopp x) y). case Rlt_bool_spec; intros Hb K.
    + destruct K as (V & Ff & _). assert (Fz : fin (fofZ 0) = true) by reflexivity. rewrite (fltb_fin _ _ Fz Ff). apply Rlt_bool_true. change (val (fofZ 0)) with 0.
      rewrite V. change (0 < rnd (val (Bopp x) + val y)).
      destruct (pow2_below (val (Bopp x) + val y)) as (p & Hp & P1 & _); [lra| |].
      { exists (val y), (val x). split; [apply val_generic|]. split; [apply val_generic|lra]. }
      pose proof (bpow_gt_0 radix2 p). apply Rlt_le_trans with (1 := H0).
      rewrite <- (rnd_generic (bpow radix2 p)) by (apply bpow_generic; exact Hp). apply rnd_le. exact P1.
    + destruct K as (V & Es). assert (S : Bsign (fadd (Bopp x) y) = Bsign (Bopp x)) by (apply overflow_sign in V; exact V).
      assert (Sx : Bsign (Bopp x) = false).
      { destruct (Bsign (Bopp x)) eqn:Sx; auto. exfalso. symmetry in Es.
        assert (N : forall z : f64, Bsign z = true -> val z <= 0).
        { intros z Sz. destruct z as [s|s| |s m e Hb']; cbn in Sz; subst; cbn; try apply Rle_refl. apply F2R_le_0. apply Pos2Z.neg_is_nonpos. }
        pose proof (N _ Sx). pose proof (N _ Es). lra. }
      rewrite Sx in V. destruct (fadd (Bopp x) y) as [s|s| |s m e Hb']; cbn in V; try discriminate V; inversion V; subst; reflexivity.
  - destruct x as [s|s| |s m e Hb]; try discriminate Fx; destruct y as [s'|s'| |s' m' e' Hb']; try discriminate Fy; try discriminate H; try (destruct s'); try discriminate H; reflexivity.
  - destruct x as [s|s| |s m e Hb]; try discriminate Fx; destruct y as [s'|s'| |s' m' e' Hb']; try discriminate H; try (destruct s); try discriminate H; try (destruct s'); try discriminate H; reflexivity.
Qed.
Lemma square_plus (x : f64) : clear (fmul x x).
Proof.
  generalize (Bmult_correct fprec femax fprec_gt_0 fprec_lt_emax mode_NE x x). change (Bmult mode_NE x x) with (fmul x x).
  case Rlt_bool_spec; intros _ H.
  - destruct H as (_ & _ & H). destruct (is_nan (fmul x x)) eqn:E; [destruct (fmul x x); try discriminate E; reflexivity|].
    unfold clear. rewrite (H eq_refl). apply xorb_nilpotent.
  - apply overflow_sign in H. unfold clear. rewrite H. apply xorb_nilpotent.
Qed.
Lemma lt_le_trans_f (x y z : f64) : Bleb x y = true -> Bltb y z = true -> Bltb x z = true.
Proof.
  intros H1 H2.
  destruct (is_finite x) eqn:Fx; [destruct (is_finite y) eqn:Fy; [destruct (is_finite z) eqn:Fz|]|].
  - rewrite (fleb_fin x y Fx Fy) in H1. rewrite (fltb_fin y z Fy Fz) in H2. rewrite (fltb_fin x z Fx Fz).
    destruct (Rle_bool_spec (val x) (val y)); [|discriminate]. destruct (Rlt_bool_spec (val y) (val z)); [|discriminate]. apply Rlt_bool_true. lra.
  - destruct x as [s1|s1| |s1 m1 e1 Hb1], y as [s2|s2| |s2 m2 e2 Hb2], z as [s3|s3| |s3 m3 e3 Hb3]; try destruct s1; try destruct s2; try destruct s3; try discriminate Fz; try discriminate H1; try discriminate H2; reflexivity.
  - destruct x as [s1|s1| |s1 m1 e1 Hb1], y as [s2|s2| |s2 m2 e2 Hb2], z as [s3|s3| |s3 m3 e3 Hb3]; try destruct s1; try destruct s2; try destruct s3; try discriminate Fy; try discriminate H1; try discriminate H2; reflexivity.
  - destruct x as [s1|s1| |s1 m1 e1 Hb1], y as [s2|s2| |s2 m2 e2 Hb2], z as [s3|s3| |s3 m3 e3 Hb3]; try destruct s1; try destruct s2; try destruct s3; try discriminate Fx; try discriminate H1; try discriminate H2; reflexivity.
Qed.
Lemma le_lt_trans_f (x y z : f64) : Bltb x y = true -> Bleb y z = true -> Bltb x z = true.
Proof.
  intros H1 H2.
  destruct (is_finite x) eqn:Fx; [destruct (is_finite y) eqn:Fy; [destruct (is_finite z) eqn:Fz|]|].
  - rewrite (fltb_fin x y Fx Fy) in H1. rewrite (fleb_fin y z Fy Fz) in H2. rewrite (fltb_fin x z Fx Fz).
    destruct (Rlt_bool_spec (val x) (val y)); [|discriminate]. destruct (Rle_bool_spec (val y) (val z)); [|discriminate]. apply Rlt_bool_true. lra.
  - destruct x as [s1|s1| |s1 m1 e1 Hb1], y as [s2|s2| |s2 m2 e2 Hb2], z as [s3|s3| |s3 m3 e3 Hb3]; try destruct s1; try destruct s2; try destruct s3; try discriminate Fz; try discriminate H1; try discriminate H2; reflexivity.
  - destruct x as [s1|s1| |s1 m1 e1 Hb1], y as [s2|s2| |s2 m2 e2 Hb2], z as [s3|s3| |s3 m3 e3 Hb3]; try destruct s1; try destruct s2; try destruct s3; try discriminate Fy; try discriminate H1; try discriminate H2; reflexivity.
  - destruct x as [s1|s1| |s1 m1 e1 Hb1], y as [s2|s2| |s2 m2 e2 Hb2], z as [s3|s3| |s3 m3 e3 Hb3]; try destruct s1; try destruct s2; try destruct s3; try discriminate Fx; try discriminate H1; try discriminate H2; reflexivity.
Qed.
Lemma not_lt_le (v m : f64) : Bltb v (fofZ 0) = false -> Bltb m v = true -> Bleb (fofZ 0) v = true.
Proof. destruct v as [s|s| |s m' e Hb]; try destruct s; intros H1 H2; try discriminate H1; try reflexivity. destruct m as [s|s| |s mm em Hm]; try destruct s; discriminate H2. Qed.

Section O.
Variable lm : Libm.
Notation F := (FNum lm).
#[local] Opaque fadd fsub fmul fdiv fsqrt fofZ.

Lemma ex1_clear : optim_only (fun _ _ => True) (clear_single (lm := lm)) (ex1_assess (N := F)).
Proof.
  intros o x ga o' ga' g c sh _ E. split; [exact I|]. intros ->. unfold ex1_assess in E.
  apply bind_inv in E as (x0 & _ & E). apply bind_inv in E as (x1 & _ & E).
  repeat match type of E with (if ?b then _ else _) = _ => destruct b eqn:?; [inversion E; subst; apply pos_clear; assumption|] end.
  discriminate E.
Qed.
Lemma ex1rr_clear : optim_only (fun _ _ => True) (clear_single (lm := lm)) (ex1rr_assess (N := F)).
Proof.
  intros o x ga o' ga' g c sh _ E. split; [exact I|]. intros ->. unfold ex1rr_assess in E.
  apply bind_inv in E as (x0 & _ & E). apply bind_inv in E as (x1 & _ & E). apply bind_inv in E as (d & Er & E).
  destruct d as [[i s]|[[i s] f]]; [discriminate E|]. apply bind_inv in E as (g1 & _ & E). inversion E; subst. apply pos_clear. exact (robin_pos _ _ _ _ _ _ _ Er).
Qed.
Lemma ex4_clear : optim_only (fun _ _ => True) (clear_single (lm := lm)) (ex4_assess (N := F)).
Proof.
  intros o x ga o' ga' g c sh _ E. split; [exact I|]. intros ->. unfold ex4_assess in E.
  apply bind_inv in E as (x0 & _ & E). apply bind_inv in E as (x1 & _ & E). apply bind_inv in E as (d & Er & E).
  destruct d as [[i s]|[[i s] f]]; [discriminate E|]. apply bind_inv in E as (g1 & _ & E). inversion E; subst. apply pos_clear. exact (robin_pos _ _ _ _ _ _ _ Er).
Qed.
Lemma qcvx_clear : optim_only (fun _ _ => True) (clear_single (lm := lm)) (qcvx_assess (N := F)).
Proof.
  intros o x ga o' ga' g c sh _ E. split; [exact I|]. intros ->. unfold qcvx_assess in E.
  apply bind_inv in E as (x0 & _ & E). apply bind_inv in E as (x1 & _ & E). apply bind_inv in E as (d & Er & E).
  destruct d as [[i s]|[[i s] f]]; [discriminate E|]. apply bind_inv in E as (g1 & _ & E). inversion E; subst. apply pos_clear. exact (robin_pos _ _ _ _ _ _ _ Er).
Qed.
Lemma ex3_clear : feas_only (fun _ => True) (clear_single (lm := lm)) (ex3_oracle (N := F)).
Proof.
  intros o x o' r _ E. split; [exact I|]. change (ex3_assess o x = Ok (o', r)) in E. unfold ex3_assess in E.
  apply bind_inv in E as (x0 & _ & E). apply bind_inv in E as (x1 & _ & E). apply bind_inv in E as (d & Er & E).
  destruct d as [[i s]|[[i s] f]]; [inversion E; subst; exact I|]. apply bind_inv in E as (g1 & _ & E). inversion E; subst. apply pos_clear. exact (robin_pos _ _ _ _ _ _ _ Er).
Qed.
Lemma profit_feas_pos (p : Profit F) y (ga : F) p' g (f : F) : profit_feas p y ga = Ok (p', Some (g, f)) -> nltb (n := F) (n0 (N := F)) f = true.
Proof.
  intros E. unfold profit_feas in E. apply bind_inv in E as (d & Er & E).
  destruct d as [[i s]|[[i s] f1]]; [discriminate E|]. apply bind_inv in E as (g1 & _ & E). inversion E; subst. exact (robin_pos _ _ _ _ _ _ _ Er).
Qed.
Lemma profit_clear : optim_only (fun _ _ => True) (clear_single (lm := lm)) (profit_assess (N := F)).
Proof.
  intros p x ga o' ga' g c sh _ E. split; [exact I|]. intros ->. unfold profit_assess in E.
  apply bind_inv in E as ([p1 r] & Er & E). destruct r as [[g1 f]|]; [inversion E; subst; apply pos_clear; exact (profit_feas_pos _ _ _ _ _ _ Er)|].
  apply bind_inv in E as (g1 & _ & E). discriminate E.
Qed.
Lemma profit_rb_clear : optim_only (fun _ _ => True) (clear_single (lm := lm)) (profit_rb_assess (N := F)).
Proof.
  intros p x ga o' ga' g c sh _ E. split; [exact I|]. intros ->. unfold profit_rb_assess in E.
  apply bind_inv in E as (a & _ & E). apply bind_inv in E as ([[p1 ga1] [[g1 c1] sh1]] & Er & E). inversion E; subst. exact (proj2 (profit_clear _ _ _ _ _ _ _ _ I Er) eq_refl).
Qed.
Lemma pf_clear (p : Portfolio F) : optim_only (fun _ _ => True) (clear_single (lm := lm)) (pf_assess (N := F) p).
Proof.
  intros o x ga o' ga' g c sh _ E. split; [exact I|]. intros _. unfold pf_assess in E. cbv zeta in E.
  apply bind_inv in E as (s & _ & E). match type of E with (if ?b then _ else _) = _ => destruct b eqn:B1 end.
  { apply bind_inv in E as (g1 & _ & E). inversion E; subst. apply pos_clear. exact B1. }
  apply bind_inv in E as (s2 & _ & E). match type of E with (if ?b then _ else _) = _ => destruct b eqn:B2 end.
  { apply bind_inv in E as (g1 & _ & E). inversion E; subst. apply pos_clear. exact B2. }
  apply bind_inv in E as (s3 & _ & E). match type of E with (if ?b then _ else _) = _ => destruct b eqn:B3 end.
  { apply bind_inv in E as (g1 & _ & E). inversion E; subst. reflexivity. }
  inversion E; subst. reflexivity.
Qed.
Lemma finish_clear (g1 : Arr F) (f ga : F) o' ga' g c sh : clear (f : f64) -> sq_finish g1 f ga = (o', ga', ((g, c), sh)) -> clear_single (lm := lm) c.
Proof. intros H E. unfold sq_finish in E. destruct (nltb f ga); inversion E; subst; exact H. Qed.
Lemma sq2_clear : optim_only (fun _ _ => True) (clear_single (lm := lm)) (sq2_assess (N := F)).
Proof.
  intros o x ga o' ga' g c sh _ E. split; [exact I|]. intros _. unfold sq2_assess in E.
  apply bind_inv in E as (x0 & _ & E). apply bind_inv in E as (x1 & _ & E). injection E as E. refine (finish_clear _ _ _ _ _ _ _ _ _ E).
  apply add_plus; apply square_plus.
Qed.
Lemma sqs_clear (s : F) : clear (s : f64) -> optim_only (fun _ _ => True) (clear_single (lm := lm)) (sqs_assess (N := F) s).
Proof.
  intros Hs o x ga o' ga' g c sh _ E. split; [exact I|]. intros _. unfold sqs_assess in E.
  apply bind_inv in E as (x0 & _ & E). apply bind_inv in E as (x1 & _ & E). injection E as E. refine (finish_clear _ _ _ _ _ _ _ _ _ E).
  apply add_plus; [apply mul_plus; [exact Hs|]|]; apply square_plus.
Qed.
Lemma sqc_clear (s : F) : clear (s : f64) -> optim_only (fun _ _ => True) (clear_single (lm := lm)) (sqc_assess (N := F) s).
Proof.
  intros Hs o x ga o' ga' g c sh _ E. split; [exact I|]. intros _. unfold sqc_assess in E. cbv zeta in E.
  apply bind_inv in E as (x0 & _ & E). apply bind_inv in E as (x1 & _ & E). injection E as E. refine (finish_clear _ _ _ _ _ _ _ _ _ E).
  assert (P1 : clear (fofZ 1)) by reflexivity.
  apply add_plus; apply mul_plus; try apply square_plus; [apply add_plus|apply div_plus]; try exact P1; apply div_plus; [exact P1|exact Hs|exact P1|exact Hs].
Qed.

(** ** the lowpass oracle *)

Lemma lowpass_round_part {S R : Type} (P : S -> Prop) (Q : R -> Prop) lo hi (step : Z -> S -> res (ctl S R)) idx s c :
  P s -> (forall i s s', P s -> step i s = Ok (Next s') -> P s') -> (forall i s r, P s -> step i s = Ok (Done r) -> Q r) ->
  lowpass_round lo hi step idx s = Ok c -> match c with Next (_, s') => P s' | Done (_, _, r) => Q r end.
Proof.
  intros H0 HN HD E. unfold lowpass_round, loop_range in E.
  match type of E with loop_up ?k ?lo ?body ?st = _ =>
    pose proof (loop_part (fun _ '((_, t) : Z * S) => P t) (fun '((_, _, r) : Z * S * R) => Q r) body k lo st H0) as L end.
  rewrite E in L. destruct c as [[i2 s2]|[[i2 s2] r]]; apply L; clear - HN HD.
  1,3: intros i [i1 s1] [i2 s2] _ Hp EB; cbv zeta in EB; apply bind_inv in EB as (c & Es & EB); destruct c; inversion EB; subst; exact (HN _ _ _ Hp Es).
  all: intros i [i1 s1] [[i2 s2] r] _ Hp EB; cbv zeta in EB; apply bind_inv in EB as (c & Es & EB); destruct c; inversion EB; subst; exact (HD _ _ _ Hp Es).
Qed.
Lemma opp_clear (x : f64) : Bltb x (fofZ 0) = true -> clear (Bopp x).
Proof. destruct x as [s|s| |s m e Hb]; try (destruct s); intros H; try discriminate H; reflexivity. Qed.
Lemma pass_clear (o : Lowpass F) x i s g c : Bleb (lw_lp o : f64) (lw_up o) = true -> pass_step o x i s = Ok (Done (g, c)) -> clear_parallel (lm := lm) c.
Proof.
  intros H E. unfold pass_step in E. apply bind_inv in E as (col & _ & E). apply bind_inv in E as (v & _ & E).
  destruct (nltb (n := F) (lw_up o) v) eqn:B1.
  { inversion E; subst. split; [apply pos_clear, sub_pos; exact B1|]. apply sub_pos. exact (lt_le_trans_f _ _ _ H B1). }
  destruct (nltb (n := F) v (lw_lp o)) eqn:B2; [|discriminate E]. inversion E; subst. split; [apply pos_clear, add_pos; exact B2|]. apply add_pos. exact (le_lt_trans_f _ _ _ B2 H).
Qed.
Lemma stop_clear (o : Lowpass F) x i s g c : Bleb (fofZ 0) (lw_sp o : f64) = true -> stop_step o x i s = Ok (Done (g, c)) -> clear_parallel (lm := lm) c.
Proof.
  intros H E. unfold stop_step in E. apply bind_inv in E as (col & _ & E). apply bind_inv in E as (v & _ & E).
  destruct (nltb (n := F) (lw_sp o) v) eqn:B1.
  { inversion E; subst. split; [apply pos_clear, sub_pos; exact B1|]. exact (lt_le_trans_f _ _ _ H B1). }
  destruct (nltb (n := F) v (n0 (N := F))) eqn:B2; [|destruct (nltb (n := F) (fst s) v); discriminate E]. inversion E; subst.
  split; [apply opp_clear; exact B2|]. apply add_pos. exact (le_lt_trans_f _ _ _ B2 H).
Qed.
Definition max_ok (s : F * Z) : Prop := (snd s < 0)%Z \/ Bleb (fofZ 0) (fst s : f64) = true.
Lemma stop_max (o : Lowpass F) x i s s' : max_ok s -> stop_step o x i s = Ok (Next s') -> max_ok s'.
Proof.
  intros H E. unfold stop_step in E. apply bind_inv in E as (col & _ & E). apply bind_inv in E as (v & _ & E).
  destruct (nltb (n := F) (lw_sp o) v) eqn:B1; [discriminate E|]. destruct (nltb (n := F) v (n0 (N := F))) eqn:B2; [discriminate E|].
  destruct (nltb (n := F) (fst s) v) eqn:B3; inversion E; subst; [|exact H]. right. cbn [fst].
  exact (not_lt_le _ _ B2 B3).
Qed.
Lemma trans_clear (o : Lowpass F) x i s g c : trans_step o x i s = Ok (Done (g, c)) -> clear_parallel (lm := lm) c.
Proof.
  intros E. unfold trans_step in E. apply bind_inv in E as (col & _ & E). apply bind_inv in E as (v & _ & E).
  destruct (nltb (n := F) v (n0 (N := F))) eqn:B2; [|discriminate E]. inversion E; subst. split; [apply opp_clear; exact B2|exact I].
Qed.
Lemma low_feas_clear (o : Lowpass F) x o' r : Bleb (lw_lp o : f64) (lw_up o) = true -> Bleb (fofZ 0) (lw_sp o : f64) = true -> lowpass_feas o x = Ok (o', r) ->
  lw_lp o' = lw_lp o /\ lw_up o' = lw_up o /\ match r with Some (_, c) => clear_parallel (lm := lm) c | None => max_ok (lw_fmax o', lw_kmax o') end.
Proof.
  intros H1 H2 E. unfold lowpass_feas in E. cbv zeta in E. apply bind_inv in E as (row0 & _ & E).
  apply bind_inv in E as (c1 & E1 & E).
  pose proof (lowpass_round_part (fun _ => True) (fun '((_, c) : Arr F * ParallelCut F) => clear_parallel (lm := lm) c) _ _ _ _ _ _ I (fun _ _ _ _ _ => I)
    (fun i s '((g, c) as r) _ Es => pass_clear o x i s g c H1 Es) E1) as K1.
  destruct c1 as [[i1 []]|[[i1 s1] [g c]]]; [|inversion E; subst; cbn; auto]. clear K1 E1.
  apply bind_inv in E as (c2 & E2 & E).
  assert (K0 : max_ok (nninf (n := F), (-1)%Z)) by (left; reflexivity).
  pose proof (lowpass_round_part max_ok (fun '((_, c) : Arr F * ParallelCut F) => clear_parallel (lm := lm) c) _ _ _ _ _ _ K0 (fun i s s' => stop_max o x i s s')
    (fun i s '((g, c) as r) _ Es => stop_clear o x i s g c H2 Es) E2) as K2.
  destruct c2 as [[i2 [fm km]]|[[i2 [fm km]] [g c]]]; [|inversion E; subst; cbn; auto]. clear E2.
  apply bind_inv in E as (c3 & E3 & E).
  pose proof (lowpass_round_part (fun _ => True) (fun '((_, c) : Arr F * ParallelCut F) => clear_parallel (lm := lm) c) _ _ _ _ _ _ I (fun _ _ _ _ _ => I)
    (fun i s '((g, c) as r) _ Es => trans_clear o x i s g c Es) E3) as K3.
  destruct c3 as [[i3 []]|[[i3 s3] [g c]]]; [|inversion E; subst; cbn; auto]. clear K3 E3.
  apply bind_inv in E as (x0 & _ & E). destruct (nltb (n := F) x0 (n0 (N := F))) eqn:B.
  - apply bind_inv in E as (g & _ & E). inversion E; subst. cbn [lw_lp lw_up lw_set]. repeat split. apply opp_clear. exact B.
  - inversion E; subst. cbn. auto.
Qed.
Lemma lowpass_clear : optim_only (low_ok (lm := lm)) (clear_parallel (lm := lm)) (lowpass_assess (N := F)).
Proof.
  intros o x ga o' ga' g c sh [H1 H2] E. unfold lowpass_assess in E. cbv zeta in E. apply bind_inv in E as ([o1 r] & Ef & E).
  apply low_feas_clear in Ef as (L1 & L2 & K); [|exact H1|exact H2]. cbn [lw_lp lw_up] in L1, L2.
  destruct r as [[g1 c1]|].
  - inversion E; subst. unfold low_ok. rewrite L1, L2. auto.
  - apply bind_inv in E as (row & Er & E). inversion E; subst. unfold low_ok. rewrite L1, L2. split; [|discriminate]. split; [exact H1|].
    destruct K as [K|K]; [|exact K]. exfalso. unfold rdz in Er. cbn [snd] in K. destruct (lw_kmax o' <? 0)%Z eqn:Z0; [discriminate Er|]. apply Z.ltb_ge in Z0. lia.
Qed.
End O.
