(** The feasibility driver with the LMI oracles in binary64. *)
From Coq Require Import ZArith Reals Lra Lia List Arith.
From Flocq Require Import Core IEEE754.BinarySingleNaN.
From Verif Require Import Num Res Arr CuttingPlane EllCalc Ell EllRun Spec RealLin Det AccSpec StepAccSpec StepRunSpec StepRun RunSpec Ldlt LdltSpec Lmi LmiSpec LmiProofs LmiAccSpec LmiMain.
Import ListNotations.
Local Open Scope R_scope.

Section R.
Context (lm : Libm).
Notation F := (FNum lm).
Notation single := (single_cut (N := F)).
Context (n k : nat) (r : vec) (M s G : R) (ora : OracleFeas F (Arr F) (SingleCut F) (LMI F)).
Hypothesis same : forall o x, lmi_ok n o -> (a_len x <= length (lmi_f o))%nat -> of_assess ora o x = lmi_assess (N := F) o x.
Notation T := (lmi_tol n k M).
Notation calm := (calm n k r ora).
Lemma fpencil_same (o o1 : LMI F) y : lmi_f o1 = lmi_f o -> lmi_b o1 = lmi_b o -> fpencil n k o1 y = fpencil n k o y.
Proof. intros A B. unfold fpencil. now rewrite A, B. Qed.
Lemma tame_point (e : Ell F) lam Lam X : tame k e lam Lam X -> in_box k r (fcoords (e_xc e)) -> point_ok k r (e_xc e).
Proof. intros T H. split; [apply T|]. split; [apply T|exact H]. Qed.
Lemma asked_fits tol o (e : Ell F) l o1 e1 : asked single tol ora o e l o1 e1 -> lmi_fits n k r M o -> tame_run k s G e l ->
  (forall l' o' e', asked single tol ora o e l' o' e' -> (length l' <= length l)%nat -> calm o' e') ->
  lmi_fits n k r M o1 /\ lmi_f o1 = lmi_f o /\ lmi_b o1 = lmi_b o /\
  forall z, in_box k r z -> psd n (shift (- T) (fpencil n k o z)) -> satisfies k z e l.
Proof.
  induction 1 as [o e|o e oa [g b] ea st rest o2 e2 A B C D IH]; intros FT TR HC.
  - split; auto. split; auto. split; auto. intros; exact I.
  - cbn [tame_run] in TR. destruct TR as ((lam & Lam & X & T1 & _) & Gok & _ & _ & e' & E' & _ & _ & TR). rewrite B in E'. inversion E'; subst e' st.
    destruct (HC [] o e (asked_none _ _ _ _ _) ltac:(cbn; lia)) as [Bx Pv]. pose proof (tame_point _ _ _ _ T1 Bx) as PT.
    pose proof (Pv _ _ A) as P1. cbn [rows_read] in P1.
    rewrite same in A; [|apply FT|unfold a_len; rewrite (proj1 PT); apply (fit_dim _ _ _ _ _ FT)].
    destruct (lmi_fits_next lm n k r M o _ FT PT) as (o' & c & E & FT' & Hf & Hb). rewrite A in E. inversion E; subst o' c.
    destruct IH as (I1 & I2 & I3 & I4); auto.
    { intros l' o' e' A' HL. apply (HC ((Bias, (g, b)) :: l') o' e'); [|cbn; lia]. econstructor; eauto. rewrite same; [exact A|apply FT|unfold a_len; rewrite (proj1 PT); apply (fit_dim _ _ _ _ _ FT)]. }
    split; auto. split; [congruence|]. split; [congruence|]. intros z Hz Hp. cbn [satisfies]. split.
    + apply Rlt_le. apply (lmi_cut_valid lm n k r M o _ oa g b z FT PT A P1); auto. apply Gok.
    + intros e' st E0. rewrite B in E0. inversion E0; subst. apply I4; auto. rewrite (fpencil_same o oa); auto.
Qed.
Theorem lmi_feas_run opt o (e : Ell F) o' e' ans it : lmi_fits n k r M o -> s <= 1 / 10 ->
  (forall l o1 e1, asked single (tolerance opt) ora o e l o1 e1 -> (length l <= max_iters opt)%nat -> tame_run k s G e l /\ calm o1 e1) ->
  cutting_plane_feas ora (ell_space single) opt o e = Ok (o', e', (ans, it)) ->
  (forall x, ans = Some x -> pd n (shift T (fpencil n k o (fcoords x)))) /\
  (ans <> None \/ it = max_iters opt -> forall z, in_box k r z -> psd n (shift (- T) (fpencil n k o z)) -> fpts k e 1 z -> fpts k e' (1 + excess s G it) z) /\
  (forall z rho, 0 < rho -> (forall x, ball k z rho x -> in_box k r x /\ psd n (shift (- T) (fpencil n k o x)) /\ fpts k e 1 x) ->
    (rho * rho) ^ k <= ((1 + excess s G it) ^ k * ((1 + s) ^ k * exp (- / (INR k + 1))) ^ it) * fvol2 k e).
Proof.
  intros FT Hs HC E. apply (feas_asked single (tolerance opt)) in E; [|reflexivity].
  assert (AF : forall l o1 e1, asked single (tolerance opt) ora o e l o1 e1 -> (length l <= max_iters opt)%nat -> lmi_fits n k r M o1 /\ lmi_f o1 = lmi_f o /\ lmi_b o1 = lmi_b o /\
    forall z, in_box k r z -> psd n (shift (- T) (fpencil n k o z)) -> satisfies k z e l).
  { intros l o1 e1 A HL. apply (asked_fits (tolerance opt) o e l o1 e1 A FT); [apply (HC _ _ _ A HL)|]. intros l' o2 e2 A' HL'. apply (HC l' o2 e2 A'). lia. }
  assert (KP : forall l o1 e1, asked single (tolerance opt) ora o e l o1 e1 -> (length l <= max_iters opt)%nat -> forall z, in_box k r z -> psd n (shift (- T) (fpencil n k o z)) -> fpts k e 1 z -> fpts k e1 (1 + excess s G (length l)) z).
  { intros l o1 e1 A HL z Hz Hq Hp. destruct (asked_run single _ _ _ _ _ _ _ A) as [log R]. destruct (AF _ _ _ A HL) as (_ & _ & _ & S).
    pose proof (run_keeps lm k s G l Hs e e1 log 0 z R (proj1 (HC _ _ _ A HL)) (S z Hz Hq) ltac:(lra)) as Q. rewrite Rmult_0_r, Rplus_0_l, Rplus_0_r in Q. apply Q. exact Hp. }
  assert (CP : forall l o1 e1, asked single (tolerance opt) ora o e l o1 e1 -> (length l <= max_iters opt)%nat -> forall z rho, 0 < rho -> (forall x, ball k z rho x -> in_box k r x /\ psd n (shift (- T) (fpencil n k o x)) /\ fpts k e 1 x) ->
    (rho * rho) ^ k <= ((1 + excess s G (length l)) ^ k * ((1 + s) ^ k * exp (- / (INR k + 1))) ^ length l) * fvol2 k e).
  { intros l o1 e1 A HL z rho Hr HB. destruct (asked_run single _ _ _ _ _ _ _ A) as [log R]. destruct (AF _ _ _ A HL) as (_ & _ & _ & S).
    apply (run_count lm k s G l e e1 log z rho Hs R (proj1 (HC _ _ _ A HL)) Hr). intros x Hx. destruct (HB x Hx) as (H1 & H2 & H3). split; auto. }
  inversion E; subst.
  - split; [|split; [intros _|]; [eapply KP|eapply CP]; eauto; lia]. intros x [= <-].
    match goal with A : asked _ _ _ _ _ ?l ?o1 _, Q : of_assess _ _ _ = _ |- _ => destruct (AF _ _ _ A ltac:(lia)) as (FT1 & Hf & Hb & _); destruct (HC _ _ _ A ltac:(lia)) as [TR [Bx Pv]];
      destruct (asked_run single _ _ _ _ _ _ _ A) as [log R]; destruct (run_last _ _ _ _ _ _ _ _ R TR) as (lam & Lam & X & TL); pose proof (tame_point _ _ _ _ TL Bx) as PT; pose proof (Pv _ _ Q) as P1;
      rewrite same in Q; [|apply FT1|unfold a_len; rewrite (proj1 PT); apply (fit_dim _ _ _ _ _ FT1)]; rewrite <- (fpencil_same o o1) by auto; exact (lmi_accepts lm n k r M o1 _ FT1 PT _ Q P1) end.
  - split; [discriminate|]. split; [intros [H'|H']; [congruence|lia]|]. eapply CP; eauto; lia.
  - split; [discriminate|]. match goal with H : length _ = max_iters _ |- _ => rewrite <- H end. split; [intros _|]; [eapply KP|eapply CP]; eauto; lia.
Qed.
End R.
