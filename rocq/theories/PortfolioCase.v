(** A two-asset problem meeting the hypotheses of C87. *)
From Coq Require Import ZArith Reals List Bool Arith Lia Lra.
From Verif Require Import Num Res Arr ArrLemmas CuttingPlane EllCalc Ell EllRun Spec RealLin EllSpec EllReal EllCuts EllMore EllWitness RunSpec RunProofs Portfolio PortfolioSpec PortfolioProofs PortfolioWitness.
Import ListNotations.
Local Open Scope R_scope.

(** expected returns (1, 0), risk x^2 + y^2 <= 1, budget 10 *)
Definition two : Portfolio RNum := mkPortfolio (N := RNum) (mkArr (N := RNum) [1; 0] 2 0) (mkArr (N := RNum) [1; 0; 0; 1] 2 2) 1 10.
Lemma two_assets : assets 2 two.
Proof. repeat split; cbn; lia. Qed.
Lemma two_psd : psd 2 (riskm 2 two).
Proof. intros x. unfold quad, dot, mulmv, riskm, two. cbn. nra. Qed.
Lemma two_stuck : admissible 2 two (fun _ => 0) /\ 0 <= shortfall 2 two (fun _ => 0) /\
  no_worse 2 two (fun i => match i with O => 1 | _ => 0 end) (-1).
Proof. unfold no_worse, admissible, total, shortfall, quad, dot, mulmv, riskm, two. cbn. lra. Qed.
Lemma two_exact (opt : Options RNum) : (0 < max_iters opt)%nat -> 0 < tolerance opt ->
  (exists e', cutting_plane_optim (pf_assess two) (ell_space (N := RNum) single) opt tt disc 0 = Ok (tt, e', 0, (None, 0%nat))) /\
  exists y, pts 2 disc y /\ admissible 2 two y /\ shortfall 2 two y = -1.
Proof.
  intros H1 H2. destruct two_stuck as (A & B & [C D]). split.
  - assert (K1 : vecn 2 (e_xc disc)) by (split; reflexivity).
    assert (K2 : admissible 2 two (centre disc)).
    { destruct A as [A1 A2]. unfold admissible, total, quad, dot, mulmv, riskm, two, centre, coords in *. cbn in *. lra. }
    assert (K3 : 0 <= shortfall 2 two (centre disc)) by (unfold shortfall, dot, two, centre, coords; cbn; lra).
    destruct (stuck 2 two opt disc 0 two_assets (proj1 disc_proper) K1 K2 K3 H1 H2) as (e' & E & _). eauto.
  - exists (fun i => match i with O => 1 | _ => 0 end). split; [apply disc_pts; cbv beta iota; lra|]. split; auto.
    unfold shortfall, dot, two, coords. cbn. lra.
Qed.
