(** The portfolio example: when the run stops, and its own main. *)
From Coq Require Import ZArith Reals List Bool Arith Lia Lra.
From Flocq Require Import Core IEEE754.BinarySingleNaN.
From Verif Require Import Num Res Arr ArrLemmas CuttingPlane EllCalc Ell EllRun Spec RealLin EllSpec EllReal EllCuts EllMore RunSpec RunProofs Replay Portfolio PortfolioSpec PortfolioProofs.
Import ListNotations.

(** examples/portfolio_optimization.rs 75 *)
Definition main_returns : Arr F := a_from (N := F) [flit 8 (-2); flit 12 (-2); flit 10 (-2); flit 6 (-2)].
(** examples/portfolio_optimization.rs 12-21, 76-78 and 81 *)
Definition main_portfolio : res (Portfolio F) :=
  m <- a_eye (N := F) 4 ;; Ok (mkPortfolio (N := F) main_returns m (flit 2 (-2)) (fofZ 1)).
(** examples/portfolio_optimization.rs 80 and 82-85: [Options::new(1000, 1e-8)], gamma = infinity *)
Definition main_run (p : Portfolio F) := 
  e <- ell_at 1 (a_new (N := F) 4) ;; cutting_plane_optim (N := F) (pf_assess p) space (mkOptions (N := F) 1000 (flit 1 (-8))) tt e inf.
(** 0.762 times the vector of expected returns *)
Definition better_mix : Arr F := a_from (N := F) [flit 6096 (-5); flit 9144 (-5); flit 762 (-4); flit 4572 (-5)].

Lemma main_stops : match main_portfolio with
  | Ok p => match main_run p with
    | Ok (_, _, gamma, (Some x, k)) => k = 5%nat /\ nltb (n := F) (flit (-2226) (-5)) gamma = true /\
        match pf_assess (N := F) p tt better_mix gamma with
        | Ok (_, gamma2, (_, true)) => @nltb F gamma2 (flit (-262) (-4)) = true
        | _ => False end
    | _ => False end
  | Panic => False end.
Proof. vm_compute. auto. Qed.

Lemma main_refuted : exists p : Portfolio F, main_portfolio = Ok p /\ exists y, match main_run p with
    | Ok (_, _, gamma, (Some x, k)) => (k < 1000)%nat /\ @nltb F (flit (-2226) (-5)) gamma = true /\
        match pf_assess (N := F) p tt y gamma with
        | Ok (_, gamma2, (_, true)) => @nltb F gamma2 (flit (-262) (-4)) = true
        | _ => False end
    | _ => False end.
Proof.
  pose proof main_stops as H. destruct main_portfolio as [p|]; [|contradiction]. exists p. split; auto. exists better_mix.
  destruct (main_run p) as [[[[o s] gamma] [[x|] k]]|]; auto. destruct H as (-> & H). split; auto. apply Nat.ltb_lt. vm_compute. reflexivity.
Qed.

Local Open Scope R_scope.
Lemma stuck n (p : Portfolio RNum) (opt : Options RNum) (e : Ell RNum) (gamma : R) : assets n p -> valid n e -> vecn n (e_xc e) ->
  admissible n p (centre e) -> gamma <= shortfall n p (centre e) -> (0 < max_iters opt)%nat -> 0 < tolerance opt ->
  exists e', cutting_plane_optim (pf_assess p) (ell_space (N := RNum) single) opt tt e gamma = Ok (tt, e', gamma, (None, 0%nat)) /\ e_tsq e' = 0.
Proof.
  intros Hp V Vx Ha Hg Hm Ht. destruct (assess_R n p Hp tt (e_xc e) gamma Vx) as (gamma' & g & beta & sh & E & Vg & _ & _ & _ & A).
  destruct (A Ha Hg) as (-> & -> & -> & Z). clear A.
  assert (W : width2 n e g = 0).
  { unfold width2, quad, dot. rewrite Rsum_zero; [ring|]. intros i Hi. rewrite Z by auto. ring. }
  set (str := cut_core (N := RNum) single Bias e (SC 0)).
  destruct (str (width2 n e g)) as [st [[rho sigma] delta]] eqn:Es.
  destruct (core_run n e g str _ _ _ _ V Vg Es) as (e' & Er & H1 & H2).
  assert (Tq : e_tsq e' = 0).
  { rewrite <- W. destruct st; try (now rewrite H1 by discriminate). specialize (H2 eq_refl). apply H2. }
  exists e'. split; auto. unfold cutting_plane_optim, loop_range. destruct (max_iters opt) as [|m] eqn:Em; [lia|]. cbn [Nat.sub loop_up].
  cbn [sp_xc ell_space]. rewrite E. cbn [bind]. cbn [sp_update_bias_cut ell_space]. unfold ell_update_bias. cbn [fst snd].
  change (ell_update_core e g (fun tsq => call_bias single (e_helper e) (SC 0) tsq)) with (ell_update_core (N := RNum) e g str).
  rewrite Er. cbn [bind sp_tsq ell_space]. rewrite Tq. cbn [nltb RNum]. rewrite Rlt_bool_true by auto. rewrite orb_true_r. reflexivity.
Qed.
