(** Properties C30-C33, C68, C69: EllStable (ell_stable.rs). *)
From Coq Require Import Reals List Arith Lia Lra ZArith.
From Flocq Require Import Core IEEE754.BinarySingleNaN.
From Verif Require Import Num Res Arr CuttingPlane EllCalc Ell EllStable EllRun ArrLemmas EllLemmas StableLemmas Spec EllSpec EllReal EllCuts EllMore EllWitness StableSpec StableReal StableMore StableFloat.
Import ListNotations.
Open Scope R_scope.

(** ** C30 *)
Theorem C30_width : forall C (ct : CutType RNum C) m n e g c, svalid n e -> vecn n g ->
  exists e' st, apply_stable ct m e (g, c) = Ok (e', st) /\ 0 <= s_tsq e' /\
    (forall x, spts n e x -> along n (coords g) x (scentre e) * along n (coords g) x (scentre e) <= s_tsq e') /\
    (forall sg, sg * sg = 1 -> exists x, spts n e x /\ along n (coords g) x (scentre e) = sg * sqrt (s_tsq e')).
Proof. exact (fun C => @stable_width C). Qed.
Print Assumptions C30_width.
Theorem C30_size : forall m n e g beta, (2 <= n)%nat -> svalid n e -> vecn n g -> (exists i, (i < n)%nat /\ coords g i <> 0) ->
  exists e' st, apply_stable (N := RNum) single m e (g, SC beta) = Ok (e', st) /\ 0 < s_tsq e' /\
    (in_single m n (sqrt (s_tsq e')) beta ->
      svalid n e' /\
      (st = Success -> exists rho sigma delta,
         calc_of single m (calc_new (N := RNum) n) (SC beta) (s_tsq e') = (Success, (rho, sigma, delta)) /\
         0 < sigma < 1 /\ s_kappa e' = s_kappa e * delta /\ Rprod n (fac_d n e') = (1 - sigma) * Rprod n (fac_d n e))).
Proof. exact stable_single. Qed.
Print Assumptions C30_size.
Theorem C30_shape_refuted : exists e E g e' E' x,
  stable_new_with_scalar (N := RNum) 1 (vR [0; 0]) = Ok e /\ ell_new_with_scalar (N := RNum) 1 (vR [0; 0]) = Ok E /\
  apply_stable (N := RNum) single Central e (g, SC 0) = Ok (e', Success) /\
  apply_cut (N := RNum) single Central E (g, SC 0) = Ok (E', Success) /\
  pts 2 E' x /\ ~ spts 2 e' x.
Proof. exact stable_shape_differs. Qed.
Print Assumptions C30_shape_refuted.
Theorem C30_never_rotates : forall C (ct : CutType RNum C) n (val : R) (xc : Arr RNum) cuts, (0 < n)%nat -> length (adata xc) = n ->
  Forall (fun mc => vecn n (fst (snd mc))) cuts ->
  exists e e' log, stable_new_with_scalar (N := RNum) val xc = Ok e /\ run_stable ct e cuts = Ok (e', log) /\
    forall i j, (i < j)%nat -> (j < n)%nat -> fac_u n e' i j = 0.
Proof. exact (fun C => @never_rotates C). Qed.
Print Assumptions C30_never_rotates.

(** a factor that is not diagonal, and a full gradient *)
Example C30_case : svalid 2 skew /\ fac_u 2 skew 0 1 = 1 /\ vecn 2 g23 /\ (exists i, (i < 2)%nat /\ coords g23 i <> 0) /\
  in_single Bias 2 1 (1 / 2).
Proof.
  split; [exact skew_valid|]. split; [reflexivity|]. split; [split; reflexivity|]. split.
  - exists 0%nat. split; [lia|]. unfold coords. simpl. lra.
  - unfold in_single. simpl INR. lra.
Qed.

(** ** C31 *)
Theorem C31_first_cut_scalar : forall C (ct : CutType RNum C) m n (val : R) (xc g : Arr RNum) c, (0 < n)%nat -> vecn n xc -> vecn n g ->
  exists e E e' E' st, stable_new_with_scalar (N := RNum) val xc = Ok e /\ ell_new_with_scalar (N := RNum) val xc = Ok E /\
    apply_stable ct m e (g, c) = Ok (e', st) /\ apply_cut ct m E (g, c) = Ok (E', st) /\
    s_tsq e' = e_tsq E' /\ s_xc e' = e_xc E' /\ s_kappa e' = e_kappa E'.
Proof. exact (fun C => @first_cut_scalar C). Qed.
Print Assumptions C31_first_cut_scalar.
Theorem C31_first_cut_new : forall C (ct : CutType RNum C) m n (val xc g : Arr RNum) c, (0 < n)%nat -> vecn n val -> vecn n xc -> vecn n g ->
  exists e E e' E' st, stable_new (N := RNum) val xc = Ok e /\ ell_new (N := RNum) val xc = Ok E /\
    apply_stable ct m e (g, c) = Ok (e', st) /\ apply_cut ct m E (g, c) = Ok (E', st) /\
    s_tsq e' = e_tsq E' /\ s_xc e' = e_xc E' /\ s_kappa e' = e_kappa E'.
Proof. exact (fun C => @first_cut_new C). Qed.
Print Assumptions C31_first_cut_new.
Theorem C31_axis_cuts : forall n val (xc : Arr RNum) cuts, (2 <= n)%nat -> 0 < val -> vecn n xc ->
  Forall (fun mc => fst mc = Central /\ axis n (fst (snd mc))) cuts ->
  exists e0 E0 e E log, stable_new_with_scalar (N := RNum) val xc = Ok e0 /\ ell_new_with_scalar (N := RNum) val xc = Ok E0 /\
    run_stable (N := RNum) single e0 cuts = Ok (e, log) /\ run_cuts (N := RNum) single E0 cuts = Ok (E, log).
Proof. exact axis_run_scalar. Qed.
Print Assumptions C31_axis_cuts.
Theorem C31_keeps_points_refuted : exists e e' g x, stable_new_with_scalar (N := RNum) 1 (vR [0; 0]) = Ok e /\
  apply_stable (N := RNum) single Central e (g, SC 0) = Ok (e', Success) /\
  spts 2 e x /\ along 2 (coords g) x (scentre e) <= 0 /\ ~ spts 2 e' x.
Proof. exact stable_loses_point. Qed.
Print Assumptions C31_keeps_points_refuted.
Theorem C31_centre_refuted : exists e E g e' E', (forall x, spts 2 e x <-> pts 2 E x) /\ svalid 2 e /\ proper 2 E /\
  apply_stable (N := RNum) single Central e (g, SC 0) = Ok (e', Success) /\
  apply_cut (N := RNum) single Central E (g, SC 0) = Ok (E', Success) /\
  s_tsq e' = e_tsq E' /\ scentre e' 0%nat = 0 /\ centre E' 0%nat = - sqrt 5 / 15.
Proof. exact backsubst_wrong. Qed.
Print Assumptions C31_centre_refuted.

Example C31_case : vecn 2 (vR [5; 7]) /\ Forall (fun mc => fst mc = Central /\ axis 2 (fst (snd mc)))
  [(Central, (vR [1; 0], SC 0)); (Central, (vR [0; -3], SC 0))].
Proof.
  split; [split; reflexivity|]. repeat constructor; simpl; try reflexivity.
  - exists 0%nat. unfold coords. simpl. split; [lia|]. split; [lra|]. intros [|[|i]] Hi Hne; try lia; reflexivity.
  - exists 1%nat. unfold coords. simpl. split; [lia|]. split; [lra|]. intros [|[|i]] Hi Hne; try lia; reflexivity.
Qed.

(** ** C32, for any arithmetic *)
Theorem C32_rejected_unchanged : forall (N : Num) C (ct : CutType N C) m n (e : EllStable N) g c e' st, stable_wf n e -> length (adata g) = n ->
  apply_stable ct m e (g, c) = Ok (e', st) -> st <> Success ->
  s_xc e' = s_xc e /\ s_kappa e' = s_kappa e /\ s_helper e' = s_helper e /\
  (forall i j, (i <= j)%nat -> (j < n)%nat -> sget n e' i j = sget n e i j) /\
  forall C2 (ct2 : CutType N C2) m2 g2 c2, length (adata g2) = n -> apply_stable ct2 m2 e' (g2, c2) = apply_stable ct2 m2 e (g2, c2).
Proof. exact (fun N C => @stable_rejected N C). Qed.
Print Assumptions C32_rejected_unchanged.

(** a rejected cut that does overwrite the buffer: U = 1, gradient (2,3), offset 3
    beyond the half-width sqrt 5 *)
Example C32_case : stable_wf 2 skew /\ exists e', apply_stable (N := RNum) single Bias skew (g23, SC 3) = Ok (e', NoSoln) /\
  nth 2 (adata (s_mq e')) 0 <> nth 2 (adata (s_mq skew)) 0.
Proof. split; [exact (svalid_wf _ _ skew_valid)|exact skew_rejects]. Qed.

(** ** C33 *)
Theorem C33_diagonal : forall n kappa mq xc d, (0 < n)%nat -> vecn n xc -> is_diag n mq d -> (forall i, (i < n)%nat -> 0 < d i) ->
  forall x, spts n (stable_new_with_matrix (N := RNum) kappa mq xc) x <-> pts n (ell_new_with_matrix (N := RNum) kappa mq xc) x.
Proof. exact new_with_matrix_diag. Qed.
Print Assumptions C33_diagonal.
Theorem C33_matrix_refuted : exists kappa mq xc x, vecn 2 xc /\
  proper 2 (ell_new_with_matrix (N := RNum) kappa mq xc) /\
  spts 2 (stable_new_with_matrix (N := RNum) kappa mq xc) x /\ ~ pts 2 (ell_new_with_matrix (N := RNum) kappa mq xc) x.
Proof. exact new_with_matrix_nondiag. Qed.
Print Assumptions C33_matrix_refuted.

Example C33_case : is_diag 2 (mkArr (N := RNum) [2; 0; 0; 5] 2 2) (fun i => if (i =? 0)%nat then 2 else 5) /\ vecn 2 (vR [5; 7]).
Proof. split; [|split; reflexivity]. repeat split; auto. ij2; reflexivity. Qed.

(** ** C68, C69: executions in f64 *)
Theorem C68_feasible_missed_refuted : exists (ora : OracleFeas F0 (Arr F0) (SingleCut F0) unit) (x : Arr F0),
  (match of_assess ora tt x with Ok (_, None) => True | _ => False end) /\
  (match e <- stable_new_with_scalar (N := F0) (fofZ 1) (vF [0; 0]%Z) ;; cutting_plane_feas ora (stable_space single_cut) opts tt e with
   | Ok (_, _, (None, 1%nat)) => True | _ => False end) /\
  (match e <- ell_new_with_scalar (N := F0) (fofZ 1) (vF [0; 0]%Z) ;; cutting_plane_feas ora (ell_space single_cut) opts tt e with
   | Ok (_, _, (Some _, 2%nat)) => True | _ => False end).
Proof. exact stable_gives_up. Qed.
Print Assumptions C68_feasible_missed_refuted.
Theorem C69_quiet_cut_refuted : exists (kappa : F0) (quiet : Arr F0 * ParallelCut F0),
  match e <- stable_new_with_scalar (N := F0) kappa (a_new (N := F0) 4) ;; stable_update_bias parallel_cut e quiet with
  | Ok (e1, Success) =>
      forallb is_finite (adata (s_xc e1)) = true /\ is_nan (mget 4 (adata (s_mq e1)) 0 0) = true /\
      match stable_update_central parallel_cut e1 quiet with
      | Ok (e2, _) => forallb is_nan (adata (s_xc e2)) = true
      | Panic => False
      end
  | _ => False
  end.
Proof. exact quiet_poisons. Qed.
Print Assumptions C69_quiet_cut_refuted.
