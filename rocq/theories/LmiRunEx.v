(** The quadrant x_0 < 0, x_1 < 0 as a linear matrix inequality, and the run of the
    feasibility driver on it in binary64. *)
From Coq Require Import ZArith Reals Lra Lia Bool List Arith.
From Flocq Require Import Core IEEE754.BinarySingleNaN.
From Verif Require Import Num Res Arr CuttingPlane EllCalc Ell EllRun Spec RealLin FloatLemmas AccSpec StepAccSpec StepRunSpec StepRun StepEx StepRunEx Ldlt LdltSpec LdltProofs LdltFloat LdltAccSpec Lmi LmiSpec LmiProofs LmiFloat LmiAccSpec LmiAccEx LmiAccRun Replay RunSpec.
Import ListNotations.
Local Open Scope R_scope.

(** 0 - x_0 diag(1,0) - x_1 diag(0,1) *)
Definition q_f : list (Arr F) := [fmat 2 [1; 0; 0; 0]%Z; fmat 2 [0; 0; 0; 1]%Z].
Definition q_b : Arr F := fmat 2 [0; 0; 0; 0]%Z.
Definition q_o : LMI F := lmi_new (N := F) q_f q_b.
Lemma q_fits : lmi_fits 2 2 (fun _ => 5) 5 q_o.
Proof.
  assert (B2 : 512 <= bpow radix2 400) by (apply (bpow_le radix2 9 400); lia).
  assert (B1 : bpow radix2 (-400) <= 1) by (apply (bpow_le radix2 (-400) 0); lia).
  constructor.
  - apply lmi_new_ok; [now apply fmat_square|]. repeat constructor; now apply fmat_square.
  - cbn [q_o lmi_new lmi_f q_f length]. split; [lia|]. split; [discriminate|]. split; [lia|discriminate].
  - split; [|change (lmi_f q_o) with q_f; unfold q_f; apply Forall_cons; [|apply Forall_cons; [|constructor]]];
      (unfold all_finite; cbn [adata q_o lmi_new lmi_b q_b fmat map]; repeat apply Forall_cons; try (apply fofZ_f; lia); constructor).
  - split; [|change (lmi_f q_o) with q_f; unfold q_f; apply Forall_cons; [|apply Forall_cons; [|constructor]]]; intros i j Hi Hj;
      (destruct i as [|[|]]; [| |lia]); (destruct j as [|[|]]; [| |lia]); reflexivity.
  - intros q Hq. lra.
  - lra.
  - intros i j Hi Hj. change (lmi_b q_o) with (fmat 2 [0; 0; 0; 0]%Z). cbn [q_o lmi_new lmi_b lmi_f q_f q_b Rsum nth]. rewrite !fentry_fmat.
    (destruct i as [|[|]]; [| |lia]); (destruct j as [|[|]]; [| |lia]); cbn [Nat.mul Nat.add map nth]; rewrite !fofZ_v by lia; rewrite <- ?abs_IZR; cbn [Z.abs]; lra.
Qed.
Definition like (c d : Arr F * SingleCut F) : Prop :=
  map (@B2SF fprec femax) (adata (fst c)) = map (@B2SF fprec femax) (adata (fst d)) /\ arows (fst c) = arows (fst d) /\ acols (fst c) = acols (fst d) /\
  B2SF (sc_beta (snd c) : f64) = B2SF (sc_beta (snd d) : f64).
Lemma like_eq c d : like c d -> c = d.
Proof.
  destruct c as [[l a b] [x]], d as [[l' a' b'] [x']]. unfold like. cbn [fst snd adata arows acols sc_beta]. intros (H1 & -> & -> & H4). apply B2SF_inj in H4. subst x'.
  assert (E : l = l'). { revert l' H1. induction l as [|u l IH]; intros [|v l'] H; try discriminate; auto. cbn in H. injection H as Hu Hl. apply B2SF_inj in Hu. subst v. f_equal. auto. }
  now subst l'.
Qed.
Definition piv2 (c : nat) (o : LMI F) : Prop := c = 1%nat /\ is_finite (pivot 2 (lmi_mgr o) 0) = true \/ c = 2%nat /\ is_finite (pivot 2 (lmi_mgr o) 0) = true /\ is_finite (pivot 2 (lmi_mgr o) 1) = true.
Lemma piv2_ok c o : piv2 c o -> pivots_ok 2 c o.
Proof. intros [[-> A]|(-> & A & B)] i Hi; [destruct i as [|]; auto; lia|destruct i as [|[|]]; auto; lia]. Qed.
Lemma lq_run : match lmi_assess (N := F) q_o (e_xc qe) with
  | Ok (o1, Some cut) => like cut (snd c1) /\ piv2 (snd (l_pos (lmi_mgr o1))) o1 /\
      match apply_cut (N := F) single_cut Bias qe (snd c1) with
      | Ok (e1, _) => forallb (between (-5) 5) (adata (e_xc e1)) = true /\
          match lmi_assess (N := F) o1 (e_xc e1) with
          | Ok (o2, Some cut) => like cut (snd (c2 e1)) /\ piv2 (snd (l_pos (lmi_mgr o2))) o2 /\
              match apply_cut (N := F) single_cut Bias e1 (snd (c2 e1)) with
              | Ok (e2, _) => forallb (between (-5) 5) (adata (e_xc e2)) = true /\
                  match lmi_assess (N := F) o2 (e_xc e2) with Ok (o3, None) => piv2 2 o3 | _ => False end
              | _ => False end
          | _ => False end
      | _ => False end
  | _ => False end.
Proof. vm_compute. repeat split; auto. Qed.
Lemma lq_ends : match cutting_plane_feas (lmi_oracle (N := F)) (ell_space single_cut) (qopt 9) q_o qe with Ok (_, _, (Some _, k)) => Nat.eqb k 2 | _ => false end = true.
Proof. vm_compute. reflexivity. Qed.
Lemma box_of (x : Arr F) : forallb (between (-5) 5) (adata x) = true -> in_box 2 (fun _ => 5) (fcoords x).
Proof.
  intros H q _. unfold fcoords. destruct (Nat.lt_ge_cases q (length (adata x))) as [L|L].
  - pose proof (proj1 (forallb_forall _ _) H _ (nth_In _ (n0 (N := F)) L)) as HV. destruct (between_val (-5) 5 _ ltac:(lia) ltac:(lia) HV) as [_ HV']. apply Rabs_le. lra.
  - rewrite nth_overflow by exact L. change (B2R (n0 (N := F) : f64)) with (B2R (fofZ 0)). rewrite int_val by lia. rewrite Rabs_R0. lra.
Qed.
Lemma lq_calm l o1 e1 : asked single_cut (tolerance (qopt 9)) (lmi_oracle (N := F)) q_o qe l o1 e1 -> (length l <= max_iters (qopt 9))%nat ->
  tame_run 2 (/ 1000000) 4 qe l /\ calm 2 2 (fun _ => 5) (lmi_oracle (N := F)) o1 e1.
Proof.
  destruct q_facts as (ea & eb & A1 & A2 & _ & _ & _ & _ & R0 & R1 & R2). intros A _. pose proof lq_run as K.
  destruct (lmi_assess (N := F) q_o (e_xc qe)) as [[oa [ca|]]|] eqn:E1; try (destruct K; fail). destruct K as (K1 & K2 & K). apply like_eq in K1. subst ca. rewrite A1 in K. destruct K as (K3 & K).
  destruct (lmi_assess (N := F) oa (e_xc ea)) as [[ob [cb|]]|] eqn:E2; try (destruct K; fail). destruct K as (K4 & K5 & K). apply like_eq in K4. subst cb. rewrite A2 in K. destruct K as (K6 & K).
  destruct (lmi_assess (N := F) ob (e_xc eb)) as [[oc [cc|]]|] eqn:E3; try (destruct K; fail).
  assert (C0 : calm 2 2 (fun _ => 5) (lmi_oracle (N := F)) q_o qe).
  { split; [apply box_of; reflexivity|]. intros o2 c E. change (lmi_assess (N := F) q_o (e_xc qe) = Ok (o2, c)) in E. rewrite E1 in E. injection E as <- <-. apply piv2_ok. exact K2. }
  assert (C1 : calm 2 2 (fun _ => 5) (lmi_oracle (N := F)) oa ea).
  { split; [apply box_of; exact K3|]. intros o2 c E. change (lmi_assess (N := F) oa (e_xc ea) = Ok (o2, c)) in E. rewrite E2 in E. injection E as <- <-. apply piv2_ok. exact K5. }
  assert (C2 : calm 2 2 (fun _ => 5) (lmi_oracle (N := F)) ob eb).
  { split; [apply box_of; exact K6|]. intros o2 c E. change (lmi_assess (N := F) ob (e_xc eb) = Ok (o2, c)) in E. rewrite E3 in E. injection E as <- <-. apply piv2_ok. exact K. }
  inversion A as [|? ? oa' cut ea' st rest ? ? P1 P2 P3 P4]; subst; [split; auto|].
  change (lmi_assess (N := F) q_o (e_xc qe) = Ok (oa', Some cut)) in P1. rewrite E1 in P1. assert (oa' = oa /\ cut = snd c1) as [-> ->] by (split; congruence). clear P1.
  rewrite A1 in P2. assert (ea' = ea) as -> by congruence.
  inversion P4 as [|? ? ob' cut eb' st' rest2 ? ? Q1 Q2 Q3 Q4]; subst; [split; auto|].
  change (lmi_assess (N := F) oa (e_xc ea) = Ok (ob', Some cut)) in Q1. rewrite E2 in Q1. assert (ob' = ob /\ cut = snd (c2 ea)) as [-> ->] by (split; congruence). clear Q1.
  rewrite A2 in Q2. assert (eb' = eb) as -> by congruence.
  inversion Q4 as [|? ? ox cut ex st'' rest3 ? ? S1 S2 S3 S4]; subst; [split; auto|]. change (lmi_assess (N := F) ob (e_xc eb) = Ok (ox, Some cut)) in S1. rewrite E3 in S1. discriminate.
Qed.
Lemma zc_half x : ball 2 zc (1 / 2) x -> in_box 2 (fun _ => 5) x /\ psd 2 (shift (- lmi_tol 2 2 5) (fpencil 2 2 q_o x)) /\ fpts 2 qe 1 x.
Proof.
  intros H. destruct (zc_ball x) as [_ HP]. { unfold ball in *. lra. }
  assert (X : forall i, (i < 2)%nat -> -3/2 <= x i <= -1/2).
  { unfold ball, dot in H. cbn [Rsum] in H. unfold zc in H. pose proof (Rle_0_sqr (x 0%nat - -1)) as Q0. pose proof (Rle_0_sqr (x 1%nat - -1)) as Q1. unfold Rsqr in Q0, Q1.
    intros i Hi. destruct i as [|[|]]; [| |lia]; split; apply Rnot_lt_le; intros C; nra. }
  split; [|split; [|exact HP]].
  - intros q Hq. specialize (X q Hq). apply Rabs_le. lra.
  - assert (T : lmi_tol 2 2 5 <= 1 / 100). { unfold lmi_tol. cbn [INR]. change (bpow radix2 (-53)) with (/ IZR (2 ^ 53)). change (IZR (2 ^ 53)) with 9007199254740992. lra. }
    intros v. pose proof (X 0%nat ltac:(lia)) as X0. pose proof (X 1%nat ltac:(lia)) as X1. set (t := lmi_tol 2 2 5) in *. clearbody t. unfold quad, mulmv, dot, shift, fpencil. cbn [Rsum Nat.eqb].
    change (lmi_b q_o) with (fmat 2 [0; 0; 0; 0]%Z). cbn [q_o lmi_new lmi_b lmi_f q_f q_b nth]. rewrite !fentry_fmat. cbn [Nat.mul Nat.add map nth]. rewrite !fofZ_v by lia.
    set (a := x 0%nat) in *. set (b := x 1%nat) in *. set (p := v 0%nat). set (q := v 1%nat). clearbody a b p q. assert (0 <= (- a - t) * (p * p)) by (apply Rmult_le_pos; [lra|apply Rle_0_sqr]). assert (0 <= (- b - t) * (q * q)) by (apply Rmult_le_pos; [lra|apply Rle_0_sqr]). lra.
Qed.
Lemma lmi_run_case : lmi_fits 2 2 (fun _ => 5) 5 q_o /\
  (forall l o1 e1, asked single_cut (tolerance (qopt 9)) (lmi_oracle (N := F)) q_o qe l o1 e1 -> (length l <= max_iters (qopt 9))%nat ->
    tame_run 2 (/ 1000000) 4 qe l /\ calm 2 2 (fun _ => 5) (lmi_oracle (N := F)) o1 e1) /\
  (exists o' e' x, cutting_plane_feas (lmi_oracle (N := F)) (ell_space single_cut) (qopt 9) q_o qe = Ok (o', e', (Some x, 2%nat))) /\
  (forall x, ball 2 zc (1 / 2) x -> in_box 2 (fun _ => 5) x /\ psd 2 (shift (- lmi_tol 2 2 5) (fpencil 2 2 q_o x)) /\ fpts 2 qe 1 x).
Proof.
  split; [exact q_fits|]. split; [exact lq_calm|]. split; [|exact zc_half].
  pose proof lq_ends as E. destruct (cutting_plane_feas (lmi_oracle (N := F)) _ (qopt 9) q_o qe) as [[[o' e'] [[x|] k]]|]; try discriminate. apply Nat.eqb_eq in E. subst k. eauto.
Qed.
