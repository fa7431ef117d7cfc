(** Calls of the discrete profit oracle in binary64 (C126). *)
From Coq Require Import ZArith Reals Lra Lia Bool Psatz List Arith.
From Flocq Require Import Core IEEE754.BinarySingleNaN.
From Verif Require Import Num Res Arr Examples ArrLemmas CuttingPlane Spec RealLin FloatLemmas AccSpec StepAccSpec StepEx StepRunEx Profit ProfitSpec ProfAccSpec ProfAcc FexpAcc LowAccEx Replay RunSpec StepRunSpec StepRun ProfAccRun ProfAccEx ProfQAccSpec.
Import ListNotations.
Local Open Scope R_scope.

(** the market of C114 and no amounts so far *)
Notation oQ := (mkProfitQ pP (vec2 (n0 (N := F)) (n0 (N := F)))).
Notation yQ := (ints [-1; 1]%Z : Arr F).
(** the call answers with this flag, a level and a point in these ranges *)
Definition q_is (r : res (ProfitQ F * F * ((Arr F * SingleCut F) * bool * Arr F * bool))) (sh more : bool) (a b c d e f : Z) : bool :=
  match r with Ok (_, ga, (_, s, x, m)) => Bool.eqb s sh && Bool.eqb m more && between a b ga && between c d (nth 0 (adata x) (n0 (N := F))) && between e f (nth 1 (adata x) (n0 (N := F))) | _ => false end.
(** a first try and, after it, a retry *)
Definition q_two (o : ProfitQ F) (y : Arr F) (ga : F) : bool :=
  match profit_q_assess o y ga false with
  | Ok (o1, ga1, a1) => q_is (Ok (o1, ga1, a1)) true true 2 3 0 0 1 2 && q_is (profit_q_assess o1 y (fofZ 3 : F) true) false false 3 3 0 0 1 2
  | _ => false end.
Lemma yQ_square : in_square 4 yQ.
Proof. split; [split; reflexivity|]. split; [repeat constructor|]. intros [|[|i]] Hi; [| |lia]; unfold fcoords; cbn [ints a_from adata map nth]; rewrite int_val by lia; apply Rabs_le; lra. Qed.
Lemma oQ_whole : log_whole (/ 1000000) (4 + 1) (pq_yd oQ).
Proof.
  assert (V : forall i, (i < 2)%nat -> fcoords (pq_yd oQ) i = 0). { intros [|[|i]] Hi; [| |lia]; exact (int_val 0 ltac:(lia)). }
  split. - split; [split; reflexivity|]. split; [repeat constructor|]. intros i Hi. rewrite (V i Hi), Rabs_R0. lra.
  - intros i Hi. exists 1%Z. split; [lia|]. rewrite (V i Hi), Rpower.ln_1, Rminus_0_r, Rabs_R0. lra.
Qed.
Lemma q_calls : q_two oQ yQ (fofZ 1 : F) = true /\ q_is (profit_q_assess oQ yQ (fofZ 3 : F) false) false true 3 3 (-1) (-1) 1 1 = true.
Proof. split; vm_compute; reflexivity. Qed.
Lemma q_case : exp_near lm0 5 (/ 1000000) /\ ln_near lm0 8 (/ 1000000) /\ profit_ok (pq_omega oQ) /\ prof_fits (pq_omega oQ) (4 + 1) 5 8 /\ log_whole (/ 1000000) (4 + 1) (pq_yd oQ) /\ in_square 4 yQ /\ level_fits 5 (fofZ 1) /\ level_fits 5 (fofZ 3) /\
  q_two oQ yQ (fofZ 1 : F) = true /\ q_is (profit_q_assess oQ yQ (fofZ 3 : F) false) false true 3 3 (-1) (-1) 1 1 = true.
Proof.
  replace (4 + 1) with 5 by ring. refine (conj lm0_exp (conj lm0_ln (conj pP_ok (conj pP_fits (conj _ (conj yQ_square (conj (level_small 1 ltac:(lia)) (conj (level_small 3 ltac:(lia)) q_calls)))))))).
  replace 5 with (4 + 1) by ring. exact oQ_whole.
Qed.
