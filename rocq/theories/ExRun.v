(** Runs of the optimiser on the example oracles. *)
From Coq Require Import ZArith Reals List Bool Arith Lia Lra.
From Flocq Require Import Core.
From Verif Require Import Num Res Arr CuttingPlane Ell DriverSpec DriverProofs DriverBest Spec EllReal LmiSpec Examples ExSpec ExProofs.
Import ListNotations.
Open Scope nat_scope.

Section Any.
Context {N : Num} {S : Type}.
Variables (sp : SearchSpace N (Arr N) (SingleCut N) S) (opt : Options N).
Lemma bind_idx (xc : Arr N) {B} (k : N -> N -> res B) r :
  (x <- a_idx xc 0 ;; y <- a_idx xc 1 ;; k x y) = Ok r -> 2 <= length (adata xc).
Proof.
  unfold a_idx. destruct (adata xc) as [|a [|b l]]; cbn; try discriminate. lia.
Qed.
Lemma ex1_best s gamma o' s' gamma' x k :
  cutting_plane_optim ex1_assess sp opt tt s gamma = Ok (o', s', gamma', (Some x, k)) ->
  let a := nth 0 (adata x) n0 in let b := nth 1 (adata x) n0 in
  2 <= length (adata x) /\ gamma' = a +! b /\ none_positive [a +! b -! nZ 3; -! a +! b +! n1].
Proof.
  intros E. cbv zeta.
  refine (_ (optim_best ex1_assess sp opt (fun _ => True) (fun _ => True)
    (fun x => 2 <= length (adata x) /\ none_positive [nth 0 (adata x) n0 +! nth 1 (adata x) n0 -! nZ 3; -! nth 0 (adata x) n0 +! nth 1 (adata x) n0 +! n1])
    (fun x => nth 0 (adata x) n0 +! nth 1 (adata x) n0) _ tt s gamma o' s' gamma' _ k I I E)).
  - intros (_ & _ & H & H1 & H2). auto.
  - intros [] y g [] g' [gr c] sh _ _ K. split; auto. split; auto.
    pose proof (bind_idx _ _ _ K) as L. destruct (idx2 y L) as (u & v & Hu & Hv & Eu & Ev).
    destruct (ex1_decides y g u v Hu Hv) as (g2 & gr2 & b2 & sh2 & K2 & D1 & D2 & D3).
    rewrite K in K2. inversion K2; subst g2 gr2 c sh2. rewrite <- Eu, <- Ev.
    destruct sh.
    + split; [apply D2; auto|]. split; auto. pose proof (proj1 D1 eq_refl) as Q.
      apply none_positive_cons in Q as [Q1 Q]. apply none_positive_cons in Q as [Q2 _].
      apply none_positive_cons; split; auto. apply none_positive_cons; split; auto. apply none_positive_nil.
    + apply D3. auto.
Qed.
Lemma ex1rr_best idx s gamma o' s' gamma' x k : (-1 <= idx < 3)%Z ->
  cutting_plane_optim ex1rr_assess sp opt idx s gamma = Ok (o', s', gamma', (Some x, k)) ->
  let a := nth 0 (adata x) n0 in let b := nth 1 (adata x) n0 in
  2 <= length (adata x) /\ gamma' = a +! b /\ none_positive [a +! b -! nZ 3; -! a +! b +! n1].
Proof.
  intros Hi E. cbv zeta.
  refine (_ (optim_best ex1rr_assess sp opt (fun i => (-1 <= i < 3)%Z) (fun _ => True)
    (fun x => 2 <= length (adata x) /\ none_positive [nth 0 (adata x) n0 +! nth 1 (adata x) n0 -! nZ 3; -! nth 0 (adata x) n0 +! nth 1 (adata x) n0 +! n1])
    (fun x => nth 0 (adata x) n0 +! nth 1 (adata x) n0) _ idx s gamma o' s' gamma' _ k Hi I E)).
  - intros (_ & _ & H & H1 & H2). auto.
  - intros i y g i' g' [gr c] sh Hi' _ K.
    pose proof (bind_idx _ _ _ K) as L. destruct (idx2 y L) as (u & v & Hu & Hv & Eu & Ev).
    destruct (ex1rr_decides i y g u v Hi' Hu Hv) as (i2 & g2 & gr2 & b2 & sh2 & K2 & R2 & D1 & D2 & D3).
    rewrite K in K2. inversion K2; subst i2 g2 gr2 c sh2. rewrite <- Eu, <- Ev. split; auto. split; auto.
    destruct sh.
    + split; [apply D2; auto|]. split; auto. pose proof (proj1 D1 eq_refl) as Q.
      apply none_positive_cons in Q as [Q1 Q]. apply none_positive_cons in Q as [Q2 _].
      apply none_positive_cons; split; auto. apply none_positive_cons; split; auto. apply none_positive_nil.
    + apply D3. auto.
Qed.
Lemma ex4_best idx s gamma o' s' gamma' x k : (-1 <= idx < 4)%Z ->
  cutting_plane_optim ex4_assess sp opt idx s gamma = Ok (o', s', gamma', (Some x, k)) ->
  let a := nth 0 (adata x) n0 in let b := nth 1 (adata x) n0 in
  2 <= length (adata x) /\ gamma' = n2 *! a -! nZ 3 *! b /\ none_positive [-! a -! n1; -! b -! n2; a +! b -! n1].
Proof.
  intros Hi E. cbv zeta.
  refine (_ (optim_best ex4_assess sp opt (fun i => (-1 <= i < 4)%Z) (fun _ => True)
    (fun x => let a := nth 0 (adata x) n0 in let b := nth 1 (adata x) n0 in
       2 <= length (adata x) /\ none_positive [-! a -! n1; -! b -! n2; a +! b -! n1])
    (fun x => n2 *! nth 0 (adata x) n0 -! nZ 3 *! nth 1 (adata x) n0) _ idx s gamma o' s' gamma' _ k Hi I E)).
  - intros (_ & _ & H & H1 & H2). auto.
  - intros i y g i' g' [gr c] sh Hi' _ K.
    pose proof (bind_idx _ _ _ K) as L. destruct (idx2 y L) as (u & v & Hu & Hv & Eu & Ev).
    destruct (ex4_decides i y g u v Hi' Hu Hv) as (i2 & g2 & gr2 & b2 & sh2 & K2 & R2 & D1 & D2 & D3).
    rewrite K in K2. inversion K2; subst i2 g2 gr2 c sh2. rewrite <- Eu, <- Ev. split; auto. split; auto.
    destruct sh.
    + split; [apply D2; auto|]. cbv zeta. split; auto. pose proof (proj1 D1 eq_refl) as Q.
      apply none_positive_cons in Q as [Q1 Q]. apply none_positive_cons in Q as [Q2 Q]. apply none_positive_cons in Q as [Q3 _].
      repeat (apply none_positive_cons; split; auto). apply none_positive_nil.
    + apply D3. auto.
Qed.
End Any.
