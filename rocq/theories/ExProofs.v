(** The example oracles. *)
From Coq Require Import ZArith Reals List Bool Arith Lia Lra Psatz.
From Flocq Require Import Core.
From Verif Require Import Num Res Arr CuttingPlane Spec EllReal LmiSpec Examples ExSpec.
Import ListNotations.
Open Scope nat_scope.

(** a positive test ends the loop *)
Ltac idx_cases H :=
  match type of H with
  | (-1 <= ?i < 2)%Z => assert (i = -1 \/ i = 0 \/ i = 1)%Z as [->|[->| ->]] by lia
  | (-1 <= ?i < 3)%Z => assert (i = -1 \/ i = 0 \/ i = 1 \/ i = 2)%Z as [->|[->|[->| ->]]] by lia
  | (-1 <= ?i < 4)%Z => assert (i = -1 \/ i = 0 \/ i = 1 \/ i = 2 \/ i = 3)%Z as [->|[->|[->|[->| ->]]]] by lia
  end.
Ltac rdc := cbn -[nadd nsub nopp nmul ndiv nexp nln nZ n0 n1 n2 nltb].
Ltac ifs := repeat match goal with |- context [if nltb ?a ?b then _ else _] => destruct (nltb a b) eqn:?; try discriminate; rdc end.

Section Any.
Context {N : Num}.
Notation arr := (Arr N).
Lemma none_positive_cons (a : N) l : none_positive (a :: l) <-> (a >?! n0) = false /\ none_positive l.
Proof.
  split.
  - intros H. split; [apply H; left; auto|]. intros v Hv. apply H. now right.
  - intros [H1 H2] v [<-|Hv]; auto.
Qed.
Lemma none_positive_nil : none_positive (N := N) [].
Proof. intros v []. Qed.

Ltac dec := unfold decides; repeat split; intros;
  try discriminate; try congruence; auto;
  try (repeat (apply none_positive_cons; split; auto); apply none_positive_nil);
  try (repeat match goal with H : none_positive (_ :: _) |- _ => apply none_positive_cons in H; destruct H end; congruence);
  try (cbn; tauto).
Lemma idx2 (xc : arr) : 2 <= length (adata xc) -> exists x y, a_idx xc 0 = Ok x /\ a_idx xc 1 = Ok y /\
  x = nth 0 (adata xc) n0 /\ y = nth 1 (adata xc) n0.
Proof. intros H. exists (nth 0 (adata xc) n0), (nth 1 (adata xc) n0). unfold a_idx. rewrite !(rd_nth _ _ n0) by lia. auto. Qed.

Lemma ex1_decides (xc : arr) gamma x y : a_idx xc 0 = Ok x -> a_idx xc 1 = Ok y ->
  exists gamma' g beta b, ex1_assess tt xc gamma = Ok (tt, gamma', ((g, mkSingle beta), b)) /\
    decides [x +! y -! nZ 3; -! x +! y +! n1; gamma -! (x +! y)] (x +! y) gamma gamma' beta b.
Proof.
  intros Hx Hy. unfold ex1_assess. rewrite Hx, Hy. cbn [bind].
  ifs; do 4 eexists; (split; [reflexivity|]); dec.
Qed.
Lemma ex1rr_decides idx (xc : arr) gamma x y : (-1 <= idx < 3)%Z -> a_idx xc 0 = Ok x -> a_idx xc 1 = Ok y ->
  exists idx' gamma' g beta b, ex1rr_assess idx xc gamma = Ok (idx', gamma', ((g, mkSingle beta), b)) /\ (-1 <= idx' < 3)%Z /\
    decides [x +! y -! nZ 3; -! x +! y +! n1; gamma -! (x +! y)] (x +! y) gamma gamma' beta b.
Proof.
  intros Hi Hx Hy. unfold ex1rr_assess. rewrite Hx, Hy. cbn [bind].
  unfold round_robin, loop_range.
  idx_cases Hi; cbn -[nadd nsub nopp nZ n0 n1 nltb];
  ifs; do 5 eexists; (split; [reflexivity|]); (split; [lia|]); dec.
Qed.
Lemma ex4_decides idx (xc : arr) gamma x y : (-1 <= idx < 4)%Z -> a_idx xc 0 = Ok x -> a_idx xc 1 = Ok y ->
  exists idx' gamma' g beta b, ex4_assess idx xc gamma = Ok (idx', gamma', ((g, mkSingle beta), b)) /\ (-1 <= idx' < 4)%Z /\
    decides [-! x -! n1; -! y -! n2; x +! y -! n1; gamma -! (n2 *! x -! nZ 3 *! y)] (n2 *! x -! nZ 3 *! y) gamma gamma' beta b.
Proof.
  intros Hi Hx Hy. unfold ex4_assess. rewrite Hx, Hy. cbn [bind].
  unfold round_robin, loop_range.
  idx_cases Hi; cbn -[nadd nsub nopp nmul nZ n0 n1 n2 nltb];
  ifs; do 5 eexists; (split; [reflexivity|]); (split; [lia|]); dec.
Qed.
Lemma ex3_decides (o : Ex3 N) (xc : arr) x y : (-1 <= ex3_idx o < 4)%Z -> a_idx xc 0 = Ok x -> a_idx xc 1 = Ok y ->
  exists o' r, ex3_assess o xc = Ok (o', r) /\ (-1 <= ex3_idx o' < 4)%Z /\ ex3_target o' = ex3_target o /\
    let tests := [-! x -! n1; -! y -! n2; x +! y -! n1; n2 *! x -! nZ 3 *! y -! ex3_target o] in
    (r = None <-> none_positive tests) /\
    forall g beta, r = Some (g, mkSingle beta) -> In beta tests /\ (beta >?! n0) = true.
Proof.
  destruct o as [i t]. cbn [ex3_idx ex3_target].
  intros Hi Hx Hy. unfold ex3_assess. rewrite Hx, Hy. cbn [bind].
  unfold round_robin, loop_range.
  idx_cases Hi; cbn -[nadd nsub nopp nmul nZ n0 n1 n2 nltb];
  ifs; do 2 eexists; (split; [reflexivity|]); (split; [cbn; lia|]); (split; [reflexivity|]); cbv zeta; dec;
  match goal with H : Some _ = Some _ |- _ => inversion H; subst end; cbn; auto.
Qed.
Lemma ex3_updated (o : Ex3 N) gamma (xc : arr) x y : (-1 <= ex3_idx o < 4)%Z -> a_idx xc 0 = Ok x -> a_idx xc 1 = Ok y ->
  exists o' r, of_assess ex3_oracle (of_update ex3_oracle o gamma) xc = Ok (o', r) /\ (-1 <= ex3_idx o' < 4)%Z /\ ex3_target o' = gamma /\
    let tests := [-! x -! n1; -! y -! n2; x +! y -! n1; n2 *! x -! nZ 3 *! y -! gamma] in
    (r = None <-> none_positive tests) /\
    forall g beta, r = Some (g, mkSingle beta) -> In beta tests /\ (beta >?! n0) = true.
Proof. intros Hi Hx Hy. exact (ex3_decides (mkEx3 (ex3_idx o) gamma) xc x y Hi Hx Hy). Qed.
(** the sequential and the round-robin variant *)
Lemma ex1_same idx (xc : arr) gamma : (-1 <= idx < 3)%Z -> 2 <= length (adata xc) ->
  exists idx' gamma' cut cut' b,
    ex1_assess tt xc gamma = Ok (tt, gamma', (cut, b)) /\
    ex1rr_assess idx xc gamma = Ok (idx', gamma', (cut', b)) /\ (-1 <= idx' < 3)%Z /\
    (idx = -1 \/ idx = 2 \/ b = true -> cut' = cut)%Z.
Proof.
  intros Hi H. destruct (idx2 xc H) as (x & y & Hx & Hy & _).
  unfold ex1_assess, ex1rr_assess. rewrite Hx, Hy. cbn [bind]. unfold round_robin, loop_range.
  idx_cases Hi; cbn -[nadd nsub nopp nZ n0 n1 nltb]; ifs;
  do 5 eexists; (split; [reflexivity|]); (split; [reflexivity|]); (split; [lia|]); auto; intros [?|[?|?]]; try discriminate; auto.
Qed.
Lemma ex1_short (xc : arr) gamma : length (adata xc) < 2 -> ex1_assess tt xc gamma = Panic.
Proof.
  intros H. unfold ex1_assess, a_idx. destruct (adata xc) as [|a [|b l]]; cbn in *; auto; lia.
Qed.
Lemma qcvx_decides idx (xc : arr) gamma s l : (-1 <= idx < 2)%Z -> a_idx xc 0 = Ok s -> a_idx xc 1 = Ok l ->
  exists idx' gamma' g beta b, qcvx_assess idx xc gamma = Ok (idx', gamma', ((g, mkSingle beta), b)) /\ (-1 <= idx' < 2)%Z /\
    decides [s *! s -! l; -! s +! gamma *! nexp l] (s /! nexp l) gamma gamma' beta b.
Proof.
  intros Hi Hx Hy. unfold qcvx_assess. rewrite Hx, Hy. cbn [bind].
  unfold round_robin, loop_range.
  idx_cases Hi; cbn -[nadd nsub nopp nmul ndiv nexp nZ n0 n1 n2 nltb];
  ifs; do 5 eexists; (split; [reflexivity|]); (split; [lia|]); dec.
Qed.
End Any.

Open Scope R_scope.
Lemma valid_cut_2 (a b beta : R) x (Y : vec -> Prop) :
  (forall u, Y u -> a * (u 0%nat - x 0%nat) + b * (u 1%nat - x 1%nat) + beta <= 0) ->
  valid_cut 2 (xvec (vec2 (N := RNum) a b)) x beta Y.
Proof. intros H u Hu. specialize (H u Hu). unfold dot, xvec. cbn. lra. Qed.
Ltac reals := change (num RNum) with R in *; cbn [nadd nsub nopp nmul ndiv nexp nln nltb RNum nZ n0 n1 n2 num] in *;
  unfold nm1 in *; unfold n0, n1, n2, prob1, obj1, prob4, obj4, probq, objq in *; cbn [nadd nsub nopp nmul ndiv nexp nln nltb RNum nZ num] in *;
  repeat match goal with
  | H : Rlt_bool _ _ = true |- _ => apply Rlt_bool_iff in H
  | H : Rlt_bool _ _ = false |- _ => apply Rlt_bool_no in H end.
Ltac fin := first [discriminate | reflexivity | lra].
Ltac good := split;
  [ split; reflexivity
  | split; [ intros ?; try discriminate; repeat split; lra | intros ?; first [reflexivity | exfalso; lra] ]
  | intros ?; try discriminate; split; fin
  | intros ?; try discriminate; split; fin
  | apply valid_cut_2; intros u Hu; lra ].

Lemma ex1_good (xc : Arr RNum) (gamma : R) : (2 <= length (adata xc))%nat ->
  exists gamma' g beta b, ex1_assess (N := RNum) tt xc gamma = Ok (tt, gamma', ((g, mkSingle (N := RNum) beta), b)) /\
    good_answer prob1 obj1 (xvec xc) gamma gamma' g beta b.
Proof.
  intros H. destruct (idx2 (N := RNum) xc H) as (x & y & Hx & Hy & Ex & Ey).
  unfold ex1_assess. rewrite Hx, Hy. cbn [bind].
  change (x = xvec xc 0%nat) in Ex. change (y = xvec xc 1%nat) in Ey. subst x y. set (x := xvec xc) in *.
  ifs; do 4 eexists; (split; [reflexivity|]); reals; good.
Qed.
Lemma ex1rr_good idx (xc : Arr RNum) (gamma : R) : (-1 <= idx < 3)%Z -> (2 <= length (adata xc))%nat -> 
  exists idx' gamma' g beta b, ex1rr_assess (N := RNum) idx xc gamma = Ok (idx', gamma', ((g, mkSingle (N := RNum) beta), b)) /\ (-1 <= idx' < 3)%Z /\
    good_answer prob1 obj1 (xvec xc) gamma gamma' g beta b.
Proof.
  intros Hi H. destruct (idx2 (N := RNum) xc H) as (x & y & Hx & Hy & Ex & Ey).
  unfold ex1rr_assess. rewrite Hx, Hy. cbn [bind].
  change (x = xvec xc 0%nat) in Ex. change (y = xvec xc 1%nat) in Ey. subst x y. set (x := xvec xc) in *.
  unfold round_robin, loop_range.
  idx_cases Hi; rdc; ifs; do 5 eexists; (split; [reflexivity|]); (split; [lia|]); clear Hi; reals; good.
Qed.
Lemma ex4_good idx (xc : Arr RNum) (gamma : R) : (-1 <= idx < 4)%Z -> (2 <= length (adata xc))%nat -> 
  exists idx' gamma' g beta b, ex4_assess (N := RNum) idx xc gamma = Ok (idx', gamma', ((g, mkSingle (N := RNum) beta), b)) /\ (-1 <= idx' < 4)%Z /\
    good_answer prob4 obj4 (xvec xc) gamma gamma' g beta b.
Proof.
  intros Hi H. destruct (idx2 (N := RNum) xc H) as (x & y & Hx & Hy & Ex & Ey).
  unfold ex4_assess. rewrite Hx, Hy. cbn [bind].
  change (x = xvec xc 0%nat) in Ex. change (y = xvec xc 1%nat) in Ey. subst x y. set (x := xvec xc) in *.
  unfold round_robin, loop_range.
  idx_cases Hi; rdc; ifs; do 5 eexists; (split; [reflexivity|]); (split; [lia|]); clear Hi; reals; good.
Qed.
Lemma ex3_good (o : Ex3 RNum) (xc : Arr RNum) : (-1 <= ex3_idx o < 4)%Z -> (2 <= length (adata xc))%nat ->
  exists o' r, ex3_assess (N := RNum) o xc = Ok (o', r) /\ (-1 <= ex3_idx o' < 4)%Z /\ ex3_target o' = ex3_target o /\
    let S := fun u : vec => prob4 (u 0%nat) (u 1%nat) /\ obj4 (u 0%nat) (u 1%nat) <= ex3_target o in
    (r = None <-> S (xvec xc)) /\
    forall g beta, r = Some (g, mkSingle (N := RNum) beta) ->
      length (adata g) = 2%nat /\ acols g = 0%nat /\ 0 < beta /\ valid_cut 2 (xvec g) (xvec xc) beta S.
Proof.
  destruct o as [i t]. cbn [ex3_idx ex3_target].
  intros Hi H. destruct (idx2 (N := RNum) xc H) as (x & y & Hx & Hy & Ex & Ey).
  unfold ex3_assess. rewrite Hx, Hy. cbn [bind].
  change (x = xvec xc 0%nat) in Ex. change (y = xvec xc 1%nat) in Ey. subst x y. set (x := xvec xc) in *.
  unfold round_robin, loop_range.
  idx_cases Hi; rdc; ifs; do 2 eexists; (split; [reflexivity|]); (split; [cbn; lia|]); (split; [reflexivity|]); clear Hi; cbv zeta;
  (split; [|intros g beta E; first [discriminate | inversion E; subst; clear E; split; [reflexivity|]; split; [reflexivity|]]]);
  reals; try (split; [lra|]; apply valid_cut_2; intros u Hu; lra).
  all: split; intros ?; try discriminate; try reflexivity; try (repeat split; lra); exfalso; lra.
Qed.

(** quasicvx.rs *)
Lemma exp_above (a b : R) : exp a * (1 + (b - a)) <= exp b.
Proof.
  pose proof (exp_ineq1_le (b - a)) as H. replace (exp b) with (exp a * exp (b - a)) by (rewrite <- exp_plus; f_equal; ring).
  pose proof (exp_pos a). nra.
Qed.
Lemma objq_le gamma s l : gamma <= objq s l <-> gamma * exp l <= s.
Proof.
  unfold objq. pose proof (exp_pos l) as H. split; intros K.
  - apply (Rmult_le_compat_r (exp l)) in K; [|lra]. replace (s / exp l * exp l) with s in K by (field; lra). exact K.
  - apply (Rmult_le_reg_r (exp l)); [lra|]. replace (s / exp l * exp l) with s by (field; lra). exact K.
Qed.
Lemma qcvx_good idx (xc : Arr RNum) (gamma : R) : (-1 <= idx < 2)%Z -> (2 <= length (adata xc))%nat -> 0 <= gamma ->
  exists idx' gamma' g beta b, qcvx_assess (N := RNum) idx xc gamma = Ok (idx', gamma', ((g, mkSingle (N := RNum) beta), b)) /\ (-1 <= idx' < 2)%Z /\
    gamma <= gamma' /\ good_answer probq objq (xvec xc) gamma gamma' g beta b.
Proof.
  intros Hi H Hg. destruct (idx2 (N := RNum) xc H) as (x & y & Hx & Hy & Ex & Ey).
  unfold qcvx_assess. rewrite Hx, Hy. cbn [bind].
  change (x = xvec xc 0%nat) in Ex. change (y = xvec xc 1%nat) in Ey. subst x y. set (x := xvec xc) in *.
  assert (C1 : 0 < x 0%nat * x 0%nat - x 1%nat ->
    valid_cut 2 (xvec (vec2 (N := RNum) (2 * x 0%nat) (-1))) x (x 0%nat * x 0%nat - x 1%nat)
      (fun u => probq (u 0%nat) (u 1%nat) /\ gamma <= objq (u 0%nat) (u 1%nat))).
  { intros _. apply valid_cut_2. intros u [Hu _]. unfold probq in Hu. pose proof (Rle_0_sqr (u 0%nat - x 0%nat)). unfold Rsqr in *. lra. }
  assert (C2 : valid_cut 2 (xvec (vec2 (N := RNum) (-1) (gamma * exp (x 1%nat)))) x (- x 0%nat + gamma * exp (x 1%nat))
      (fun u => probq (u 0%nat) (u 1%nat) /\ gamma <= objq (u 0%nat) (u 1%nat))).
  { apply valid_cut_2. intros u [_ Hu]. apply objq_le in Hu. pose proof (exp_above (x 1%nat) (u 1%nat)) as E. nra. }
  assert (C3 : 0 <= x 0%nat -> valid_cut 2 (xvec (vec2 (N := RNum) (-1) (x 0%nat))) x 0
      (fun u => probq (u 0%nat) (u 1%nat) /\ objq (x 0%nat) (x 1%nat) <= objq (u 0%nat) (u 1%nat))).
  { intros Hs. apply valid_cut_2. intros u [_ Hu]. apply objq_le in Hu. pose proof (exp_above (x 1%nat) (u 1%nat)) as E.
    unfold objq in Hu. pose proof (exp_pos (x 1%nat)) as P. set (e := exp (x 1%nat)) in *. set (f := exp (u 1%nat)) in *.
    assert (K : x 0%nat / e * (e * (1 + (u 1%nat - x 1%nat))) <= x 0%nat / e * f).
    { apply Rmult_le_compat_l; [|exact E]. unfold Rdiv. apply Rmult_le_pos; [lra|]. left. now apply Rinv_0_lt_compat. }
    replace (x 0%nat / e * (e * (1 + (u 1%nat - x 1%nat)))) with (x 0%nat * (1 + (u 1%nat - x 1%nat))) in K by (field; lra). lra. }
  pose proof (objq_le gamma (x 0%nat) (x 1%nat)) as OL.
  assert (GE : 0 <= gamma * exp (x 1%nat)) by (pose proof (exp_pos (x 1%nat)); nra).
  unfold round_robin, loop_range.
  idx_cases Hi; rdc; ifs; do 5 eexists; (split; [reflexivity|]); (split; [lia|]); clear Hi;
  change (nexp (n := RNum)) with exp in *; change (num RNum) with R in *; unfold nm1, n0, n1, n2 in *;
  cbn [nadd nsub nopp nmul ndiv nexp nltb RNum nZ num] in *;
  repeat match goal with
  | H : Rlt_bool _ _ = true |- _ => apply Rlt_bool_iff in H
  | H : Rlt_bool _ _ = false |- _ => apply Rlt_bool_no in H end;
  (split; [first [lra | apply OL; lra]|]);
  (split; [split; reflexivity
   |split; [intros ?; first [discriminate | split; [unfold probq; lra | apply OL; lra]]
           |intros [K1 K2]; unfold probq in K1; apply OL in K2; first [reflexivity | exfalso; lra]]
   |intros ?; first [discriminate | split; reflexivity]
   |intros ?; first [discriminate | split; [reflexivity | lra]]
   |replace (- (1)) with (-1) by lra; first [apply C2 | apply C1; lra | apply C3; lra]]).
Qed.
(** with a negative [gamma] the cut can exclude a better feasible point *)
Lemma qcvx_negative : exists xc (gamma : R) idx' gamma' g beta b u, length (adata xc) = 2%nat /\ gamma < 0 /\
  qcvx_assess (N := RNum) (-1) xc gamma = Ok (idx', gamma', ((g, mkSingle (N := RNum) beta), b)) /\
  probq (u 0%nat) (u 1%nat) /\ gamma < objq (u 0%nat) (u 1%nat) /\ gamma' < objq (u 0%nat) (u 1%nat) /\
  0 < dot 2 (xvec g) (fun i => u i - xvec xc i) + beta.
Proof.
  exists (vec2 (N := RNum) (- (1 / 2)) 1), (-1).
  pose proof (exp_ineq1_le 1) as E1. pose proof exp_le_3 as E3.
  do 5 eexists. exists (fun i => match i with O => - (1 / 10) | _ => 1 / 100 end).
  split; [reflexivity|]. split; [lra|]. split.
  { unfold qcvx_assess. cbn [a_idx vec2 a_from adata rd nth_error bind]. unfold round_robin, loop_range. rdc.
    change (nltb (n := RNum)) with Rlt_bool. unfold n0. cbn [nadd nsub nopp nmul ndiv nexp RNum nZ].
    rewrite (proj2 (Rlt_bool_no _ _)) by lra. rdc.
    change (nltb (n := RNum)) with Rlt_bool. unfold n0. cbn [nadd nsub nopp nmul ndiv nexp RNum nZ].
    rewrite (proj2 (Rlt_bool_no _ _)) by lra. reflexivity. }
  cbn -[IZR]. unfold probq, objq. change (nexp (n := RNum) 1) with (exp 1).
  pose proof (exp_ineq1_le (1 / 100)) as EE.
  assert (K : - (1 / 10) <= - (1 / 10) / exp (1 / 100)).
  { apply (Rmult_le_reg_r (exp (1 / 100))); [lra|]. replace (- (1 / 10) / exp (1 / 100) * exp (1 / 100)) with (- (1 / 10)) by (field; lra). nra. }
  assert (L : - (1 / 2) / exp 1 < - (1 / 10)).
  { apply (Rmult_lt_reg_r (exp 1)); [lra|]. replace (- (1 / 2) / exp 1 * exp 1) with (- (1 / 2)) by (field; lra). nra. }
  split; [lra|]. split; [lra|]. split; [change (- (1 / 2) / exp 1 < - (1 / 10) / exp (1 / 100)); lra|].
  unfold dot, xvec. cbn -[IZR]. lra.
Qed.
