(** Proofs about the portfolio oracle. *)
From Coq Require Import ZArith Reals List Bool Arith Lia Lra.
From Flocq Require Import Core.Raux.
From Verif Require Import Num Res Arr ArrLemmas CuttingPlane EllCalc Ell EllRun Spec RealLin EllSpec EllReal EllCuts DriverBest RunSpec RunProofs EllMore Portfolio PortfolioSpec.
Import ListNotations.
Local Open Scope nat_scope.

Section AnyNumber.
Context {N : Num}.
Notation arr := (Arr N).

Lemma idx_ok n (x : arr) i : is_vec n x -> i < n -> a_idx x i = Ok (vget x i).
Proof. intros [L _] H. unfold a_idx, vget. apply rd_nth. lia. Qed.
Lemma idx2_ok n (m : arr) i j : is_mat n n m -> i < n -> j < n -> a_idx2 m i j = Ok (mget n (adata m) i j).
Proof.
  intros (L & Rr & C) Hi Hj. unfold a_idx2, mget. rewrite C. apply rd_nth. rewrite L. now apply flat_lt.
Qed.
Lemma for_accum n z (f : nat -> N) body : (forall i s, i < n -> body i s = Ok (s +! f i)) ->
  for_range 0 n body z = Ok (accum z f n).
Proof.
  intros H. destruct (for_range_inv (fun i s => s = accum z f i) 0 n body z) as (s & E & ->); auto; try lia.
  intros i t Hi ->. rewrite H by lia. eexists; split; reflexivity.
Qed.
Lemma for_rows n m z (f : nat -> nat -> N) body : (forall i s, i < n -> body i s = Ok (accum s (f i) m)) ->
  for_range 0 n body z = Ok (by_rows z f n m).
Proof.
  intros H. destruct (for_range_inv (fun i s => s = by_rows z f i m) 0 n body z) as (s & E & ->); auto; try lia.
  intros i t Hi ->. rewrite H by lia. eexists; split; reflexivity.
Qed.
Lemma for_fill n (f : nat -> N) body : (forall i (g : arr), i < n -> length (adata g) = n -> body i g = a_setidx g i (f i)) ->
  for_range 0 n body (a_new n) = Ok (mkArr (map f (seq 0 n)) n 0).
Proof.
  intros H. destruct (for_range_inv (fun i (g : arr) => length (adata g) = n /\ arows g = n /\ acols g = 0 /\ forall j, j < i -> nth j (adata g) n0 = f j) 0 n body (a_new n)) as (g & E & L & Rr & C & K); try lia.
  - repeat split; simpl; try lia. now rewrite repeat_length.
  - intros i t Hi (L & Rr & C & K). rewrite H by (auto; lia). unfold a_setidx. rewrite wr_ok by lia. eexists. split; [reflexivity|].
    cbn [adata arows acols]. rewrite upd_length. repeat split; auto. intros j Hj. rewrite nth_upd by lia.
    destruct (Nat.eqb_spec i j) as [->|]; auto. apply K. lia.
  - rewrite E. f_equal. destruct g as [d r c]; cbn [adata arows acols] in *; subst. f_equal. apply list_map_seq with n0; auto.
Qed.

Variables (n : nat) (p : Portfolio N).
Hypothesis Hp : assets n p.

Lemma len_vec (x : arr) : is_vec n x -> a_len x = n.
Proof. now intros []. Qed.

(** the gradient of the quadratic form *)
Definition slope (x : arr) (i : nat) : N :=
  accum n0 (fun j => (mget n (adata (pf_risk p)) i j +! mget n (adata (pf_risk p)) j i) *! vget x j) n.
Lemma assess_eval o (x : arr) (gamma : N) : is_vec n x ->
  pf_assess p o x gamma = Ok (
    if invested n x -! pf_budget p >?! n0 then (tt, gamma, ((mkArr (map (fun _ => n1) (seq 0 n)) n 0, mkSingle (invested n x -! pf_budget p)), false))
    else if variance n p x -! pf_max_risk p >?! n0 then (tt, gamma, ((mkArr (map (slope x) (seq 0 n)) n 0, mkSingle (variance n p x -! pf_max_risk p)), false))
    else if loss n p x <?! gamma then (tt, loss n p x, ((mkArr (map (fun i => -! vget (pf_returns p) i) (seq 0 n)) n 0, mkSingle n0), true))
    else (tt, gamma, ((a_new n, mkSingle n0), false))).
Proof.
  intros V. destruct Hp as [Hr Hm]. unfold pf_assess. rewrite (len_vec x V).
  unfold pf_sum. rewrite (len_vec x V). rewrite (for_accum n n0 (vget x)) by (intros i s Hi; rewrite (idx_ok n) by auto; reflexivity).
  cbn [bind]. fold (invested n x). destruct (_ >?! _).
  { rewrite (for_fill n (fun _ => n1)) by auto. reflexivity. }
  unfold pf_variance. rewrite (len_vec x V).
  rewrite (for_rows n n n0 (fun i j => vget x i *! mget n (adata (pf_risk p)) i j *! vget x j)).
  2:{ intros i s Hi. apply for_accum. intros j t Hj. rewrite !(idx_ok n) by auto. rewrite (idx2_ok n) by auto. reflexivity. }
  cbn [bind]. fold (variance n p x). destruct (_ >?! _).
  { unfold pf_risk_grad. rewrite (len_vec x V). rewrite (for_fill n (slope x)); [reflexivity|].
    intros i g Hi Hg. rewrite (for_accum n n0 (fun j => (mget n (adata (pf_risk p)) i j +! mget n (adata (pf_risk p)) j i) *! vget x j)); [reflexivity|].
    intros j t Hj. rewrite !(idx2_ok n) by auto. rewrite (idx_ok n) by auto. reflexivity. }
  rewrite (a_dot_ok n) by auto. cbn [bind]. fold (loss n p x). destruct (_ <?! _); [|reflexivity].
  rewrite (for_fill n (fun i => -! vget (pf_returns p) i)); [reflexivity|].
  intros i g Hi Hg. rewrite (idx_ok n) by auto. reflexivity.
Qed.

Lemma dot_vec (a b : arr) v : is_vec n a -> a_dot a b = Ok v -> is_vec n b.
Proof.
  intros [L C] E. unfold a_dot, assert, a_is_2d, a_len in E. rewrite L, C in E. simpl in E.
  destruct (acols b) eqn:Cb; simpl in E; [|discriminate]. destruct (Nat.eqb_spec n (length (adata b))) as [H|]; simpl in E; [|discriminate]. now split.
Qed.
Lemma assess_inv o (x : arr) (gamma : N) o' gamma' cut sh : pf_assess p o x gamma = Ok (o', gamma', (cut, sh)) ->
  if sh : bool then gamma' = loss n p x /\ accepted n p x else gamma' = gamma.
Proof.
  intros E. destruct sh.
  - assert (V : is_vec n x).
    { unfold pf_assess in E. apply bind_inv in E as (s & _ & E). destruct (_ >?! _); [apply bind_inv in E as (? & _ & E); discriminate|].
      apply bind_inv in E as (r & _ & E). destruct (_ >?! _); [apply bind_inv in E as (? & _ & E); discriminate|].
      apply bind_inv in E as (d & E & _). apply dot_vec in E; auto. apply Hp. }
    rewrite assess_eval in E by auto. unfold accepted. destruct (invested n x -! pf_budget p >?! n0); [discriminate|].
    destruct (variance n p x -! pf_max_risk p >?! n0); [discriminate|]. destruct (loss n p x <?! gamma); [|discriminate].
    injection E as E1 E2 E3. auto.
  - unfold pf_assess in E. apply bind_inv in E as (s & _ & E). destruct (_ >?! _); [apply bind_inv in E as (? & _ & E); congruence|].
    apply bind_inv in E as (r & _ & E). destruct (_ >?! _); [apply bind_inv in E as (? & _ & E); congruence|].
    apply bind_inv in E as (d & _ & E). destruct (_ <?! _); [apply bind_inv in E as (? & _ & E); congruence|congruence].
Qed.
Lemma run_reports S (sp : SearchSpace N arr (SingleCut N) S) (opt : Options N) o s gamma o' s' gamma' xb k :
  cutting_plane_optim (pf_assess p) sp opt o s gamma = Ok (o', s', gamma', (xb, k)) ->
  match xb with None => gamma' = gamma | Some x => gamma' = loss n p x /\ accepted n p x end.
Proof.
  intros E. refine (proj2 (proj2 (optim_best (pf_assess p) sp opt (fun _ => True) (fun _ => True) (accepted n p) (loss n p) _ o s gamma o' s' gamma' xb k I I E))).
  intros o1 x1 g1 o1' g1' cut sh _ _ Ea. apply assess_inv in Ea. auto.
Qed.
End AnyNumber.

Local Open Scope R_scope.
Section Reals.
Variables (n : nat) (p : Portfolio RNum).
Hypothesis Hp : assets n p.

Lemma by_rows_Rsum f r c : by_rows (N := RNum) 0 f r c = Rsum r (fun i => Rsum c (f i)).
Proof.
  induction r as [|r IH]; [reflexivity|]. cbn [by_rows Rsum]. rewrite <- IH. generalize (by_rows (N := RNum) 0 f r c). clear IH. intros z.
  induction c as [|c IHc]; [cbn [num RNum] in *; cbn [accum Rsum]; ring|]. cbn [accum Rsum]. rewrite IHc. cbn [num RNum nadd] in *. ring.
Qed.
Lemma invested_R x : invested n x = total n (coords x).
Proof. apply accum_Rsum. Qed.
Lemma variance_R x : variance n p x = quad n (riskm n p) (coords x).
Proof.
  unfold variance. rewrite by_rows_Rsum. unfold quad, dot, mulmv. apply Rsum_ext. intros i Hi.
  rewrite <- Rsum_scal. apply Rsum_ext. intros j Hj. cbn [num RNum nmul]. unfold riskm, mget, coords, vget. change (@n0 RNum) with 0. cbn [num RNum] in *. ring.
Qed.
Lemma loss_R x : loss n p x = shortfall n p (coords x).
Proof. unfold loss, shortfall. cbn [nopp RNum nsum0]. now rewrite accum_Rsum. Qed.
Definition slopeR (x : vec) : vec := fun i => Rsum n (fun j => (riskm n p i j + riskm n p j i) * x j).
Lemma slope_R x i : slope n p x i = slopeR (coords x) i.
Proof. unfold slope. now rewrite accum_Rsum. Qed.
Lemma coords_map f i : (i < n)%nat -> coords (mkArr (N := RNum) (map f (seq 0 n)) n 0) i = f i.
Proof. intros H. unfold coords. cbn [adata]. now apply nth_map_seq. Qed.

Lemma assess_R o (x : Arr RNum) (gamma : R) : vecn n x -> exists gamma' g beta sh,
  pf_assess p o x gamma = Ok (tt, gamma', ((g, mkSingle beta), sh)) /\ vecn n g /\
  (pf_budget p < total n (coords x) -> gamma' = gamma /\ sh = false /\ beta = total n (coords x) - pf_budget p /\ forall i, (i < n)%nat -> coords g i = 1) /\
  (total n (coords x) <= pf_budget p -> pf_max_risk p < quad n (riskm n p) (coords x) ->
     gamma' = gamma /\ sh = false /\ beta = quad n (riskm n p) (coords x) - pf_max_risk p /\ forall i, (i < n)%nat -> coords g i = slopeR (coords x) i) /\
  (admissible n p (coords x) -> shortfall n p (coords x) < gamma ->
     gamma' = shortfall n p (coords x) /\ sh = true /\ beta = 0 /\ forall i, (i < n)%nat -> coords g i = - coords (pf_returns p) i) /\
  (admissible n p (coords x) -> gamma <= shortfall n p (coords x) -> gamma' = gamma /\ sh = false /\ beta = 0 /\ forall i, (i < n)%nat -> coords g i = 0).
Proof.
  intros V. pose proof (assess_eval n p Hp o x gamma V) as E. rewrite invested_R, variance_R, loss_R in E. unfold admissible.
  assert (E' : pf_assess p o x gamma = Ok (
    if Raux.Rlt_bool 0 (total n (coords x) - pf_budget p) then (tt, gamma, ((mkArr (N := RNum) (map (fun _ => 1) (seq 0 n)) n 0, mkSingle (N := RNum) (total n (coords x) - pf_budget p)), false))
    else if Raux.Rlt_bool 0 (quad n (riskm n p) (coords x) - pf_max_risk p) then (tt, gamma, ((mkArr (N := RNum) (map (slope n p x) (seq 0 n)) n 0, mkSingle (N := RNum) (quad n (riskm n p) (coords x) - pf_max_risk p)), false))
    else if Raux.Rlt_bool (shortfall n p (coords x)) gamma then (tt, shortfall n p (coords x), ((mkArr (N := RNum) (map (fun i => - coords (pf_returns p) i) (seq 0 n)) n 0, mkSingle (N := RNum) 0), true))
    else (tt, gamma, ((a_new (N := RNum) n, mkSingle (N := RNum) 0), false)))) by exact E.
  rewrite E'. clear E E'.
  assert (Hm : forall f, vecn n (mkArr (N := RNum) (map f (seq 0 n)) n 0)) by (intros f; split; [cbn [adata]; now rewrite map_length, seq_length|reflexivity]).
  destruct (Raux.Rlt_bool_spec 0 (total n (coords x) - pf_budget p)) as [B1|B1].
  { do 4 eexists. split; [reflexivity|]. split; [apply Hm|]. split; [|split; [|split]]; intros; try lra.
    repeat split; auto. intros i Hi. now apply coords_map. }
  destruct (Raux.Rlt_bool_spec 0 (quad n (riskm n p) (coords x) - pf_max_risk p)) as [B2|B2].
  { do 4 eexists. split; [reflexivity|]. split; [apply Hm|]. split; [|split; [|split]]; intros; try lra.
    repeat split; auto. intros i Hi. rewrite coords_map by auto. apply slope_R. }
  destruct (Raux.Rlt_bool_spec (shortfall n p (coords x)) gamma) as [B3|B3].
  { do 4 eexists. split; [reflexivity|]. split; [apply Hm|]. split; [|split; [|split]]; intros; try lra.
    repeat split; auto. intros i Hi. now rewrite coords_map by auto. }
  do 4 eexists. split; [reflexivity|]. split; [split; [apply repeat_length|reflexivity]|]. split; [|split; [|split]]; intros; try lra.
  repeat split; auto. intros i Hi. unfold coords. cbn [a_new adata]. apply nth_repeat.
Qed.
Lemma quad_slope x y : quad n (riskm n p) y = quad n (riskm n p) x + dot n (slopeR x) (fun i => y i - x i) + quad n (riskm n p) (fun i => y i - x i).
Proof.
  assert (S : forall z, dot n (slopeR x) z = dot n z (mulmv n (riskm n p) x) + dot n x (mulmv n (riskm n p) z)).
  { intros z. unfold dot, slopeR, mulmv.
    rewrite (Rsum_ext n _ (fun i => Rsum n (fun j => z i * (riskm n p i j * x j)) + Rsum n (fun j => x j * (riskm n p j i * z i)))).
    2:{ intros i Hi. rewrite <- Rsum_plus, Rmult_comm, <- Rsum_scal. apply Rsum_ext. intros; ring. }
    rewrite Rsum_plus. f_equal.
    - apply Rsum_ext. intros i Hi. now rewrite Rsum_scal.
    - rewrite Rsum_swap. apply Rsum_ext. intros i Hi. now rewrite Rsum_scal. }
  rewrite S. unfold quad.
  assert (M : forall i, mulmv n (riskm n p) (fun i => y i - x i) i = mulmv n (riskm n p) y i - mulmv n (riskm n p) x i).
  { intros i. unfold mulmv. rewrite <- Rsum_minus. apply Rsum_ext. intros; ring. }
  rewrite (dot_ext n x (mulmv n (riskm n p) (fun i => y i - x i)) x (fun i => mulmv n (riskm n p) y i - mulmv n (riskm n p) x i)) by auto.
  rewrite (dot_ext n (fun i => y i - x i) (mulmv n (riskm n p) (fun i => y i - x i)) (fun i => y i - x i) (fun i => mulmv n (riskm n p) y i - mulmv n (riskm n p) x i)) by auto.
  rewrite !dot_minus_l, !dot_minus_r. ring.
Qed.
Lemma cuts_valid : psd n (riskm n p) -> optim_cuts single_sat single_deep n (fun _ _ => True) (no_worse n p) (pf_assess p).
Proof.
  intros Hq o x gamma o' gamma' g c sh _ V E. destruct (assess_R o x gamma V) as (ga2 & g2 & beta & b & E2 & Vg & A1 & A2 & A3 & A4).
  rewrite E in E2. injection E2 as -> -> -> -> ->. split; auto. split; auto. unfold single_deep, single_sat. cbn [sc_beta].
  destruct (Rlt_dec (pf_budget p) (total n (coords x))) as [C1|C1].
  { destruct (A1 C1) as (-> & -> & -> & Hg). split; [lra|]. split; auto. split; auto. intros y [[Y1 Y2] Y3]. unfold along, offset.
    rewrite (dot_ext n (coords g2) _ (fun _ => 1) (fun i => y i - coords x i)) by auto. unfold dot.
    rewrite (Rsum_ext n _ (fun i => y i - coords x i)) by (intros; ring). rewrite Rsum_minus. unfold total in *. lra. }
  destruct (Rlt_dec (pf_max_risk p) (quad n (riskm n p) (coords x))) as [C2|C2].
  { destruct (A2 ltac:(lra) C2) as (-> & -> & -> & Hg). split; [lra|]. split; auto. split; auto. intros y [[Y1 Y2] Y3]. unfold along, offset.
    rewrite (dot_ext n (coords g2) _ (slopeR (coords x)) (fun i => y i - coords x i)) by auto.
    pose proof (quad_slope (coords x) y) as K. pose proof (Hq (fun i => y i - coords x i)). lra. }
  assert (Ad : admissible n p (coords x)) by (split; lra).
  destruct (Rlt_dec (shortfall n p (coords x)) gamma) as [C3|C3].
  { destruct (A3 Ad C3) as (-> & -> & -> & Hg). split; [lra|]. split; [discriminate|]. split.
    - intros y [Y1 Y2]. split; auto. lra.
    - intros y [Y1 Y2]. unfold along, offset. rewrite (dot_ext n (coords g2) _ (fun i => -1 * coords (pf_returns p) i) (fun i => y i - coords x i)) by (auto; intros; rewrite Hg by auto; ring).
      rewrite dot_scal_l, dot_minus_r. unfold shortfall in *. lra. }
  destruct (A4 Ad ltac:(lra)) as (-> & -> & -> & Hg). split; [lra|]. split; auto. split; auto. intros y _. unfold along, offset, dot.
  rewrite Rsum_zero; [lra|]. intros i Hi. rewrite Hg by auto. ring.
Qed.
End Reals.
