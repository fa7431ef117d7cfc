(** Proofs about the oracles minimising sums of squares. *)
From Coq Require Import ZArith Reals List Bool Arith Lia Lra.
From Flocq Require Import Core.Raux.
From Verif Require Import Num Res Arr ArrLemmas CuttingPlane EllCalc Ell EllRun Spec RealLin EllSpec EllReal EllCuts EllMore EllWitness Det VolScalar DriverBest RunSpec RunProofs ExConv Portfolio PortfolioProofs Squares SquaresSpec.
Import ListNotations.
Local Open Scope R_scope.

Section Run.
Variables (n : nat) (d t : vec) (ora : OracleOptim RNum (Arr RNum) (SingleCut RNum) unit).
Hypothesis (Hd : forall i, (i < n)%nat -> 0 <= d i) (Ho : sq_oracle n d t ora).

Lemma wsq_nonneg y : 0 <= wsq n d t y.
Proof. apply Rsum_nonneg. intros i Hi. apply Rmult_le_pos; [auto|apply Rle_0_sqr]. Qed.
Lemma wsq_cut x y : halfway n d t y (wsq n d t x) ->
  Rsum n (fun i => 2 * d i * (x i - t i) * (y i - x i)) + wsq n d t x <= 0.
Proof.
  intros H. unfold halfway in H.
  (* 0 <= wsq of (x - t) / 2 - (y - t), weighted by 2... *)
  assert (K : Rsum n (fun i => 2 * d i * (x i - t i) * (y i - x i)) + wsq n d t x <= 2 * wsq n d t y - / 2 * wsq n d t x).
  { unfold wsq. rewrite <- !Rsum_scal, <- Rsum_minus, <- Rsum_plus. apply Rsum_le. intros i Hi. specialize (Hd i Hi).
    assert (0 <= d i * ((x i - t i) - 2 * (y i - t i)) * ((x i - t i) - 2 * (y i - t i))) by (rewrite Rmult_assoc; apply Rmult_le_pos; [auto|apply Rle_0_sqr]).
    lra. }
  lra.
Qed.
Lemma wsq_along g x y : (forall i, (i < n)%nat -> coords g i = 2 * d i * (coords x i - t i)) ->
  along n (coords g) y (coords x) = Rsum n (fun i => 2 * d i * (coords x i - t i) * (y i - coords x i)).
Proof. intros H. unfold along, dot. apply Rsum_ext. intros i Hi. now rewrite H. Qed.
Lemma sq_cuts : optim_cuts single_sat single_deep n (fun _ _ => True) (halfway n d t) ora.
Proof.
  intros o x gamma o' gamma' g c sh _ V E. destruct (Ho o x gamma V) as (g2 & Vg & Hg & E2). rewrite E in E2. clear E.
  pose proof (wsq_nonneg (coords x)) as P. unfold single_deep, single_sat.
  destruct (Rlt_bool_spec (wsq n d t (coords x)) gamma) as [B|B]; injection E2 as -> -> -> -> ->; cbn [sc_beta offset]; (split; [exact I|]); (split; [auto|]); (split; [auto|]).
  - split; [discriminate|]. split; [intros y; unfold halfway; lra|]. intros y Hy. rewrite (wsq_along g2 x y Hg).
    pose proof (wsq_cut (coords x) y Hy). lra.
  - split; [auto|]. split; [auto|]. intros y Hy. rewrite (wsq_along g2 x y Hg). apply wsq_cut. unfold halfway in *. lra.
Qed.
Lemma sq_margin M r j : (j < n)%nat -> d j = M -> 0 < r -> optim_margin n (fun _ _ => True) t r (halfway n d t) (8 * M * (r * r)) ora.
Proof.
  intros Hj Hm Hr o x gamma _ V. destruct (Ho o x gamma V) as (g & Vg & Hg & E).
  set (f := wsq n d t (coords x)) in *.
  exists tt, (if Rlt_bool f gamma then f else gamma), g, (mkSingle (N := RNum) f), (Rlt_bool f gamma).
  split. { rewrite E. destruct (Rlt_bool f gamma); reflexivity. }
  intros HB. rewrite (wsq_along g x t Hg).
  assert (F : Rsum n (fun i => 2 * d i * (coords x i - t i) * (t i - coords x i)) = - 2 * f).
  { unfold f, wsq. rewrite <- Rsum_scal. apply Rsum_ext. intros; ring. }
  rewrite F. set (e := fun i => t i + (if Nat.eqb i j then r else 0)).
  assert (He : halfway n d t e (if Rlt_bool f gamma then f else gamma)).
  { apply HB. unfold ball, dot, e. rewrite (Rsum_one n j) by (auto; intros i Hi Hne; replace (Nat.eqb i j) with false by (symmetry; now apply Nat.eqb_neq); ring).
    rewrite Nat.eqb_refl. lra. }
  unfold halfway in He. unfold wsq, e in He. rewrite (Rsum_one n j) in He by (auto; intros i Hi Hne; replace (Nat.eqb i j) with false by (symmetry; now apply Nat.eqb_neq); ring).
  rewrite Nat.eqb_refl, Hm in He. destruct (Rlt_bool_spec f gamma); lra.
Qed.
Lemma sq_ball M r y : 0 <= M -> (forall i, (i < n)%nat -> d i <= M) -> ball n t r y -> wsq n d t y <= M * (r * r).
Proof.
  intros H0 HM Hy. unfold ball, dot in Hy. apply Rle_trans with (M * Rsum n (fun i => (y i - t i) * (y i - t i))).
  - unfold wsq. rewrite <- Rsum_scal. apply Rsum_le. intros i Hi. apply Rmult_le_compat_r; [apply Rle_0_sqr|auto].
  - now apply Rmult_le_compat_l.
Qed.
Lemma sq_converges M r j (opt : Options RNum) (e : Ell RNum) (gamma : R) : (2 <= n)%nat -> (j < n)%nat -> d j = M -> (forall i, (i < n)%nat -> d i <= M) ->
  0 < M -> 0 < r -> proper n e -> vecn n (e_xc e) -> (forall y, ball n t r y -> pts n e y) -> 4 * M * (r * r) <= gamma ->
  sq_value n d t ora -> tolerance opt <= (8 * M * (r * r)) * (8 * M * (r * r)) -> (INR n + 1) * ln (vol2 n e / (r * r) ^ n) < INR (max_iters opt) ->
  exists e' gamma' x k, cutting_plane_optim ora (ell_space (N := RNum) single) opt tt e gamma = Ok (tt, e', gamma', (Some x, k)) /\
    gamma' = wsq n d t (coords x) /\ gamma' < 4 * M * (r * r).
Proof.
  intros Hn Hj Hm HM M0 Hr HP Hxc HB Hg Hv Ht Hmax.
  assert (Hrho : 0 < 8 * M * (r * r)) by (assert (0 < r * r) by nra; nra).
  assert (HB2 : forall y, ball n t r y -> halfway n d t y gamma /\ pts n e y).
  { intros y Hy. split; auto. unfold halfway. pose proof (sq_ball M r y ltac:(lra) HM Hy). lra. }
  destruct (optim_bound_margin single single_sat single_deep n (fun (_ : unit) (_ : R) => True) Hn t r Hr single_shrink (8 * M * (r * r)) (halfway n d t) ora opt tt e gamma
    sq_cuts (sq_margin M r j Hj Hm Hr) Hrho I HP Hxc HB2 Ht Hmax) as (o' & e' & gamma' & x & k & E & Hnot & o1 & g1 & o2 & cut & K).
  destruct o'. exists e', gamma', x, k. split; auto. split.
  - exact (Hv _ _ _ _ _ _ K).
  - destruct (Rlt_le_dec gamma' (4 * M * (r * r))) as [L|L]; auto. exfalso. apply Hnot. intros y Hy. unfold halfway.
    pose proof (sq_ball M r y ltac:(lra) HM Hy). lra.
Qed.
End Run.

Lemma vec2_idx (x : Arr RNum) : vecn 2 x -> a_idx x 0 = Ok (coords x 0%nat) /\ a_idx x 1 = Ok (coords x 1%nat).
Proof. intros [L _]. unfold a_idx, coords. split; apply rd_nth; lia. Qed.
Lemma idx_coords (x : Arr RNum) i v : a_idx x i = Ok v -> v = coords x i.
Proof.
  unfold a_idx, coords. intros E. destruct (Nat.lt_ge_cases i (length (adata x))) as [H|H].
  - assert (K := rd_nth (adata x) i (0 : num RNum) H). cbn [num RNum] in *. congruence.
  - assert (K := rd_panic (adata x) i H). cbn [num RNum] in *. congruence.
Qed.
Lemma sq2_ok d0 d1 (ora : OracleOptim RNum (Arr RNum) (SingleCut RNum) unit) :
  (forall o x gamma, ora o x gamma = (u <- a_idx x 0 ;; v <- a_idx x 1 ;; Ok (sq_finish (N := RNum) (a_from (N := RNum) [2 * d0 * u; 2 * d1 * v]) (d0 * (u * u) + d1 * (v * v)) gamma))) ->
  sq_oracle 2 (pair2 d0 d1) zeros ora /\ sq_value 2 (pair2 d0 d1) zeros ora.
Proof.
  intros H. assert (W : forall x : Arr RNum, wsq 2 (pair2 d0 d1) zeros (coords x) = d0 * (coords x 0%nat * coords x 0%nat) + d1 * (coords x 1%nat * coords x 1%nat)).
  { intros x. unfold wsq, pair2, zeros. cbn [Rsum]. ring. }
  split.
  - intros o x gamma V. destruct (vec2_idx x V) as [E1 E2]. exists (a_from (N := RNum) [2 * d0 * coords x 0%nat; 2 * d1 * coords x 1%nat]).
    split; [split; reflexivity|]. split.
    + intros i Hi. destruct i as [|[|i]]; try lia; unfold coords, zeros, pair2; cbn [a_from adata nth]; ring.
    + rewrite H, E1, E2. cbn [bind]. unfold sq_finish. cbn [nltb RNum]. rewrite W. destruct (Rlt_bool _ _); reflexivity.
  - intros o x gamma o' gamma' cut E. rewrite H in E. apply bind_inv in E as (u & E1 & E). apply bind_inv in E as (v & E2 & E).
    apply idx_coords in E1, E2. subst u v. unfold sq_finish in E. cbn [nltb RNum] in E. destruct (Rlt_bool _ _); [|discriminate]. rewrite W. congruence.
Qed.
Lemma sq2_squares : sq_oracle 2 ones zeros (sq2_assess (N := RNum)) /\ sq_value 2 ones zeros (sq2_assess (N := RNum)).
Proof.
  destruct (sq2_ok 1 1 (sq2_assess (N := RNum))) as [A B].
  { intros o x gamma. unfold sq2_assess. destruct (a_idx x 0) as [u|]; [|reflexivity]. cbn [bind]. destruct (a_idx x 1) as [v|]; [|reflexivity]. cbn [bind].
    change (@n2 RNum) with 2. cbn [nmul nadd RNum num] in *. f_equal. f_equal; [f_equal; repeat f_equal; ring|ring]. }
  assert (P : pair2 1 1 = ones \/ True) by auto. clear P.
  split.
  - intros o x gamma V. destruct (A o x gamma V) as (g & Vg & Hg & E). exists g. split; auto. split; [intros i Hi; rewrite Hg by auto; destruct i; reflexivity|].
    replace (wsq 2 ones zeros (coords x)) with (wsq 2 (pair2 1 1) zeros (coords x)); auto.
  - intros o x gamma o' gamma' cut E. rewrite (B _ _ _ _ _ _ E). reflexivity.
Qed.
Lemma sqc_squares (c : R) : c <> 0 -> sq_oracle 2 (pair2 (1 + / c) c) zeros (sqc_assess (N := RNum) c) /\ sq_value 2 (pair2 (1 + / c) c) zeros (sqc_assess (N := RNum) c).
Proof.
  intros Hc. apply sq2_ok. intros o x gamma. unfold sqc_assess. destruct (a_idx x 0) as [u|]; [|reflexivity]. cbn [bind]. destruct (a_idx x 1) as [v|]; [|reflexivity]. cbn [bind].
  change (@n2 RNum) with 2. change (@n1 RNum) with 1. cbn [nmul nadd ndiv RNum num] in *. f_equal.
  replace (1 / c) with (/ c) by (field; auto). replace (1 / / c) with c by (field; auto). f_equal.
Qed.
Lemma sqs_squares (s : R) : sq_oracle 2 (pair2 s 1) zeros (sqs_assess (N := RNum) s) /\ sq_value 2 (pair2 s 1) zeros (sqs_assess (N := RNum) s).
Proof.
  apply sq2_ok. intros o x gamma. unfold sqs_assess. destruct (a_idx x 0) as [u|]; [|reflexivity]. cbn [bind]. destruct (a_idx x 1) as [v|]; [|reflexivity]. cbn [bind].
  change (@n2 RNum) with 2. cbn [nmul nadd ndiv RNum num] in *. f_equal. f_equal; [f_equal; repeat f_equal; ring|ring].
Qed.

Lemma wsq_target n (x t : Arr RNum) : wsq n ones (coords t) (coords x) = Rsum n (fun i => (coords x i - coords t i) * (coords x i - coords t i)).
Proof. unfold wsq, ones. apply Rsum_ext. intros; ring. Qed.
Lemma sub_ok n (x t : Arr RNum) : length (adata x) = n -> length (adata t) = n -> acols x = 0%nat ->
  exists w, a_sub (N := RNum) x t = Ok w /\ vecn n w /\ forall i, (i < n)%nat -> coords w i = coords x i - coords t i.
Proof.
  intros Lx Lt Cx. unfold a_sub, a_zip, assert, a_len. rewrite Lx, Lt, Nat.eqb_refl. eexists. split; [reflexivity|]. split.
  - split; [cbn [adata]; rewrite zipwith_length; lia|exact Cx].
  - intros i Hi. unfold coords. cbn [adata]. apply (zipwith_nth (nsub (n := RNum))); lia.
Qed.
Lemma dot_self_R n (w : Arr RNum) : vecn n w -> a_dot (N := RNum) w w = Ok (Rsum n (fun i => coords w i * coords w i)).
Proof. intros V. rewrite (a_dot_ok n) by exact V. change (@nsum0 RNum) with 0. now rewrite accum_Rsum. Qed.
Lemma sqt_squares n (t : Arr RNum) : vecn n t -> sq_oracle n ones (coords t) (sqt_assess (N := RNum) t) /\ sq_value n ones (coords t) (sqt_assess (N := RNum) t).
Proof.
  intros [Lt Ct]. split.
  - intros o x gamma [Lx Cx]. destruct (sub_ok n x t Lx Lt Cx) as (w & E & Vw & Hw). unfold sqt_assess. rewrite E. cbn [bind].
    rewrite (dot_self_R n w Vw). cbn [bind]. exists (a_muls (N := RNum) w (n2 (N := RNum))).
    assert (W : Rsum n (fun i => coords w i * coords w i) = wsq n ones (coords t) (coords x)).
    { rewrite wsq_target. apply Rsum_ext. intros i Hi. now rewrite Hw. }
    rewrite W. split.
    + destruct Vw as [L C]. split; [|exact C]. cbn [a_muls a_mapd adata]. now rewrite map_length.
    + split.
      * intros i Hi. unfold coords at 1. cbn [a_muls a_mapd adata]. rewrite (nth_indep _ 0 (nmul (n := RNum) 0 (n2 (N := RNum)))) by (rewrite map_length; destruct Vw; lia).
        rewrite (map_nth (fun v => nmul (n := RNum) v (n2 (N := RNum)))). change (nth i (adata w) 0) with (coords w i). rewrite Hw by auto.
        change (@n2 RNum) with 2. unfold ones. cbn [nmul RNum]. ring.
      * unfold sq_finish. cbn [nltb RNum]. destruct (Rlt_bool _ _); reflexivity.
  - intros o x gamma o' gamma' cut E. unfold sqt_assess in E. apply bind_inv in E as (w & E1 & E). apply bind_inv in E as (f & E2 & E).
    assert (Lx : length (adata x) = n).
    { unfold a_sub, a_zip, assert, a_len in E1. rewrite Lt in E1. destruct (Nat.eqb_spec (length (adata x)) n); [auto|discriminate]. }
    assert (Cx : acols x = 0%nat).
    { unfold a_sub, a_zip, assert in E1. destruct (_ =? _)%nat; [|discriminate]. injection E1 as <-. unfold a_dot, assert, a_is_2d in E2. cbn [acols] in E2.
      destruct (acols x); [reflexivity|discriminate]. }
    destruct (sub_ok n x t Lx Lt Cx) as (w2 & E3 & Vw & Hw). rewrite E1 in E3. injection E3 as <-. rewrite (dot_self_R n w Vw) in E2. injection E2 as <-.
    unfold sq_finish in E. destruct (nltb _ _); [|discriminate]. rewrite wsq_target. rewrite <- (Rsum_ext n (fun i => coords w i * coords w i)); [congruence|].
    intros i Hi. now rewrite Hw.
Qed.
Lemma sqn_loop n (x : Arr RNum) : (n <= length (adata x))%nat -> exists g, vecn n g /\ (forall i, (i < n)%nat -> coords g i = 2 * coords x i) /\
  for_range 0 n (fun i '(gradient, f) => v <- a_idx x i ;; gradient <- a_setidx (N := RNum) gradient i (nmul (n := RNum) (n2 (N := RNum)) v) ;; Ok (gradient, nadd (n := RNum) f (nmul (n := RNum) v v)))
    (a_new (N := RNum) n, n0 (N := RNum)) = Ok (g, Rsum n (fun i => coords x i * coords x i)).
Proof.
  intros L. match goal with |- context [for_range 0 n ?b ?s] => destruct (for_range_inv (fun i '((g, f) : Arr RNum * num RNum) => length (adata g) = n /\ acols g = 0%nat /\ f = Rsum i (fun i => coords x i * coords x i) /\
    forall j, (j < i)%nat -> coords g j = 2 * coords x j) 0 n b s) as ([g f] & E & L1 & C1 & F1 & G1) end.
  - lia.
  - split; [apply repeat_length|]. split; [reflexivity|]. split; [reflexivity|]. intros j Hj. lia.
  - intros i [g f] Hi (L1 & C1 & F1 & G1). assert (Ex : a_idx x i = Ok (coords x i)) by (unfold a_idx, coords; apply rd_nth; lia).
    rewrite Ex. cbn [bind]. unfold a_setidx. rewrite wr_ok by lia. cbn [bind]. eexists. split; [reflexivity|]. cbv beta iota. cbn [adata acols]. rewrite upd_length.
    split; [auto|]. split; [auto|]. split; [rewrite F1; reflexivity|]. intros j Hj. unfold coords at 1. cbn [adata]. rewrite (nth_upd (adata g) i j) by lia.
    destruct (Nat.eqb_spec i j) as [->|Hne]; [reflexivity|]. apply G1. lia.
  - exists g. split; [split; auto|]. split; auto. rewrite E. now rewrite F1.
Qed.
Lemma sqn_squares n : sq_oracle n ones zeros (sqn_assess (N := RNum) n) /\ sq_value n ones zeros (sqn_assess (N := RNum) n).
Proof.
  assert (W : forall x, Rsum n (fun i => coords x i * coords x i) = wsq n ones zeros (coords x)).
  { intros x. unfold wsq, ones, zeros. apply Rsum_ext. intros; ring. }
  split.
  - intros o x gamma [Lx Cx]. destruct (sqn_loop n x ltac:(lia)) as (g & Vg & Hg & E). exists g. split; auto. split; [intros i Hi; rewrite Hg by auto; unfold ones, zeros; ring|].
    unfold sqn_assess. rewrite E. cbn [bind]. rewrite W. unfold sq_finish. cbn [nltb RNum]. destruct (Rlt_bool _ _); reflexivity.
  - intros o x gamma o' gamma' cut E. unfold sqn_assess in E. destruct (Nat.le_gt_cases n (length (adata x))) as [L|L].
    + destruct (sqn_loop n x L) as (g & Vg & Hg & E2). rewrite E2 in E. cbn [bind] in E. unfold sq_finish in E. destruct (nltb _ _); [|discriminate]. rewrite <- W. congruence.
    + exfalso. apply bind_inv in E as ([g f] & E & _).
      assert (P : (fun i (_ : Arr RNum * num RNum) => (i <= length (adata x))%nat) n (g, f)).
      { eapply (for_range_inv_ok (fun i (_ : Arr RNum * num RNum) => (i <= length (adata x))%nat)); [|exact E| |]; [lia|lia|].
        intros i [g1 f1] t' Hi HI Eb. apply bind_inv in Eb as (v & Ev & _). unfold a_idx in Ev. destruct (Nat.lt_ge_cases i (length (adata x))); [lia|]. rewrite rd_panic in Ev by lia. discriminate. }
      cbv beta in P. lia.
Qed.

(** tests/integration_test.rs 190-209: start (1, 1) or (-1, -1), radius^2 10,
    [Options::new(1000, 1e-10)] *)
Definition start11 (s : R) : Arr RNum := mkArr (N := RNum) [s; s] 2 0.
Definition topts : Options RNum := mkOptions (N := RNum) 1000 (/ 10 ^ 10).
Lemma test_converges (s gamma : R) : s = 1 \/ s = -1 -> 2 <= gamma ->
  exists e, ell_new_with_scalar (N := RNum) 10 (start11 s) = Ok e /\
  exists e' gamma' x k, cutting_plane_optim (sq2_assess (N := RNum)) (ell_space (N := RNum) single) topts tt e gamma = Ok (tt, e', gamma', (Some x, k)) /\
    gamma' = coords x 0%nat * coords x 0%nat + coords x 1%nat * coords x 1%nat /\ gamma' < 16 / 10 ^ 6.
Proof.
  intros Hs Hg. destruct (new_scalar_real 2 10 (start11 s) ltac:(lia) ltac:(lra) eq_refl) as (e & E & HP & Hpt). exists e. split; auto.
  set (r := / 500).
  assert (Hr : 0 < r) by (unfold r; lra).
  assert (Hxc : vecn 2 (e_xc e)) by (rewrite (new_scalar_xc _ _ _ E); split; reflexivity).
  assert (HB : forall y, ball 2 zeros r y -> pts 2 e y).
  { intros y Hy. unfold ball, dot, zeros in Hy. cbn [Rsum] in Hy. apply Hpt. unfold coords, start11. cbn [Rsum adata nth].
    assert (r * r <= 1) by (unfold r; lra). assert (- 1 <= y 0%nat <= 1) by nra. assert (- 1 <= y 1%nat <= 1) by nra. destruct Hs as [-> | ->]; nra. }
  assert (Ht : tolerance topts <= (8 * 1 * (r * r)) * (8 * 1 * (r * r))) by (unfold topts, r; cbn [tolerance num RNum]; lra).
  assert (Hm : (INR 2 + 1) * ln (vol2 2 e / (r * r) ^ 2) < INR (max_iters topts)).
  { rewrite (new_scalar_vol 2 10 (start11 s) e ltac:(lia) eq_refl E). cbn [max_iters topts]. replace (INR 1000) with 1000 by (rewrite INR_IZR_INZ; reflexivity). change (INR 2) with 2.
    assert (Hle : 10 ^ 2 / (r * r) ^ 2 <= exp 300).
    { apply Rle_trans with (2 ^ 300).
      - unfold r. replace (10 ^ 2 / (/ 500 * / 500) ^ 2) with (IZR 6250000000000) by field. change 2 with (IZR 2). rewrite pow_IZR. apply IZR_le. vm_compute. discriminate.
      - replace 300 with (INR 300 * 1) by (rewrite INR_IZR_INZ; simpl; lra). rewrite <- exp_pow. apply pow_incr. pose proof (exp_ineq1_le 1). lra. }
    assert (ln (10 ^ 2 / (r * r) ^ 2) <= 300); [|lra].
    rewrite <- (ln_exp 300). assert (0 < 10 ^ 2 / (r * r) ^ 2) by (apply Rdiv_lt_0_compat; [lra|apply pow_lt; nra]).
    destruct (Rle_lt_or_eq_dec _ _ Hle) as [H1|H1]; [left; apply ln_increasing; auto|right; now rewrite H1]. }
  assert (D0 : forall i, (i < 2)%nat -> 0 <= ones i) by (intros; unfold ones; lra).
  assert (D1 : forall i, (i < 2)%nat -> ones i <= 1) by (intros; unfold ones; lra).
  assert (G0 : 4 * 1 * (r * r) <= gamma) by (unfold r; lra).
  destruct (sq_converges 2 ones zeros (sq2_assess (N := RNum)) D0 (proj1 sq2_squares) 1 r 0%nat topts e gamma (le_n 2) (Nat.lt_0_succ 1) eq_refl D1 Rlt_0_1 Hr HP Hxc HB G0 (proj2 sq2_squares) Ht Hm)
    as (e' & gamma' & x & k & Er & V & B).
  exists e', gamma', x, k. split; auto. split; [rewrite V; unfold wsq, ones, zeros; cbn [Rsum num RNum]; ring|]. unfold r in B. lra.
Qed.
(** the bias cut of these oracles removes strictly better points *)
Lemma sq2_removes : exists (x : Arr RNum) (gamma : R) (y : vec) g beta, vecn 2 x /\ sq2_assess (N := RNum) tt x gamma = Ok (tt, gamma, ((g, mkSingle (N := RNum) beta), false)) /\
  wsq 2 ones zeros y < gamma /\ 0 < along 2 (coords g) y (coords x) + beta.
Proof.
  destruct (proj1 sq2_squares tt (mkArr (N := RNum) [2; 0] 2 0) 4) as (g & Vg & Hg & E); [split; reflexivity|].
  exists (mkArr (N := RNum) [2; 0] 2 0), 4, (pair2 1.5 0), g, 4. split; [split; reflexivity|].
  assert (W : wsq 2 ones zeros (coords (mkArr (N := RNum) [2; 0] 2 0)) = 4) by (unfold wsq, ones, zeros, coords; cbn; ring).
  rewrite E, W. rewrite Rlt_bool_false by lra. split; [reflexivity|]. split.
  - unfold wsq, ones, zeros, pair2. cbn [Rsum]. lra.
  - unfold along, dot. cbn [Rsum]. rewrite !Hg by lia. unfold ones, zeros, coords, pair2. cbn [adata nth]. lra.
Qed.
