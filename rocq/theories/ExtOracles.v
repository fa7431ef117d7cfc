(** The oracles of the examples and tests over the extended reals answer finite
    questions as over the reals; a level of minus (plus) infinity acts as an easy
    one. *)
From Coq Require Import Reals List Arith Lia Lra Psatz Bool ZArith.
From Flocq Require Import Core.Raux.
From Verif Require Import Num Res Arr CuttingPlane EllCalc Ell EllRun ArrLemmas EllLemmas Spec RealLin EllSpec EllReal
  RunSpec ExtSpec ExtDefined ExtRunSpec Examples Squares.
Import ListNotations.
Local Open Scope R_scope.

(** the two coordinates of a vector of length 2 *)
Lemma vec2_inv (x : Arr RNum) : vecn 2 x -> exists a b r, x = mkArr (N := RNum) [a; b] r 0.
Proof. intros [H1 H2]. destruct x as [[|a [|b [|]]] r c]; try discriminate. cbn in H2. subst c. exists a, b, r. reflexivity. Qed.

Ltac tests E := repeat (unfold Rminus in E |- *; match type of E with context [Rlt_bool ?p ?q] => let B := fresh "B" in destruct (Rlt_bool p q) eqn:B; cbn in E |- * end).
Ltac fin_tests E := tests E; inversion E; subst; do 2 eexists; (split; [reflexivity|split; reflexivity]).
(** tests that do not depend on the level, then the level's own *)
Ltac free_tests := repeat (unfold Rminus; match goal with |- context [Rlt_bool ?p ?q] => let B := fresh "B" in destruct (Rlt_bool p q) eqn:B; cbn end); unfold Rminus.
Ltac far_case l :=
  first
  [ solve [eexists; exists l; do 2 eexists; exists false; eexists; split; [intros ga Hga; cbn; unfold Rminus; rewrite ?(Rlt_bool_false 0 (ga + - l)) by lra; cbn; unfold Rminus;
      repeat match goal with H : Rlt_bool ?p ?q = ?b |- context [Rlt_bool ?p' ?q'] => change (Rlt_bool p' q') with (Rlt_bool p q); rewrite H; cbn; unfold Rminus end; reflexivity|split; reflexivity]]
  | solve [eexists; exists l; do 2 eexists; exists true; eexists; split; [intros ga Hga; cbn; unfold Rminus; rewrite ?(Rlt_bool_false 0 (ga + - l)) by lra; cbn; unfold Rminus;
      repeat match goal with H : Rlt_bool ?p ?q = ?b |- context [Rlt_bool ?p' ?q'] => change (Rlt_bool p' q') with (Rlt_bool p q); rewrite H; cbn; unfold Rminus end; reflexivity|split; reflexivity]] ].

Lemma ex1_sim : optim_sim fin_single 2 eq same_level (fun (_ : unit) _ => True) (ex1_assess (N := ENum)) (ex1_assess (N := RNum)).
Proof.
  intros oE o x gE gamma o' gamma' g c b -> -> _ Hx E. destruct (vec2_inv x Hx) as (u & v & r & ->).
  unfold ex1_assess in *. cbn in E |- *. unfold Rminus in *. fin_tests E.
Qed.
Lemma ex1_far : far_sim fin_single 2 eq Rle NInf (fun _ : unit => True) (ex1_assess (N := ENum)) (ex1_assess (N := RNum)).
Proof.
  intros oE o x -> _ Hx. destruct (vec2_inv x Hx) as (u & v & r & ->). exists (u + v). unfold ex1_assess. cbn. free_tests; far_case (u + v).
Qed.
Lemma ex1rr_sim : optim_sim fin_single 2 eq same_level (fun (i : Z) _ => (-1 <= i < 3)%Z) (ex1rr_assess (N := ENum)) (ex1rr_assess (N := RNum)).
Proof.
  intros oE o x gE gamma o' gamma' g c b -> -> Hi Hx E. destruct (vec2_inv x Hx) as (u & v & r & ->).
  assert (Ho : o = (-1)%Z \/ o = 0%Z \/ o = 1%Z \/ o = 2%Z) by lia. clear Hi.
  destruct Ho as [-> |[-> |[-> | ->]]]; unfold ex1rr_assess, round_robin, loop_range in *; cbn in E |- *; unfold Rminus in *; cbn in E |- *; fin_tests E.
Qed.
Lemma ex1rr_far : far_sim fin_single 2 eq Rle NInf (fun i : Z => (-1 <= i < 3)%Z) (ex1rr_assess (N := ENum)) (ex1rr_assess (N := RNum)).
Proof.
  intros oE o x -> Hi Hx. destruct (vec2_inv x Hx) as (u & v & r & ->). exists (u + v).
  assert (Ho : o = (-1)%Z \/ o = 0%Z \/ o = 1%Z \/ o = 2%Z) by lia. clear Hi.
  destruct Ho as [-> |[-> |[-> | ->]]]; unfold ex1rr_assess, round_robin, loop_range; cbn; free_tests; far_case (u + v).
Qed.
Lemma ex4_sim : optim_sim fin_single 2 eq same_level (fun (i : Z) _ => (-1 <= i < 4)%Z) (ex4_assess (N := ENum)) (ex4_assess (N := RNum)).
Proof.
  intros oE o x gE gamma o' gamma' g c b -> -> Hi Hx E. destruct (vec2_inv x Hx) as (u & v & r & ->).
  assert (Ho : o = (-1)%Z \/ o = 0%Z \/ o = 1%Z \/ o = 2%Z \/ o = 3%Z) by lia. clear Hi.
  destruct Ho as [-> |[-> |[-> |[-> | ->]]]]; unfold ex4_assess, round_robin, loop_range in *; cbn in E |- *; unfold Rminus in *; cbn in E |- *; fin_tests E.
Qed.
Lemma ex4_far : far_sim fin_single 2 eq Rle NInf (fun i : Z => (-1 <= i < 4)%Z) (ex4_assess (N := ENum)) (ex4_assess (N := RNum)).
Proof.
  intros oE o x -> Hi Hx. destruct (vec2_inv x Hx) as (u & v & r & ->).
  assert (Ho : o = (-1)%Z \/ o = 0%Z \/ o = 1%Z \/ o = 2%Z \/ o = 3%Z) by lia. clear Hi. exists (2 * u + - (3 * v)).
  destruct Ho as [-> |[-> |[-> |[-> | ->]]]]; unfold ex4_assess, round_robin, loop_range; cbn; free_tests; far_case (2 * u + - (3 * v)).
Qed.

(** example 3: a feasibility oracle with a target *)
Definition ex3_rel (oE : Ex3 ENum) (o : Ex3 RNum) : Prop := ex3_idx oE = ex3_idx o /\ ex3_target oE = Fin (ex3_target o).
Lemma ex3_sim : feas_sim fin_single 2 ex3_rel (fun o => (-1 <= ex3_idx o < 4)%Z) (ex3_oracle (N := ENum)) (ex3_oracle (N := RNum)).
Proof.
  intros [i tE] [j t] x o' ans [H1 H2] Hi Hx E. cbn in H1, H2, Hi. subst i tE. destruct (vec2_inv x Hx) as (u & v & r & ->).
  assert (Ho : j = (-1)%Z \/ j = 0%Z \/ j = 1%Z \/ j = 2%Z \/ j = 3%Z) by lia. clear Hi.
  destruct Ho as [-> |[-> |[-> |[-> | ->]]]]; unfold ex3_oracle, of_assess, ex3_assess, round_robin, loop_range in *; cbn in E |- *; unfold Rminus in *; cbn in E |- *;
    (tests E; inversion E; subst; eexists; (split; [reflexivity|split; reflexivity])).
Qed.

(** quasicvx *)
Lemma div_exp (a b : R) : ext_div (Fin a) (Fin (exp b)) = Fin (a / exp b).
Proof. cbn. rewrite Req_bool_false; [reflexivity|]. pose proof (exp_pos b). lra. Qed.
Lemma qcvx_sim : optim_sim fin_single 2 eq same_level (fun (i : Z) _ => (-1 <= i < 2)%Z) (qcvx_assess (N := ENum)) (qcvx_assess (N := RNum)).
Proof.
  intros oE o x gE gamma o' gamma' g c b -> -> Hi Hx E. destruct (vec2_inv x Hx) as (u & v & r & ->).
  assert (Ho : o = (-1)%Z \/ o = 0%Z \/ o = 1%Z) by lia. clear Hi.
  assert (Hz : Req_bool (exp v) 0 = false) by (apply Req_bool_false; pose proof (exp_pos v); lra).
  destruct Ho as [-> |[-> | ->]]; unfold qcvx_assess, round_robin, loop_range in *; cbn in E |- *; unfold Rminus in *; cbn in E |- *; 
   (tests E; try rewrite Hz; inversion E; subst; do 2 eexists; (split; [reflexivity|split; reflexivity])).
Qed.

(** ** The profit oracle *)
From Verif Require Import ExSpec Profit ProfitSpec ProfitConv.
Definition fin_profit (p : Profit RNum) : Profit ENum :=
  mkProfit (N := ENum) (p_idx p) (Fin (p_log_p_scale p)) (Fin (p_log_k p)) (fin_arr (p_price_out p)) (fin_arr (p_elast p)) (Fin (p_log_cobb p)) (Fin (p_vx p)) (fin_arr (p_q p)).
Lemma ln_fin (a : R) : 0 < a -> nln (n := ENum) (Fin a) = Fin (ln a).
Proof. intros H. cbn. rewrite Rle_bool_false; auto. Qed.
Lemma profit_sim m : sane m -> optim_sim fin_single 2 (fun pE p => pE = fin_profit p) same_level (inv_profit m) (profit_assess (N := ENum)) (profit_assess (N := RNum)).
Proof.
  intros Sane oE p x gE gamma o' gamma' g c b -> -> ((Hi & Hp & Ha) & Hab & Hga) Hx E. destruct (vec2_inv x Hx) as (u & v & r & ->).
  destruct p as [i lps lk po el lc vx q]. cbn in Hi, Hp, Ha. destruct (vec2_inv po Hp) as (p0 & p1 & rp & ->). destruct (vec2_inv el Ha) as (a0 & a1 & ra & ->).
  assert (Hv : 0 < gamma + (p0 * exp u + p1 * exp v)).
  { destruct Hab as (_ & _ & Hm). destruct (Hm 0%nat ltac:(lia)) as [M0 _]. destruct (Hm 1%nat ltac:(lia)) as [M1 _]. cbn in M0, M1. destruct Sane as (_ & _ & S0 & S1 & S2). rewrite <- M0, <- M1 in *.
    pose proof (exp_pos u). pose proof (exp_pos v). assert (0 <= p0 * exp u) by nra. assert (0 <= p1 * exp v) by nra.
    destruct (Rle_lt_or_eq_dec _ _ S0) as [P|P]; [assert (0 < p0 * exp u) by nra; lra|assert (0 < p1 * exp v) by nra; lra]. }
  assert (Ho : i = (-1)%Z \/ i = 0%Z \/ i = 1%Z) by lia. clear Hi.
  assert (Hz : forall w, Req_bool (exp w) 0 = false) by (intros w; apply Req_bool_false; pose proof (exp_pos w); lra).
  assert (Hz2 : Req_bool (gamma + (p0 * exp u + p1 * exp v)) 0 = false) by (apply Req_bool_false; lra).
  assert (Hz3 : Rle_bool (gamma + (p0 * exp u + p1 * exp v)) 0 = false) by (apply Rle_bool_false; lra).
  destruct Ho as [-> |[-> | ->]]; unfold profit_assess, profit_feas, round_robin, loop_range in *; cbn in E |- *; unfold Rminus in *; cbn in E |- *; rewrite ?Hz3.
  all: repeat (rewrite ?Hz3; cbn in E |- *; unfold Rminus in E |- *; match type of E with context [Rlt_bool ?p ?q] => let B := fresh "B" in destruct (Rlt_bool p q) eqn:B end);
    rewrite ?Hz3; cbn in E |- *; unfold Rminus in E |- *; repeat (match goal with H : Rlt_bool ?p ?q = _ |- context [Rlt_bool ?p' ?q'] => change (Rlt_bool p' q') with (Rlt_bool p q); rewrite H end; cbn); rewrite ?Hz2, ?Hz; cbn.
  all: inversion E; subst; do 2 eexists; (split; [reflexivity|split; reflexivity]).
Qed.

(** ** The sums of squares *)
Definition sq_shape (n : nat) (oraE : OracleOptim ENum (Arr ENum) (SingleCut ENum) unit) (ora : OracleOptim RNum (Arr RNum) (SingleCut RNum) unit) : Prop :=
  forall o x, vecn n x -> exists g (f : R), (forall ga : R, ora o x ga = Ok (sq_finish (N := RNum) g f ga)) /\
    (forall gE, oraE o (fin_arr x) gE = Ok (sq_finish (N := ENum) (fin_arr g) (Fin f) gE)).
Lemma shape_sim n oraE ora : sq_shape n oraE ora -> optim_sim fin_single n eq same_level (fun (_ : unit) _ => True) oraE ora.
Proof.
  intros H oE o x gE gamma o' gamma' g c b -> -> _ Hx E. destruct (H o x Hx) as (g1 & f & E1 & E2). rewrite E1 in E. rewrite E2. unfold sq_finish in *.
  change (nltb (n := ENum) (Fin f) (Fin gamma)) with (Rlt_bool f gamma). change (nltb (n := RNum) f gamma) with (Rlt_bool f gamma) in E.
  destruct (Rlt_bool f gamma); inversion E; subst; do 2 eexists; (split; [reflexivity|split; reflexivity]).
Qed.
Lemma shape_far n oraE ora : sq_shape n oraE ora -> far_sim fin_single n eq Rge PInf (fun _ : unit => True) oraE ora.
Proof.
  intros H oE o x -> _ Hx. destruct (H o x Hx) as (g1 & f & E1 & E2). exists (f + 1), tt, f, g1, (mkSingle (N := RNum) f), true, tt.
  split; [|split; [rewrite E2; reflexivity|]].
  - intros ga Hga. rewrite E1. unfold sq_finish. change (nltb (n := RNum) f ga) with (Rlt_bool f ga). rewrite Rlt_bool_true by lra. reflexivity.
  - destruct o. reflexivity.
Qed.
Lemma sq2_shape : sq_shape 2 (sq2_assess (N := ENum)) (sq2_assess (N := RNum)).
Proof. intros o x Hx. destruct (vec2_inv x Hx) as (u & v & r & ->). do 2 eexists. split; intros ga; reflexivity. Qed.
Lemma sqs_shape (s : R) : sq_shape 2 (sqs_assess (N := ENum) (Fin s)) (sqs_assess (N := RNum) s).
Proof. intros o x Hx. destruct (vec2_inv x Hx) as (u & v & r & ->). do 2 eexists. split; intros ga; reflexivity. Qed.
Lemma sqc_shape (c : R) : c <> 0 -> sq_shape 2 (sqc_assess (N := ENum) (Fin c)) (sqc_assess (N := RNum) c).
Proof.
  intros Hc o x Hx. destruct (vec2_inv x Hx) as (u & v & r & ->).
  assert (H1 : Req_bool c 0 = false) by (apply Req_bool_false; auto).
  assert (H2 : Req_bool (1 / c) 0 = false) by (apply Req_bool_false; unfold Rdiv; rewrite Rmult_1_l; apply Rinv_neq_0_compat; auto).
  do 2 eexists. split; [intros ga; reflexivity|]. intros gE. unfold sqc_assess. cbn. rewrite H1. cbn. rewrite H2. reflexivity.
Qed.
Lemma zip_fin (f : R -> R -> R) (fE : ext -> ext -> ext) : (forall a b, fE (Fin a) (Fin b) = Fin (f a b)) -> forall l m,
  zipwith (N := ENum) fE (map Fin l) (map Fin m) = map Fin (zipwith (N := RNum) f l m).
Proof. intros H l. induction l as [|a l IH]; intros [|b m]; cbn; auto. now rewrite H, IH. Qed.
Lemma sum_fin l : isum (N := ENum) (map Fin l) = Fin (isum (N := RNum) l).
Proof.
  unfold isum. assert (G : forall l a, fold_left (nadd (n := ENum)) (map Fin l) (Fin a) = Fin (fold_left (nadd (n := RNum)) l a)).
  { clear l. induction l as [|b l IH]; intros a; [reflexivity|]. exact (IH (a + b)). }
  exact (G l 0).
Qed.
Lemma zip_len (f : R -> R -> R) l : forall m, length l = length m -> length (zipwith (N := RNum) f l m) = length l.
Proof. induction l as [|a l IH]; intros [|b m] H; cbn in *; auto. Qed.
Lemma map_fin (f : R -> R) (fE : ext -> ext) : (forall a, fE (Fin a) = Fin (f a)) -> forall l, map fE (map Fin l) = map Fin (map f l).
Proof. intros H l. rewrite !map_map. apply map_ext. intros a. apply H. Qed.
Lemma sqt_shape n (t : Arr RNum) : vecn n t -> sq_shape n (sqt_assess (N := ENum) (fin_arr t)) (sqt_assess (N := RNum) t).
Proof.
  intros [T1 T2] o x [X1 X2]. destruct t as [t tr tc], x as [x xr xc]. cbn in T1, T2, X1, X2. subst tc xc.
  exists (a_muls (N := RNum) (mkArr (N := RNum) (zipwith (N := RNum) Rminus x t) xr 0) 2),
    (isum (N := RNum) (zipwith (N := RNum) Rmult (zipwith (N := RNum) Rminus x t) (zipwith (N := RNum) Rminus x t))).
  cbn [num RNum] in *. split; intros ga; unfold sqt_assess, a_sub, a_zip, a_dot, a_len, a_is_2d; cbn [adata arows acols fin_arr].
  - cbn [num RNum] in *. rewrite X1, T1, Nat.eqb_refl. cbn [assert bind adata acols]. rewrite Nat.eqb_refl. reflexivity.
  - rewrite !map_length. cbn [num RNum] in *. rewrite X1, T1, Nat.eqb_refl. cbn [assert bind adata acols arows]. rewrite Nat.eqb_refl. change (0 <? 0)%nat with false. cbn [negb andb assert bind].
    rewrite (zip_fin Rminus (nsub (n := ENum)) ext_sub_fin). 
    rewrite (zip_fin Rmult (nmul (n := ENum)) (fun a b => eq_refl)). rewrite sum_fin. unfold a_muls, a_mapd, fin_arr. cbn [adata arows acols].
    rewrite (map_fin (fun v => v * 2) (fun v => nmul (n := ENum) v (@n2 ENum)) (fun a => eq_refl)). reflexivity.
Qed.
Lemma upd_map {A B} (f : A -> B) l : forall i v, upd (map f l) i (f v) = map f (upd l i v).
Proof. induction l as [|a l IH]; intros [|i] v; cbn; auto. now rewrite IH. Qed.
Lemma rep_map n : map Fin (repeat 0 n) = repeat (Fin 0) n.
Proof. induction n as [|n IH]; cbn; [reflexivity|]. now rewrite IH. Qed.
Lemma sqn_shape n : sq_shape n (sqn_assess (N := ENum) n) (sqn_assess (N := RNum) n).
Proof.
  intros o x [X1 X2]. unfold sqn_assess, for_range.
  assert (L : forall k lo (g : Arr RNum) (f : R), (lo + k <= n)%nat -> length (adata g) = n -> exists g' f',
    for_up k lo (fun i '(gradient, f) => y <- a_idx x i ;; gradient <- a_setidx gradient i (@n2 RNum *! y) ;; Ok (gradient, f +! y *! y)) (g, f) = Ok (g', f') /\
    for_up k lo (fun i '(gradient, f) => y <- a_idx (fin_arr x) i ;; gradient <- a_setidx gradient i (@n2 ENum *! y) ;; Ok (gradient, f +! y *! y)) (fin_arr g, Fin f) = Ok (fin_arr g', Fin f')).
  { induction k as [|k IH]; intros lo g f Hk Hg; cbn [for_up]; [eauto|].
    destruct (nth_error (adata x) lo) as [y|] eqn:Ey; [|apply nth_error_None in Ey; lia].
    set (g1 := mkArr (N := RNum) (upd (adata g) lo (2 * y)) (arows g) (acols g)).
    assert (A1 : a_idx x lo = Ok y) by (unfold a_idx, rd; rewrite Ey; reflexivity).
    assert (A2 : a_idx (fin_arr x) lo = Ok (Fin y)) by (unfold a_idx, rd, fin_arr; cbn [adata]; pose proof (map_nth_error Fin lo (adata x) Ey) as M; cbn [num RNum ENum] in *; rewrite M; reflexivity).
    assert (Lt : (lo <? n)%nat = true) by (apply Nat.ltb_lt; lia).
    assert (A3 : a_setidx g lo (@n2 RNum *! y) = Ok g1) by (unfold a_setidx, wr; rewrite Hg, Lt; reflexivity).
    assert (A4 : a_setidx (fin_arr g) lo (@n2 ENum *! (Fin y : ENum)) = Ok (fin_arr g1)).
    { unfold a_setidx, wr, fin_arr, g1. cbn [adata arows acols]. pose proof (map_length Fin (adata g)) as M. cbn [num RNum ENum] in *. rewrite M, Hg, Lt. cbn [bind].
      f_equal. f_equal. exact (upd_map Fin (adata g) lo (2 * y)). }
    destruct (IH (S lo) g1 (f + y * y)) as (g' & f' & E1 & E2); [lia|unfold g1; cbn [adata]; rewrite upd_length; exact Hg|].
    exists g', f'. rewrite A1, A2. cbn [bind]. rewrite A3, A4. cbn [bind]. split; [exact E1|exact E2]. }
  destruct (L n 0%nat (a_new (N := RNum) n) 0) as (g' & f' & E1 & E2); [lia|cbn; apply repeat_length|].
  exists g', f'. rewrite Nat.sub_0_r. split; intros ga.
  - match goal with |- bind ?u ?K = _ => exact (eq_trans (f_equal (fun r => bind r K) E1) eq_refl) end.
  - assert (Z : fin_arr (a_new (N := RNum) n) = a_new (N := ENum) n).
    { unfold fin_arr, a_new. cbn [adata arows acols]. f_equal. exact (rep_map n). }
    rewrite Z in E2. match goal with |- bind ?u ?K = _ => exact (eq_trans (f_equal (fun r => bind r K) E2) eq_refl) end.
Qed.
