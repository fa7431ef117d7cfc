(** The tests' own runs, over the extended reals and from the infinite levels
    that they start with. *)
From Coq Require Import Reals List Arith Lia Lra Psatz Bool ZArith.
From Flocq Require Import Core.Raux.
From Verif Require Import Num Res Arr CuttingPlane EllCalc Ell EllRun ArrLemmas EllLemmas Spec RealLin EllSpec EllReal EllCuts EllMore
  Det RunSpec RunProofs ExtSpec ExtDefined ExtRunSpec ExtRun ExtOracles Examples ExSpec ExConv Squares SquaresSpec SquaresProofs.
Import ListNotations.
Local Open Scope R_scope.

(** ** The constructors *)
Lemma with_matrix_fin n (k : R) (mq xc : Arr RNum) : (2 <= n)%nat -> length (adata xc) = n ->
  ell_new_with_matrix (N := ENum) (Fin k) (fin_arr mq) (fin_arr xc) = fin_ell (ell_new_with_matrix (N := RNum) k mq xc).
Proof.
  intros Hn Hl. unfold ell_new_with_matrix, fin_ell. cbn [e_no_defer e_mq e_xc e_kappa e_helper e_tsq].
  assert (Hl1 : a_len xc = n) by exact Hl. assert (Hl2 : a_len (fin_arr xc) = n) by (unfold a_len, fin_arr; cbn [adata]; rewrite map_length; exact Hl).
  rewrite Hl1, Hl2, (calc_new_fin n Hn). reflexivity.
Qed.
Lemma new_scalar_fin n (val : R) (xc : Arr RNum) (e : Ell RNum) : (2 <= n)%nat -> length (adata xc) = n ->
  ell_new_with_scalar (N := RNum) val xc = Ok e -> ell_new_with_scalar (N := ENum) (Fin val) (fin_arr xc) = Ok (fin_ell e).
Proof.
  intros Hn Hl E. unfold ell_new_with_scalar in *. assert (Hl2 : a_len (fin_arr xc) = n) by (unfold a_len, fin_arr; cbn [adata]; rewrite map_length; exact Hl).
  rewrite Hl2. unfold a_len in E. rewrite Hl in E.
  destruct (a_eye_ok (N := RNum) n) as (d & E1 & L1 & H1). destruct (a_eye_ok (N := ENum) n) as (dE & E2 & L2 & H2).
  rewrite E1 in E. rewrite E2. cbn [bind] in *. inversion E; subst e. rewrite <- (with_matrix_fin n) by auto. f_equal. f_equal.
  apply (fin_arr_mat n); [lia|split; [|split]; auto|split; [|split]; auto|]. intros i j Hi Hj. cbn [adata]. rewrite H1, H2 by auto. destruct (i =? j)%nat; reflexivity.
Qed.
Lemma new_fin n (val xc : Arr RNum) (e : Ell RNum) : (2 <= n)%nat -> vecn n val -> length (adata xc) = n ->
  ell_new (N := RNum) val xc = Ok e -> ell_new (N := ENum) (fin_arr val) (fin_arr xc) = Ok (fin_ell e).
Proof.
  intros Hn Hv Hl E. unfold ell_new in *.
  destruct (a_from_diag_ok (N := RNum) n val Hv) as (d & E1 & L1 & H1). destruct (a_from_diag_ok (N := ENum) n (fin_arr val) (fin_vec n val Hv)) as (dE & E2 & L2 & H2).
  rewrite E1 in E. rewrite E2. cbn [bind] in *. inversion E; subst e. rewrite <- (with_matrix_fin n) by auto. f_equal. f_equal.
  apply (fin_arr_mat n); [lia|split; [|split]; auto|split; [|split]; auto|]. intros i j Hi Hj. cbn [adata]. rewrite H1, H2 by auto. destruct (i =? j)%nat; [|reflexivity].
  apply vget_fin.
Qed.

(** ** Valid cuts are deep cuts *)
Lemma cuts_deep {C O} sat (deep : C -> Prop) n (Inv : O -> R -> Prop) beats (ora : OracleOptim RNum (Arr RNum) C O) :
  optim_cuts sat deep n Inv beats ora -> optim_deep n deep Inv ora.
Proof. intros H o x gamma o' gamma' g c sh HI Hx E. destruct (H o x gamma o' gamma' g c sh HI Hx E) as (A & B & D & _). auto. Qed.
Lemma feas_cuts_deep {C O} sat (deep : C -> Prop) n (Inv : O -> Prop) K (ora : OracleFeas RNum (Arr RNum) C O) :
  feas_cuts sat deep n Inv K ora -> feas_deep n deep Inv ora.
Proof. intros H o x o' ans HI Hx E. destruct (H o x o' ans HI Hx E) as (A & B). split; auto. intros g c ->. destruct B as (B1 & B2 & _). auto. Qed.

Lemma le_dir : forall a b : R, exists c, forall ga, ga <= c -> ga <= a /\ ga <= b.
Proof. intros a b. exists (Rmin a b). intros ga H. pose proof (Rmin_l a b). pose proof (Rmin_r a b). lra. Qed.
Lemma ge_dir : forall a b : R, exists c, forall ga, ga >= c -> ga >= a /\ ga >= b.
Proof. intros a b. exists (Rmax a b). intros ga H. pose proof (Rmax_l a b). pose proof (Rmax_r a b). lra. Qed.
Lemma def_tol : 0 < tolerance (options_default (N := RNum)).
Proof. cbn. rewrite Rmult_1_l. apply Rinv_0_lt_compat. apply pow_lt. lra. Qed.
Lemma def_opts : options_default (N := ENum) = fin_options (options_default (N := RNum)). Proof. reflexivity. Qed.
Lemma origin_fin : fin_arr origin2 = mkArr (N := ENum) [Fin 0; Fin 0] 2 0. Proof. reflexivity. Qed.

Section Runs.
Variable val : R.
Hypotheses (Hv : 20 <= val <= 10 ^ 20).
Notation E2 := (mkArr (N := ENum) [Fin 0; Fin 0] 2 0).
Lemma ex1_from_neg_inf : exists eE, ell_new_with_scalar (N := ENum) (Fin val) E2 = Ok eE /\
  exists e' x k (gamma' : R), cutting_plane_optim (ex1_assess (N := ENum)) (ell_space (N := ENum) single_cut) options_default tt eE NInf = Ok (tt, e', Fin gamma', (Some (fin_arr x), k)) /\
    prob1 (coords x 0%nat) (coords x 1%nat) /\ gamma' = obj1 (coords x 0%nat) (coords x 1%nat) /\ 3 - 4 / 10 ^ 10 < gamma' <= 3.
Proof.
  destruct (disc_real val ltac:(lra)) as (e & E & HP & _). exists (fin_ell e). split; [exact (new_scalar_fin 2 val origin2 e ltac:(lia) eq_refl E)|].
  destruct (optim_far single_cut single_cut fin_single single_deep 2 eq ltac:(lia) Rle NInf (fun _ : unit => True) (ex1_assess (N := ENum)) (ex1_assess (N := RNum)) options_default
    Rle_refl le_dir (single_defined_ok Bias (or_introl eq_refl)) (single_defined_ok Central (or_intror eq_refl)) ex1_sim ex1_far (cuts_deep _ _ _ _ _ _ (max2_cuts _ _ _ _ ex1_good1)) def_tol tt tt e eq_refl I (proj1 HP) (disc_xc _ _ E)) as (T & HT).
  destruct (ex1_converges val (Rmin 2 T) Hv (Rmin_l 2 T)) as (e0 & E0 & e' & ga & x & k & Er & H1 & H2 & H3). rewrite E in E0. inversion E0; subst e0.
  destruct (HT (Rmin 2 T) (Rmin_r 2 T) _ _ _ _ _ Er) as ([] & eE & gE' & EE & _ & [[HH _]| ->] & _); [discriminate|].
  exists eE, x, k, ga. rewrite def_opts. split; [exact EE|]. auto.
Qed.
Lemma ex1rr_from_neg_inf : exists eE, ell_new_with_scalar (N := ENum) (Fin val) E2 = Ok eE /\
  exists i' e' x k (gamma' : R), cutting_plane_optim (ex1rr_assess (N := ENum)) (ell_space (N := ENum) single_cut) options_default (-1)%Z eE NInf = Ok (i', e', Fin gamma', (Some (fin_arr x), k)) /\
    prob1 (coords x 0%nat) (coords x 1%nat) /\ gamma' = obj1 (coords x 0%nat) (coords x 1%nat) /\ 3 - 4 / 10 ^ 10 < gamma' <= 3.
Proof.
  destruct (disc_real val ltac:(lra)) as (e & E & HP & _). exists (fin_ell e). split; [exact (new_scalar_fin 2 val origin2 e ltac:(lia) eq_refl E)|].
  destruct (optim_far single_cut single_cut fin_single single_deep 2 eq ltac:(lia) Rle NInf (fun i : Z => (-1 <= i < 3)%Z) (ex1rr_assess (N := ENum)) (ex1rr_assess (N := RNum)) options_default
    Rle_refl le_dir (single_defined_ok Bias (or_introl eq_refl)) (single_defined_ok Central (or_intror eq_refl)) ex1rr_sim ex1rr_far (cuts_deep _ _ _ _ _ _ (max2_cuts _ _ _ _ ex1rr_good1)) def_tol (-1)%Z (-1)%Z e eq_refl (conj (Z.le_refl _) eq_refl) (proj1 HP) (disc_xc _ _ E)) as (T & HT).
  destruct (ex1rr_converges val (Rmin 2 T) Hv (Rmin_l 2 T)) as (e0 & E0 & i' & e' & ga & x & k & Er & H1 & H2 & H3). rewrite E in E0. inversion E0; subst e0.
  destruct (HT (Rmin 2 T) (Rmin_r 2 T) _ _ _ _ _ Er) as (oE' & eE & gE' & EE & -> & [[HH _]| ->] & _); [discriminate|].
  exists i', eE, x, k, ga. rewrite def_opts. split; [exact EE|]. auto.
Qed.
Lemma ex4_from_neg_inf : exists eE, ell_new_with_scalar (N := ENum) (Fin val) E2 = Ok eE /\
  exists i' e' x k (gamma' : R), cutting_plane_optim (ex4_assess (N := ENum)) (ell_space (N := ENum) single_cut) options_default (-1)%Z eE NInf = Ok (i', e', Fin gamma', (Some (fin_arr x), k)) /\
    prob4 (coords x 0%nat) (coords x 1%nat) /\ gamma' = obj4 (coords x 0%nat) (coords x 1%nat) /\ 12 - 14 / 10 ^ 10 < gamma' <= 12.
Proof.
  destruct (disc_real val ltac:(lra)) as (e & E & HP & _). exists (fin_ell e). split; [exact (new_scalar_fin 2 val origin2 e ltac:(lia) eq_refl E)|].
  destruct (optim_far single_cut single_cut fin_single single_deep 2 eq ltac:(lia) Rle NInf (fun i : Z => (-1 <= i < 4)%Z) (ex4_assess (N := ENum)) (ex4_assess (N := RNum)) options_default
    Rle_refl le_dir (single_defined_ok Bias (or_introl eq_refl)) (single_defined_ok Central (or_intror eq_refl)) ex4_sim ex4_far (cuts_deep _ _ _ _ _ _ (max2_cuts _ _ _ _ ex4_good1)) def_tol (-1)%Z (-1)%Z e eq_refl (conj (Z.le_refl _) eq_refl) (proj1 HP) (disc_xc _ _ E)) as (T & HT).
  destruct (ex4_converges val (Rmin 11 T) Hv (Rmin_l 11 T)) as (e0 & E0 & i' & e' & ga & x & k & Er & H1 & H2 & H3). rewrite E in E0. inversion E0; subst e0.
  destruct (HT (Rmin 11 T) (Rmin_r 11 T) _ _ _ _ _ Er) as (oE' & eE & gE' & EE & -> & [[HH _]| ->] & _); [discriminate|].
  exists i', eE, x, k, ga. rewrite def_opts. split; [exact EE|]. auto.
Qed.
End Runs.

(** example 3 *)
Lemma ex3_over_E (val target : R) : 20 <= val <= 10 ^ 20 -> -8 + 16 / 10 ^ 10 <= target ->
  exists eE, ell_new_with_scalar (N := ENum) (Fin val) (mkArr (N := ENum) [Fin 0; Fin 0] 2 0) = Ok eE /\
  exists o' e' x k, cutting_plane_feas (ex3_oracle (N := ENum)) (ell_space (N := ENum) single_cut) options_default (mkEx3 (N := ENum) (-1) (Fin target)) eE = Ok (o', e', (Some (fin_arr x), k)) /\
    prob4 (coords x 0%nat) (coords x 1%nat) /\ obj4 (coords x 0%nat) (coords x 1%nat) <= target.
Proof.
  intros Hv Ht. destruct (disc_real val ltac:(lra)) as (e & E & HP & _). exists (fin_ell e). split; [exact (new_scalar_fin 2 val origin2 e (le_n 2) eq_refl E)|].
  destruct (ex3_converges val target Hv Ht) as (e0 & E0 & o' & e' & x & k & Er & H1 & H2). rewrite E in E0. inversion E0; subst e0.
  assert (Hs : feas_sim fin_single 2 ex3_rel (inv3 target) (ex3_oracle (N := ENum)) (ex3_oracle (N := RNum)))
    by (intros oE o y o2 an HR [HI _]; exact (ex3_sim oE o y o2 an HR HI)).
  assert (HI : inv3 target (mkEx3 (N := RNum) (-1) target)) by (split; [split; [apply Z.le_refl|reflexivity]|reflexivity]).
  assert (HR : ex3_rel (mkEx3 (N := ENum) (-1) (Fin target)) (mkEx3 (N := RNum) (-1) target)) by (split; reflexivity).
  destruct (feas_follows single_cut single_cut fin_single single_deep 2 ex3_rel (le_n 2) (inv3 target) (ex3_oracle (N := ENum)) (ex3_oracle (N := RNum)) options_default
    (mkEx3 (N := ENum) (-1) (Fin target)) (mkEx3 (N := RNum) (-1) target) e o' e' (Some x) k (single_defined_ok Bias (or_introl eq_refl)) Hs
    (feas_cuts_deep _ _ _ _ _ _ (ex3_cuts target)) HR HI (proj1 HP) (disc_xc _ _ E) def_tol Er) as (oE' & eE & EE & _).
  exists oE', eE, x, k. split; [exact EE|]. auto.
Qed.

(** ** sums of squares from plus infinity *)
Section Squares.
Variables (n : nat) (d t : vec) (oraE : OracleOptim ENum (Arr ENum) (SingleCut ENum) unit) (ora : OracleOptim RNum (Arr RNum) (SingleCut RNum) unit).
Hypotheses (Hd : forall i, (i < n)%nat -> 0 <= d i) (Ho : sq_oracle n d t ora) (Hs : sq_shape n oraE ora) (Hv : sq_value n d t ora).
Lemma sq_from_inf M r j (opt : Options RNum) (e : Ell RNum) : (2 <= n)%nat -> (j < n)%nat -> d j = M -> (forall i, (i < n)%nat -> d i <= M) ->
  0 < M -> 0 < r -> proper n e -> vecn n (e_xc e) -> (forall y, ball n t r y -> pts n e y) ->
  0 < tolerance opt <= (8 * M * (r * r)) * (8 * M * (r * r)) -> (INR n + 1) * ln (vol2 n e / (r * r) ^ n) < INR (max_iters opt) ->
  exists e' (gamma' : R) x k, cutting_plane_optim oraE (ell_space (N := ENum) single_cut) (fin_options opt) tt (fin_ell e) PInf = Ok (tt, e', Fin gamma', (Some (fin_arr x), k)) /\
    gamma' = wsq n d t (coords x) /\ gamma' < 4 * M * (r * r).
Proof.
  intros Hn Hj Hm HM M0 Hr HP Hxc HB [Ht0 Ht] Hmax.
  destruct (optim_far single_cut single_cut fin_single single_deep n eq Hn Rge PInf (fun _ : unit => True) oraE ora opt
    Rge_refl ge_dir (single_defined_ok Bias (or_introl eq_refl)) (single_defined_ok Central (or_intror eq_refl)) (shape_sim _ _ _ Hs) (shape_far _ _ _ Hs)
    (cuts_deep _ _ _ _ _ _ (sq_cuts n d t ora Hd Ho)) Ht0 tt tt e eq_refl I (proj1 HP) Hxc) as (T & HT).
  destruct (sq_converges n d t ora Hd Ho M r j opt e (Rmax (4 * M * (r * r)) T) Hn Hj Hm HM M0 Hr HP Hxc HB (Rmax_l _ _) Hv Ht Hmax) as (e' & ga & x & k & Er & H1 & H2).
  destruct (HT (Rmax (4 * M * (r * r)) T) (Rle_ge _ _ (Rmax_r _ _)) _ _ _ _ _ Er) as ([] & eE & gE' & EE & _ & [[HH _]| ->] & _); [discriminate|].
  exists eE, ga, x, k. split; [exact EE|]. auto.
Qed.
End Squares.
Lemma test_from_inf (s : R) : s = 1 \/ s = -1 ->
  exists eE, ell_new_with_scalar (N := ENum) (Fin 10) (mkArr (N := ENum) [Fin s; Fin s] 2 0) = Ok eE /\
  exists e' (gamma' : R) x k, cutting_plane_optim (sq2_assess (N := ENum)) (ell_space (N := ENum) single_cut) (mkOptions (N := ENum) 1000 (Fin (/ 10 ^ 10))) tt eE PInf = Ok (tt, e', Fin gamma', (Some (fin_arr x), k)) /\
    gamma' = coords x 0%nat * coords x 0%nat + coords x 1%nat * coords x 1%nat /\ gamma' < 16 / 10 ^ 6.
Proof.
  intros H1. destruct (new_scalar_real 2 10 (start11 s) (Nat.lt_0_succ 1) ltac:(lra) eq_refl) as (e & E & HP & _). exists (fin_ell e).
  split; [exact (new_scalar_fin 2 10 (start11 s) e (le_n 2) eq_refl E)|].
  assert (Hxc : vecn 2 (e_xc e)) by (rewrite (new_scalar_xc _ _ _ E); split; reflexivity).
  assert (Ht0 : 0 < tolerance topts) by (cbn [tolerance topts]; apply Rinv_0_lt_compat, pow_lt; lra).
  assert (D0 : forall i, (i < 2)%nat -> 0 <= ones i) by (intros; unfold ones; lra).
  destruct (optim_far single_cut single_cut fin_single single_deep 2 eq (le_n 2) Rge PInf (fun _ : unit => True) (sq2_assess (N := ENum)) (sq2_assess (N := RNum)) topts
    Rge_refl ge_dir (single_defined_ok Bias (or_introl eq_refl)) (single_defined_ok Central (or_intror eq_refl)) (shape_sim _ _ _ sq2_shape) (shape_far _ _ _ sq2_shape)
    (cuts_deep _ _ _ _ _ _ (sq_cuts 2 ones zeros _ D0 (proj1 sq2_squares))) Ht0 tt tt e eq_refl I (proj1 HP) Hxc) as (T & HT).
  destruct (test_converges s (Rmax 2 T) H1 (Rmax_l _ _)) as (e0 & E0 & e' & ga & x & k & Er & V & B). rewrite E in E0. inversion E0; subst e0.
  destruct (HT (Rmax 2 T) (Rle_ge _ _ (Rmax_r _ _)) _ _ _ _ _ Er) as ([] & eE & gE' & EE & _ & [[HH _]| ->] & _); [discriminate|].
  exists eE, ga, x, k. split; [exact EE|]. auto.
Qed.

(** ** bsearch over adaptors *)
Lemma bs_adaptor_follows {O OE : Type} n (rel : OE -> O -> Prop) (Inv : O -> Prop) (oraE : OracleFeas ENum (Arr ENum) (SingleCut ENum) OE) (ora : OracleFeas RNum (Arr RNum) (SingleCut RNum) O)
    (opt opt2 : Options RNum) oE o (e : Ell RNum) (l u : R) b' iv ans : (2 <= n)%nat ->
  feas_sim fin_single n rel Inv oraE ora -> feas_deep n single_deep Inv ora ->
  (forall oE o ga, rel oE o -> Inv o -> rel (of_update oraE oE (Fin ga)) (of_update ora o ga) /\ Inv (of_update ora o ga)) ->
  rel oE o -> Inv o -> valid n e -> vecn n (e_xc e) -> 0 < tolerance opt ->
  bsearch (assess_bs ora (ell_space (N := RNum) single_cut)) opt2 (mkAdaptor o e opt) ((l, u) : RNum * RNum) = Ok (b', iv, ans) ->
  exists bE', bsearch (assess_bs oraE (ell_space (N := ENum) single_cut)) (fin_options opt2) (mkAdaptor oE (fin_ell e) (fin_options opt)) ((Fin l, Fin u) : ENum * ENum) = Ok (bE', (Fin l, Fin u), ans) /\
    rel (ba_omega bE') (ba_omega b') /\ ba_space bE' = fin_ell (ba_space b').
Proof.
  intros Hn Hs Hdeep Hup HR HI V HX Ht E.
  destruct (bsearch_follows (ad_rel n rel Inv opt) (assess_bs oraE (ell_space (N := ENum) single_cut)) (assess_bs ora (ell_space (N := RNum) single_cut)) opt2
    (mkAdaptor oE (fin_ell e) (fin_options opt)) (mkAdaptor o e opt) l u b' iv ans) as (bE' & EE & H).
  - intros bE b ga b1 a HRb Eb. exact (adaptor_follows single_cut single_cut fin_single single_deep n rel Inv opt Hn oraE ora bE b ga b1 a (single_defined_ok Bias (or_introl eq_refl)) Hs Hdeep Ht Hup HRb Eb).
  - unfold ad_rel. cbn. auto 10.
  - exact E.
  - exists bE'. split; [exact EE|]. destruct H as (H1 & _ & _ & _ & H2 & _). auto.
Qed.

(** ** The statements of C89 and C90 *)
Lemma feas_single_follows : forall O OE n (rel : OE -> O -> Prop) (Inv : O -> Prop) oraE (ora : OracleFeas RNum (Arr RNum) (SingleCut RNum) O) (opt : Options RNum) oE o (e : Ell RNum) o' e' ans k,
  (2 <= n)%nat -> feas_sim fin_single n rel Inv oraE ora -> feas_deep n single_deep Inv ora -> rel oE o -> Inv o -> valid n e -> vecn n (e_xc e) -> 0 < tolerance opt ->
  cutting_plane_feas ora (ell_space (N := RNum) single_cut) opt o e = Ok (o', e', (ans, k)) ->
  exists oE' eE, cutting_plane_feas oraE (ell_space (N := ENum) single_cut) (fin_options opt) oE (fin_ell e) = Ok (oE', eE, (option_map fin_arr ans, k)) /\ rel oE' o' /\
    (e_tsq e' <> 0 \/ ans <> None \/ k = max_iters opt -> eE = fin_ell e').
Proof. intros. eapply (feas_follows single_cut single_cut fin_single single_deep n rel); eauto. apply single_defined_ok. auto. Qed.
Lemma feas_parallel_follows : forall O OE n (rel : OE -> O -> Prop) (Inv : O -> Prop) oraE (ora : OracleFeas RNum (Arr RNum) (ParallelCut RNum) O) (opt : Options RNum) oE o (e : Ell RNum) o' e' ans k,
  (2 <= n)%nat -> feas_sim fin_parallel n rel Inv oraE ora -> feas_deep n parallel_deep Inv ora -> rel oE o -> Inv o -> valid n e -> vecn n (e_xc e) -> 0 < tolerance opt ->
  cutting_plane_feas ora (ell_space (N := RNum) parallel_cut) opt o e = Ok (o', e', (ans, k)) ->
  exists oE' eE, cutting_plane_feas oraE (ell_space (N := ENum) parallel_cut) (fin_options opt) oE (fin_ell e) = Ok (oE', eE, (option_map fin_arr ans, k)) /\ rel oE' o' /\
    (e_tsq e' <> 0 \/ ans <> None \/ k = max_iters opt -> eE = fin_ell e').
Proof. intros. eapply (feas_follows parallel_cut parallel_cut fin_parallel parallel_deep n rel); eauto. apply parallel_defined_ok. auto. Qed.
Lemma optim_single_follows : forall O OE n (rel : OE -> O -> Prop) (Inv : O -> R -> Prop) oraE (ora : OracleOptim RNum (Arr RNum) (SingleCut RNum) O) (opt : Options RNum) oE o (e : Ell RNum) (gamma : R) o' e' (gamma' : R) ans k,
  (2 <= n)%nat -> optim_sim fin_single n rel same_level Inv oraE ora -> optim_deep n single_deep Inv ora -> rel oE o -> Inv o gamma -> valid n e -> vecn n (e_xc e) -> 0 < tolerance opt ->
  cutting_plane_optim ora (ell_space (N := RNum) single_cut) opt o e gamma = Ok (o', e', gamma', (ans, k)) ->
  exists oE' eE, cutting_plane_optim oraE (ell_space (N := ENum) single_cut) (fin_options opt) oE (fin_ell e) (Fin gamma) = Ok (oE', eE, Fin gamma', (option_map fin_arr ans, k)) /\ rel oE' o' /\
    (e_tsq e' <> 0 \/ k = max_iters opt -> eE = fin_ell e').
Proof.
  intros O OE n rel Inv oraE ora opt oE o e gamma o' e' gamma' ans k Hn H1 H2 H3 H4 H5 H6 H7 E.
  destruct (optim_follows single_cut single_cut fin_single single_deep n rel same_level Hn Inv oraE ora opt oE o e (Fin gamma) gamma o' e' gamma' ans k (single_defined_ok Bias (or_introl eq_refl)) (single_defined_ok Central (or_intror eq_refl)) H1 H2 H3 eq_refl H4 H5 H6 H7 E)
    as (oE' & eE & gE & EE & HR & -> & HH). exists oE', eE. auto.
Qed.
Lemma optim_parallel_follows : forall O OE n (rel : OE -> O -> Prop) (Inv : O -> R -> Prop) oraE (ora : OracleOptim RNum (Arr RNum) (ParallelCut RNum) O) (opt : Options RNum) oE o (e : Ell RNum) (gamma : R) o' e' (gamma' : R) ans k,
  (2 <= n)%nat -> optim_sim fin_parallel n rel same_level Inv oraE ora -> optim_deep n parallel_deep Inv ora -> rel oE o -> Inv o gamma -> valid n e -> vecn n (e_xc e) -> 0 < tolerance opt ->
  cutting_plane_optim ora (ell_space (N := RNum) parallel_cut) opt o e gamma = Ok (o', e', gamma', (ans, k)) ->
  exists oE' eE, cutting_plane_optim oraE (ell_space (N := ENum) parallel_cut) (fin_options opt) oE (fin_ell e) (Fin gamma) = Ok (oE', eE, Fin gamma', (option_map fin_arr ans, k)) /\ rel oE' o' /\
    (e_tsq e' <> 0 \/ k = max_iters opt -> eE = fin_ell e').
Proof.
  intros O OE n rel Inv oraE ora opt oE o e gamma o' e' gamma' ans k Hn H1 H2 H3 H4 H5 H6 H7 E.
  destruct (optim_follows parallel_cut parallel_cut fin_parallel parallel_deep n rel same_level Hn Inv oraE ora opt oE o e (Fin gamma) gamma o' e' gamma' ans k (parallel_defined_ok Bias (or_introl eq_refl)) (parallel_defined_ok Central (or_intror eq_refl)) H1 H2 H3 eq_refl H4 H5 H6 H7 E)
    as (oE' & eE & gE & EE & HR & -> & HH). exists oE', eE. auto.
Qed.
Lemma q_single_follows : forall O OE n (rel : OE -> O -> Prop) (Inv : O -> R -> Prop) oraE (ora : OracleOptimQ RNum (Arr RNum) (SingleCut RNum) O) (opt : Options RNum) oE o (e : Ell RNum) (gamma : R) o' e' (gamma' : R) ans k,
  (2 <= n)%nat -> optim_q_sim fin_single n rel same_level Inv oraE ora -> optim_q_deep n (fun _ => True) Inv ora -> rel oE o -> Inv o gamma -> valid n e -> vecn n (e_xc e) -> 0 < tolerance opt ->
  cutting_plane_optim_q ora (ell_space (N := RNum) single_cut) opt o e gamma = Ok (o', e', gamma', (ans, k)) ->
  exists oE' eE, cutting_plane_optim_q oraE (ell_space (N := ENum) single_cut) (fin_options opt) oE (fin_ell e) (Fin gamma) = Ok (oE', eE, Fin gamma', (option_map fin_arr ans, k)) /\ rel oE' o' /\
    (e_tsq e' <> 0 \/ k = max_iters opt -> eE = fin_ell e').
Proof.
  intros O OE n rel Inv oraE ora opt oE o e gamma o' e' gamma' ans k Hn H1 H2 H3 H4 H5 H6 H7 E.
  destruct (optim_q_follows single_cut single_cut fin_single (fun _ => True) n rel same_level Hn Inv oraE ora opt oE o e (Fin gamma) gamma o' e' gamma' ans k single_defined_q H1 H2 H3 eq_refl H4 H5 H6 H7 E)
    as (oE' & eE & gE & EE & HR & -> & HH). exists oE', eE. auto.
Qed.
Lemma q_parallel_follows : forall O OE n (rel : OE -> O -> Prop) (Inv : O -> R -> Prop) oraE (ora : OracleOptimQ RNum (Arr RNum) (ParallelCut RNum) O) (opt : Options RNum) oE o (e : Ell RNum) (gamma : R) o' e' (gamma' : R) ans k,
  (2 <= n)%nat -> optim_q_sim fin_parallel n rel same_level Inv oraE ora -> optim_q_deep n parallel_near Inv ora -> rel oE o -> Inv o gamma -> valid n e -> vecn n (e_xc e) -> 0 < tolerance opt ->
  cutting_plane_optim_q ora (ell_space (N := RNum) parallel_cut) opt o e gamma = Ok (o', e', gamma', (ans, k)) ->
  exists oE' eE, cutting_plane_optim_q oraE (ell_space (N := ENum) parallel_cut) (fin_options opt) oE (fin_ell e) (Fin gamma) = Ok (oE', eE, Fin gamma', (option_map fin_arr ans, k)) /\ rel oE' o' /\
    (e_tsq e' <> 0 \/ k = max_iters opt -> eE = fin_ell e').
Proof.
  intros O OE n rel Inv oraE ora opt oE o e gamma o' e' gamma' ans k Hn H1 H2 H3 H4 H5 H6 H7 E.
  destruct (optim_q_follows parallel_cut parallel_cut fin_parallel parallel_near n rel same_level Hn Inv oraE ora opt oE o e (Fin gamma) gamma o' e' gamma' ans k parallel_defined_q H1 H2 H3 eq_refl H4 H5 H6 H7 E)
    as (oE' & eE & gE & EE & HR & -> & HH). exists oE', eE. auto.
Qed.
Lemma new_both_fin : forall n (val xc : Arr RNum) (s : R) (e : Ell RNum), (2 <= n)%nat -> length (adata xc) = n ->
  (ell_new_with_scalar (N := RNum) s xc = Ok e -> ell_new_with_scalar (N := ENum) (Fin s) (fin_arr xc) = Ok (fin_ell e)) /\
  (vecn n val -> ell_new (N := RNum) val xc = Ok e -> ell_new (N := ENum) (fin_arr val) (fin_arr xc) = Ok (fin_ell e)).
Proof. intros n val xc s e Hn Hl. split; [exact (new_scalar_fin n s xc e Hn Hl)|]. intros Hv. exact (new_fin n val xc e Hn Hv Hl). Qed.
Lemma far_single : forall O OE n (rel : OE -> O -> Prop) (worse : R -> R -> Prop) bad (Inv : O -> Prop) oraE (ora : OracleOptim RNum (Arr RNum) (SingleCut RNum) O) (opt : Options RNum) oE o (e : Ell RNum),
  worse = Rle /\ bad = NInf \/ worse = Rge /\ bad = PInf ->
  (2 <= n)%nat -> optim_sim fin_single n rel same_level (fun o _ => Inv o) oraE ora -> far_sim fin_single n rel worse bad Inv oraE ora ->
  optim_deep n single_deep (fun o _ => Inv o) ora -> rel oE o -> Inv o -> valid n e -> vecn n (e_xc e) -> 0 < tolerance opt ->
  exists T : R, forall gamma : R, worse gamma T -> forall o' e' (gamma' : R) ans k,
  cutting_plane_optim ora (ell_space (N := RNum) single_cut) opt o e gamma = Ok (o', e', gamma', (ans, k)) ->
  exists oE' eE gE', cutting_plane_optim oraE (ell_space (N := ENum) single_cut) (fin_options opt) oE (fin_ell e) bad = Ok (oE', eE, gE', (option_map fin_arr ans, k)) /\ rel oE' o' /\
    ((ans = None /\ gE' = bad) \/ gE' = Fin gamma') /\ (e_tsq e' <> 0 \/ k = max_iters opt -> eE = fin_ell e').
Proof.
  intros O OE n rel worse bad Inv oraE ora opt oE o e Hw Hn Hs Hf Hdeep HR HI V HX Ht.
  apply (optim_far single_cut single_cut fin_single single_deep n rel Hn worse bad Inv oraE ora opt); auto; try (apply single_defined_ok; auto).
  - destruct Hw as [[-> _]|[-> _]]; [exact Rle_refl|exact Rge_refl].
  - destruct Hw as [[-> _]|[-> _]]; [exact le_dir|exact ge_dir].
Qed.
Lemma squares_from_inf : forall n d t oraE (ora : OracleOptim RNum (Arr RNum) (SingleCut RNum) unit),
  (n = 2%nat /\ d = ones /\ t = zeros /\ oraE = sq2_assess (N := ENum) /\ ora = sq2_assess (N := RNum)) \/
  (exists a, vecn n a /\ d = ones /\ t = coords a /\ oraE = sqt_assess (N := ENum) (fin_arr a) /\ ora = sqt_assess (N := RNum) a) \/
  (d = ones /\ t = zeros /\ oraE = sqn_assess (N := ENum) n /\ ora = sqn_assess (N := RNum) n) \/
  (exists c : R, 0 < c /\ n = 2%nat /\ d = pair2 (1 + / c) c /\ t = zeros /\ oraE = sqc_assess (N := ENum) (Fin c) /\ ora = sqc_assess (N := RNum) c) \/
  (exists s : R, 0 <= s /\ n = 2%nat /\ d = pair2 s 1 /\ t = zeros /\ oraE = sqs_assess (N := ENum) (Fin s) /\ ora = sqs_assess (N := RNum) s) ->
  forall M r j (opt : Options RNum) (e : Ell RNum), (2 <= n)%nat -> (j < n)%nat -> d j = M -> (forall i, (i < n)%nat -> d i <= M) ->
  0 < M -> 0 < r -> proper n e -> vecn n (e_xc e) -> (forall y, ball n t r y -> pts n e y) ->
  0 < tolerance opt <= (8 * M * (r * r)) * (8 * M * (r * r)) -> (INR n + 1) * ln (vol2 n e / (r * r) ^ n) < INR (max_iters opt) ->
  exists e' (gamma' : R) x k, cutting_plane_optim oraE (ell_space (N := ENum) single_cut) (fin_options opt) tt (fin_ell e) PInf = Ok (tt, e', Fin gamma', (Some (fin_arr x), k)) /\
    gamma' = wsq n d t (coords x) /\ gamma' < 4 * M * (r * r).
Proof.
  intros n d t oraE ora H M r j opt e. 
  assert (A : (forall i, (i < n)%nat -> 0 <= d i) /\ (sq_oracle n d t ora /\ sq_value n d t ora) /\ sq_shape n oraE ora).
  { destruct H as [(-> & -> & -> & -> & ->)|[(a & Ha & -> & -> & -> & ->)|[(-> & -> & -> & ->)|[(c & Hc & -> & -> & -> & -> & ->)|(s & Hs & -> & -> & -> & -> & ->)]]]].
    - split; [intros; unfold ones; lra|]. split; [exact sq2_squares|exact sq2_shape].
    - split; [intros; unfold ones; lra|]. split; [exact (sqt_squares n a Ha)|exact (sqt_shape n a Ha)].
    - split; [intros; unfold ones; lra|]. split; [exact (sqn_squares n)|exact (sqn_shape n)].
    - assert (H0 : c <> 0) by lra. split; [|split; [exact (sqc_squares c H0)|exact (sqc_shape c H0)]].
      pose proof (Rinv_0_lt_compat c Hc). intros [|i] _; unfold pair2; lra.
    - split; [|split; [exact (sqs_squares s)|exact (sqs_shape s)]]. intros [|i] _; unfold pair2; lra. }
  destruct A as (A1 & [A2 A3] & A4). exact (sq_from_inf n d t oraE ora A1 A2 A4 A3 M r j opt e).
Qed.
