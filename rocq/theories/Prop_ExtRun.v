(** Properties C89 and C90: whole runs over the extended reals, where a division
    by zero, the square root of a negative number and the difference of two
    infinities are visible as [Nan].  Vocabulary: ExtSpec.v ([fin_ell] etc.: a real
    state read over [ENum]), ExtRunSpec.v ([feas_sim], [optim_sim]: an oracle over
    [ENum] answers finite questions with the finite answers of a real oracle). *)
From Coq Require Import ZArith Reals List Arith.
From Verif Require Import Num Res Arr CuttingPlane EllCalc Ell EllRun Spec EllSpec EllCuts EllMore Det RunSpec ExtSpec ExtRunSpec ExtRun ExtOracles ExtTest
  Examples ExSpec Squares SquaresSpec Profit ProfitSpec ProfitConv.
Import ListNotations.
Open Scope R_scope.

(** A run on deep cuts is the real run: same answer, same number of iterations,
    same ellipsoid; only when the last step has zero width are the matrix and the
    centre left behind unspecified, and nobody looks at them. *)
Theorem C89_feas_single : forall O OE n (rel : OE -> O -> Prop) (Inv : O -> Prop) oraE (ora : OracleFeas RNum (Arr RNum) (SingleCut RNum) O) (opt : Options RNum) oE o (e : Ell RNum) o' e' ans k,
  (2 <= n)%nat -> feas_sim fin_single n rel Inv oraE ora -> feas_deep n single_deep Inv ora -> rel oE o -> Inv o -> valid n e -> vecn n (e_xc e) -> 0 < tolerance opt ->
  cutting_plane_feas ora (ell_space (N := RNum) single_cut) opt o e = Ok (o', e', (ans, k)) ->
  exists oE' eE, cutting_plane_feas oraE (ell_space (N := ENum) single_cut) (fin_options opt) oE (fin_ell e) = Ok (oE', eE, (option_map fin_arr ans, k)) /\ rel oE' o' /\
    (e_tsq e' <> 0 \/ ans <> None \/ k = max_iters opt -> eE = fin_ell e').
Proof. exact feas_single_follows. Qed.
Print Assumptions C89_feas_single.
Theorem C89_feas_parallel : forall O OE n (rel : OE -> O -> Prop) (Inv : O -> Prop) oraE (ora : OracleFeas RNum (Arr RNum) (ParallelCut RNum) O) (opt : Options RNum) oE o (e : Ell RNum) o' e' ans k,
  (2 <= n)%nat -> feas_sim fin_parallel n rel Inv oraE ora -> feas_deep n parallel_deep Inv ora -> rel oE o -> Inv o -> valid n e -> vecn n (e_xc e) -> 0 < tolerance opt ->
  cutting_plane_feas ora (ell_space (N := RNum) parallel_cut) opt o e = Ok (o', e', (ans, k)) ->
  exists oE' eE, cutting_plane_feas oraE (ell_space (N := ENum) parallel_cut) (fin_options opt) oE (fin_ell e) = Ok (oE', eE, (option_map fin_arr ans, k)) /\ rel oE' o' /\
    (e_tsq e' <> 0 \/ ans <> None \/ k = max_iters opt -> eE = fin_ell e').
Proof. exact feas_parallel_follows. Qed.
Print Assumptions C89_feas_parallel.
Theorem C89_optim_single : forall O OE n (rel : OE -> O -> Prop) (Inv : O -> R -> Prop) oraE (ora : OracleOptim RNum (Arr RNum) (SingleCut RNum) O) (opt : Options RNum) oE o (e : Ell RNum) (gamma : R) o' e' (gamma' : R) ans k,
  (2 <= n)%nat -> optim_sim fin_single n rel same_level Inv oraE ora -> optim_deep n single_deep Inv ora -> rel oE o -> Inv o gamma -> valid n e -> vecn n (e_xc e) -> 0 < tolerance opt ->
  cutting_plane_optim ora (ell_space (N := RNum) single_cut) opt o e gamma = Ok (o', e', gamma', (ans, k)) ->
  exists oE' eE, cutting_plane_optim oraE (ell_space (N := ENum) single_cut) (fin_options opt) oE (fin_ell e) (Fin gamma) = Ok (oE', eE, Fin gamma', (option_map fin_arr ans, k)) /\ rel oE' o' /\
    (e_tsq e' <> 0 \/ k = max_iters opt -> eE = fin_ell e').
Proof. exact optim_single_follows. Qed.
Print Assumptions C89_optim_single.
Theorem C89_optim_parallel : forall O OE n (rel : OE -> O -> Prop) (Inv : O -> R -> Prop) oraE (ora : OracleOptim RNum (Arr RNum) (ParallelCut RNum) O) (opt : Options RNum) oE o (e : Ell RNum) (gamma : R) o' e' (gamma' : R) ans k,
  (2 <= n)%nat -> optim_sim fin_parallel n rel same_level Inv oraE ora -> optim_deep n parallel_deep Inv ora -> rel oE o -> Inv o gamma -> valid n e -> vecn n (e_xc e) -> 0 < tolerance opt ->
  cutting_plane_optim ora (ell_space (N := RNum) parallel_cut) opt o e gamma = Ok (o', e', gamma', (ans, k)) ->
  exists oE' eE, cutting_plane_optim oraE (ell_space (N := ENum) parallel_cut) (fin_options opt) oE (fin_ell e) (Fin gamma) = Ok (oE', eE, Fin gamma', (option_map fin_arr ans, k)) /\ rel oE' o' /\
    (e_tsq e' <> 0 \/ k = max_iters opt -> eE = fin_ell e').
Proof. exact optim_parallel_follows. Qed.
Print Assumptions C89_optim_parallel.
(** The discrete driver: a single cut may have any offset. *)
Theorem C89_q_single : forall O OE n (rel : OE -> O -> Prop) (Inv : O -> R -> Prop) oraE (ora : OracleOptimQ RNum (Arr RNum) (SingleCut RNum) O) (opt : Options RNum) oE o (e : Ell RNum) (gamma : R) o' e' (gamma' : R) ans k,
  (2 <= n)%nat -> optim_q_sim fin_single n rel same_level Inv oraE ora -> optim_q_deep n (fun _ => True) Inv ora -> rel oE o -> Inv o gamma -> valid n e -> vecn n (e_xc e) -> 0 < tolerance opt ->
  cutting_plane_optim_q ora (ell_space (N := RNum) single_cut) opt o e gamma = Ok (o', e', gamma', (ans, k)) ->
  exists oE' eE, cutting_plane_optim_q oraE (ell_space (N := ENum) single_cut) (fin_options opt) oE (fin_ell e) (Fin gamma) = Ok (oE', eE, Fin gamma', (option_map fin_arr ans, k)) /\ rel oE' o' /\
    (e_tsq e' <> 0 \/ k = max_iters opt -> eE = fin_ell e').
Proof. exact q_single_follows. Qed.
Print Assumptions C89_q_single.
Theorem C89_q_parallel : forall O OE n (rel : OE -> O -> Prop) (Inv : O -> R -> Prop) oraE (ora : OracleOptimQ RNum (Arr RNum) (ParallelCut RNum) O) (opt : Options RNum) oE o (e : Ell RNum) (gamma : R) o' e' (gamma' : R) ans k,
  (2 <= n)%nat -> optim_q_sim fin_parallel n rel same_level Inv oraE ora -> optim_q_deep n parallel_near Inv ora -> rel oE o -> Inv o gamma -> valid n e -> vecn n (e_xc e) -> 0 < tolerance opt ->
  cutting_plane_optim_q ora (ell_space (N := RNum) parallel_cut) opt o e gamma = Ok (o', e', gamma', (ans, k)) ->
  exists oE' eE, cutting_plane_optim_q oraE (ell_space (N := ENum) parallel_cut) (fin_options opt) oE (fin_ell e) (Fin gamma) = Ok (oE', eE, Fin gamma', (option_map fin_arr ans, k)) /\ rel oE' o' /\
    (e_tsq e' <> 0 \/ k = max_iters opt -> eE = fin_ell e').
Proof. exact q_parallel_follows. Qed.
Print Assumptions C89_q_parallel.
Theorem C89_bsearch : forall (O OE : Type) n (rel : OE -> O -> Prop) (Inv : O -> Prop) (oraE : OracleFeas ENum (Arr ENum) (SingleCut ENum) OE) (ora : OracleFeas RNum (Arr RNum) (SingleCut RNum) O)
    (opt opt2 : Options RNum) oE o (e : Ell RNum) (l u : R) b' iv ans, (2 <= n)%nat ->
  feas_sim fin_single n rel Inv oraE ora -> feas_deep n single_deep Inv ora ->
  (forall oE o ga, rel oE o -> Inv o -> rel (of_update oraE oE (Fin ga)) (of_update ora o ga) /\ Inv (of_update ora o ga)) ->
  rel oE o -> Inv o -> valid n e -> vecn n (e_xc e) -> 0 < tolerance opt ->
  bsearch (assess_bs ora (ell_space (N := RNum) single_cut)) opt2 (mkAdaptor o e opt) ((l, u) : RNum * RNum) = Ok (b', iv, ans) ->
  exists bE', bsearch (assess_bs oraE (ell_space (N := ENum) single_cut)) (fin_options opt2) (mkAdaptor oE (fin_ell e) (fin_options opt)) ((Fin l, Fin u) : ENum * ENum) = Ok (bE', (Fin l, Fin u), ans) /\
    rel (ba_omega bE') (ba_omega b') /\ ba_space bE' = fin_ell (ba_space b').
Proof. exact @bs_adaptor_follows. Qed.
Print Assumptions C89_bsearch.
(** The initial ellipsoid, and the oracles of the crate that these apply to. *)
Theorem C89_new : forall n (val xc : Arr RNum) (s : R) (e : Ell RNum), (2 <= n)%nat -> length (adata xc) = n ->
  (ell_new_with_scalar (N := RNum) s xc = Ok e -> ell_new_with_scalar (N := ENum) (Fin s) (fin_arr xc) = Ok (fin_ell e)) /\
  (vecn n val -> ell_new (N := RNum) val xc = Ok e -> ell_new (N := ENum) (fin_arr val) (fin_arr xc) = Ok (fin_ell e)).
Proof. exact new_both_fin. Qed.
Print Assumptions C89_new.
Theorem C89_oracles :
  optim_sim fin_single 2 eq same_level (fun (_ : unit) _ => True) (ex1_assess (N := ENum)) (ex1_assess (N := RNum)) /\
  optim_sim fin_single 2 eq same_level (fun (i : Z) _ => (-1 <= i < 3)%Z) (ex1rr_assess (N := ENum)) (ex1rr_assess (N := RNum)) /\
  optim_sim fin_single 2 eq same_level (fun (i : Z) _ => (-1 <= i < 4)%Z) (ex4_assess (N := ENum)) (ex4_assess (N := RNum)) /\
  optim_sim fin_single 2 eq same_level (fun (i : Z) _ => (-1 <= i < 2)%Z) (qcvx_assess (N := ENum)) (qcvx_assess (N := RNum)) /\
  feas_sim fin_single 2 (fun (oE : Ex3 ENum) (o : Ex3 RNum) => ex3_idx oE = ex3_idx o /\ ex3_target oE = Fin (ex3_target o)) (fun o : Ex3 RNum => (-1 <= ex3_idx o < 4)%Z) (ex3_oracle (N := ENum)) (ex3_oracle (N := RNum)) /\
  (forall m, sane m -> optim_sim fin_single 2 (fun pE p => pE = fin_profit p) same_level (fun p gamma => profit_ok p /\ about p m /\ 0 <= gamma) (profit_assess (N := ENum)) (profit_assess (N := RNum))).
Proof. exact (conj ex1_sim (conj ex1rr_sim (conj ex4_sim (conj qcvx_sim (conj ex3_sim profit_sim))))). Qed.
Print Assumptions C89_oracles.
(** the hypotheses are met: a whole run *)
Theorem C89_example3 : forall val target : R, 20 <= val <= 10 ^ 20 -> -8 + 16 / 10 ^ 10 <= target ->
  exists eE, ell_new_with_scalar (N := ENum) (Fin val) (mkArr (N := ENum) [Fin 0; Fin 0] 2 0) = Ok eE /\
  exists o' e' x k, cutting_plane_feas (ex3_oracle (N := ENum)) (ell_space (N := ENum) single_cut) options_default (mkEx3 (N := ENum) (-1) (Fin target)) eE = Ok (o', e', (Some (fin_arr x), k)) /\
    prob4 (coords x 0%nat) (coords x 1%nat) /\ obj4 (coords x 0%nat) (coords x 1%nat) <= target.
Proof. exact ex3_over_E. Qed.
Print Assumptions C89_example3.

(** *** C90: starting from an infinitely bad level, as the tests do *)
Theorem C90_follows : forall O OE n (rel : OE -> O -> Prop) (worse : R -> R -> Prop) bad (Inv : O -> Prop) oraE (ora : OracleOptim RNum (Arr RNum) (SingleCut RNum) O) (opt : Options RNum) oE o (e : Ell RNum),
  worse = Rle /\ bad = NInf \/ worse = Rge /\ bad = PInf ->
  (2 <= n)%nat -> optim_sim fin_single n rel same_level (fun o _ => Inv o) oraE ora -> far_sim fin_single n rel worse bad Inv oraE ora ->
  optim_deep n single_deep (fun o _ => Inv o) ora -> rel oE o -> Inv o -> valid n e -> vecn n (e_xc e) -> 0 < tolerance opt ->
  exists T : R, forall gamma : R, worse gamma T -> forall o' e' (gamma' : R) ans k,
  cutting_plane_optim ora (ell_space (N := RNum) single_cut) opt o e gamma = Ok (o', e', gamma', (ans, k)) ->
  exists oE' eE gE', cutting_plane_optim oraE (ell_space (N := ENum) single_cut) (fin_options opt) oE (fin_ell e) bad = Ok (oE', eE, gE', (option_map fin_arr ans, k)) /\ rel oE' o' /\
    ((ans = None /\ gE' = bad) \/ gE' = Fin gamma') /\ (e_tsq e' <> 0 \/ k = max_iters opt -> eE = fin_ell e').
Proof. exact far_single. Qed.
Print Assumptions C90_follows.
Theorem C90_example1 : forall val : R, 20 <= val <= 10 ^ 20 -> exists eE, ell_new_with_scalar (N := ENum) (Fin val) (mkArr (N := ENum) [Fin 0; Fin 0] 2 0) = Ok eE /\
  exists e' x k (gamma' : R), cutting_plane_optim (ex1_assess (N := ENum)) (ell_space (N := ENum) single_cut) options_default tt eE NInf = Ok (tt, e', Fin gamma', (Some (fin_arr x), k)) /\
    prob1 (coords x 0%nat) (coords x 1%nat) /\ gamma' = obj1 (coords x 0%nat) (coords x 1%nat) /\ 3 - 4 / 10 ^ 10 < gamma' <= 3.
Proof. exact ex1_from_neg_inf. Qed.
Print Assumptions C90_example1.
Theorem C90_example1_rr : forall val : R, 20 <= val <= 10 ^ 20 -> exists eE, ell_new_with_scalar (N := ENum) (Fin val) (mkArr (N := ENum) [Fin 0; Fin 0] 2 0) = Ok eE /\
  exists i' e' x k (gamma' : R), cutting_plane_optim (ex1rr_assess (N := ENum)) (ell_space (N := ENum) single_cut) options_default (-1)%Z eE NInf = Ok (i', e', Fin gamma', (Some (fin_arr x), k)) /\
    prob1 (coords x 0%nat) (coords x 1%nat) /\ gamma' = obj1 (coords x 0%nat) (coords x 1%nat) /\ 3 - 4 / 10 ^ 10 < gamma' <= 3.
Proof. exact ex1rr_from_neg_inf. Qed.
Print Assumptions C90_example1_rr.
Theorem C90_example4 : forall val : R, 20 <= val <= 10 ^ 20 -> exists eE, ell_new_with_scalar (N := ENum) (Fin val) (mkArr (N := ENum) [Fin 0; Fin 0] 2 0) = Ok eE /\
  exists i' e' x k (gamma' : R), cutting_plane_optim (ex4_assess (N := ENum)) (ell_space (N := ENum) single_cut) options_default (-1)%Z eE NInf = Ok (i', e', Fin gamma', (Some (fin_arr x), k)) /\
    prob4 (coords x 0%nat) (coords x 1%nat) /\ gamma' = obj4 (coords x 0%nat) (coords x 1%nat) /\ 12 - 14 / 10 ^ 10 < gamma' <= 12.
Proof. exact ex4_from_neg_inf. Qed.
Print Assumptions C90_example4.
(** the least-squares oracles of the tests, from plus infinity *)
Theorem C90_squares : forall n d t oraE (ora : OracleOptim RNum (Arr RNum) (SingleCut RNum) unit),
  (n = 2%nat /\ d = ones /\ t = zeros /\ oraE = sq2_assess (N := ENum) /\ ora = sq2_assess (N := RNum)) \/
  (exists a, vecn n a /\ d = ones /\ t = coords a /\ oraE = sqt_assess (N := ENum) (fin_arr a) /\ ora = sqt_assess (N := RNum) a) \/
  (d = ones /\ t = zeros /\ oraE = sqn_assess (N := ENum) n /\ ora = sqn_assess (N := RNum) n) \/
  (exists c : R, 0 < c /\ n = 2%nat /\ d = pair2 (1 + / c) c /\ t = zeros /\ oraE = sqc_assess (N := ENum) (Fin c) /\ ora = sqc_assess (N := RNum) c) \/
  (exists s : R, 0 <= s /\ n = 2%nat /\ d = pair2 s 1 /\ t = zeros /\ oraE = sqs_assess (N := ENum) (Fin s) /\ ora = sqs_assess (N := RNum) s) ->
  forall M r j (opt : Options RNum) (e : Ell RNum), (2 <= n)%nat -> (j < n)%nat -> d j = M -> (forall i, (i < n)%nat -> d i <= M) ->
  0 < M -> 0 < r -> proper n e -> vecn n (e_xc e) -> (forall y, ball n t r y -> pts n e y) ->
  0 < tolerance opt <= (8 * M * (r * r)) * (8 * M * (r * r)) -> (INR n + 1) * ln (vol2 n e / (r * r) ^ n) < INR (max_iters opt) ->
  exists e' (gamma' : R) x k, cutting_plane_optim oraE (ell_space (N := ENum) single_cut) (fin_options opt) tt (fin_ell e) PInf = Ok (tt, e', Fin gamma', (Some (fin_arr x), k)) /\
    gamma' = wsq n d t (coords x) /\ gamma' < 4 * M * (r * r).
Proof. exact squares_from_inf. Qed.
Print Assumptions C90_squares.
Theorem C90_test : forall s : R, s = 1 \/ s = -1 ->
  exists eE, ell_new_with_scalar (N := ENum) (Fin 10) (mkArr (N := ENum) [Fin s; Fin s] 2 0) = Ok eE /\
  exists e' (gamma' : R) x k, cutting_plane_optim (sq2_assess (N := ENum)) (ell_space (N := ENum) single_cut) (mkOptions (N := ENum) 1000 (Fin (/ 10 ^ 10))) tt eE PInf = Ok (tt, e', Fin gamma', (Some (fin_arr x), k)) /\
    gamma' = coords x 0%nat * coords x 0%nat + coords x 1%nat * coords x 1%nat /\ gamma' < 16 / 10 ^ 6.
Proof. exact test_from_inf. Qed.
Print Assumptions C90_test.
