(** C91: in binary64 kappa never turns negative. *)
From Coq Require Import ZArith Reals List.
From Flocq Require Import Core IEEE754.BinarySingleNaN.
From Verif Require Import Num Res Arr CuttingPlane EllCalc Ell EllRun Replay Examples Profit Lowpass Squares Portfolio
  KappaSpec KappaRun KappaOracles KappaWitness.
Import ListNotations.
Open Scope R_scope.

(** One update with a single cut.  A central or quantised cut needs no condition on
    the cut at all; a bias cut one through or beyond the centre, and [tsq] outside the
    underflow range. *)
Theorem C91_single (lm : Libm) n md (e : Ell (FNum lm)) g (c : SingleCut (FNum lm)) (e' : Ell (FNum lm)) st :
  (2 <= n)%nat -> (Z.of_nat n <= 2 ^ 53)%Z -> calc_of n (e_helper e) -> clear (e_kappa e) ->
  (md = Bias -> clear_single c /\ not_tiny (e_tsq e')) ->
  apply_cut single_cut md e (g, c) = Ok (e', st) ->
  clear (e_kappa e') /\ e_helper e' = e_helper e.
Proof. exact (single_kappa lm n md e g c e' st). Qed.
Print Assumptions C91_single.

(** One update with a pair of parallel cuts. *)
Theorem C91_parallel (lm : Libm) n md (e : Ell (FNum lm)) g (c : ParallelCut (FNum lm)) (e' : Ell (FNum lm)) st :
  (2 <= n)%nat -> (Z.of_nat n <= 2 ^ 53)%Z -> calc_of n (e_helper e) -> clear (e_kappa e) ->
  md <> Quantised -> (md = Bias -> clear_parallel c /\ not_tiny (e_tsq e')) ->
  apply_cut parallel_cut md e (g, c) = Ok (e', st) ->
  clear (e_kappa e') /\ e_helper e' = e_helper e.
Proof. exact (parallel_kappa lm n md e g c e' st). Qed.
Print Assumptions C91_parallel.

(** Whole runs: at the end kappa is not negative, or the run has stopped because
    [tsq] fell below the tolerance. *)
Theorem C91_feas_single (lm : Libm) {O} n (I : O -> Prop) (ora : OracleFeas (FNum lm) (Arr (FNum lm)) (SingleCut (FNum lm)) O)
  (opt : Options (FNum lm)) o (e : Ell (FNum lm)) o' e' ans k :
  (2 <= n)%nat -> (Z.of_nat n <= 2 ^ 53)%Z -> feas_only I clear_single ora -> I o ->
  is_finite (tolerance opt : f64) = true -> bpow radix2 (-1000) <= B2R (tolerance opt : f64) ->
  calc_of n (e_helper e) -> clear (e_kappa e) ->
  cutting_plane_feas ora (ell_space single_cut) opt o e = Ok (o', e', (ans, k)) ->
  clear (e_kappa e') \/ Bltb (e_tsq e' : f64) (tolerance opt) = true.
Proof. exact (fun Hn Hz => feas_kappa lm single_cut clear_single n (fun md e g c e' st _ Hh Hk Hm => single_kappa lm n md e g c e' st Hn Hz Hh Hk Hm) ora opt o e I o' e' ans k). Qed.
Print Assumptions C91_feas_single.

Theorem C91_feas_parallel (lm : Libm) {O} n (I : O -> Prop) (ora : OracleFeas (FNum lm) (Arr (FNum lm)) (ParallelCut (FNum lm)) O)
  (opt : Options (FNum lm)) o (e : Ell (FNum lm)) o' e' ans k :
  (2 <= n)%nat -> (Z.of_nat n <= 2 ^ 53)%Z -> feas_only I clear_parallel ora -> I o ->
  is_finite (tolerance opt : f64) = true -> bpow radix2 (-1000) <= B2R (tolerance opt : f64) ->
  calc_of n (e_helper e) -> clear (e_kappa e) ->
  cutting_plane_feas ora (ell_space parallel_cut) opt o e = Ok (o', e', (ans, k)) ->
  clear (e_kappa e') \/ Bltb (e_tsq e' : f64) (tolerance opt) = true.
Proof. exact (fun Hn Hz => feas_kappa lm parallel_cut clear_parallel n (fun md e g c e' st Hq Hh Hk Hm => parallel_kappa lm n md e g c e' st Hn Hz Hh Hk Hq Hm) ora opt o e I o' e' ans k). Qed.
Print Assumptions C91_feas_parallel.

Theorem C91_optim_single (lm : Libm) {O} n (I : O -> FNum lm -> Prop) (ora : OracleOptim (FNum lm) (Arr (FNum lm)) (SingleCut (FNum lm)) O)
  (opt : Options (FNum lm)) o (e : Ell (FNum lm)) (gamma : FNum lm) o' e' gamma' ans k :
  (2 <= n)%nat -> (Z.of_nat n <= 2 ^ 53)%Z -> optim_only I clear_single ora -> I o gamma ->
  is_finite (tolerance opt : f64) = true -> bpow radix2 (-1000) <= B2R (tolerance opt : f64) ->
  calc_of n (e_helper e) -> clear (e_kappa e) ->
  cutting_plane_optim ora (ell_space single_cut) opt o e gamma = Ok (o', e', gamma', (ans, k)) ->
  clear (e_kappa e') \/ Bltb (e_tsq e' : f64) (tolerance opt) = true.
Proof. exact (fun Hn Hz => optim_kappa lm single_cut clear_single n (fun md e g c e' st _ Hh Hk Hm => single_kappa lm n md e g c e' st Hn Hz Hh Hk Hm) ora opt o e gamma I o' e' gamma' ans k). Qed.
Print Assumptions C91_optim_single.

Theorem C91_optim_parallel (lm : Libm) {O} n (I : O -> FNum lm -> Prop) (ora : OracleOptim (FNum lm) (Arr (FNum lm)) (ParallelCut (FNum lm)) O)
  (opt : Options (FNum lm)) o (e : Ell (FNum lm)) (gamma : FNum lm) o' e' gamma' ans k :
  (2 <= n)%nat -> (Z.of_nat n <= 2 ^ 53)%Z -> optim_only I clear_parallel ora -> I o gamma ->
  is_finite (tolerance opt : f64) = true -> bpow radix2 (-1000) <= B2R (tolerance opt : f64) ->
  calc_of n (e_helper e) -> clear (e_kappa e) ->
  cutting_plane_optim ora (ell_space parallel_cut) opt o e gamma = Ok (o', e', gamma', (ans, k)) ->
  clear (e_kappa e') \/ Bltb (e_tsq e' : f64) (tolerance opt) = true.
Proof. exact (fun Hn Hz => optim_kappa lm parallel_cut clear_parallel n (fun md e g c e' st Hq Hh Hk Hm => parallel_kappa lm n md e g c e' st Hn Hz Hh Hk Hq Hm) ora opt o e gamma I o' e' gamma' ans k). Qed.
Print Assumptions C91_optim_parallel.

(** The discrete driver with single cuts: no condition on the oracle, nor on the
    tolerance. *)
Theorem C91_optim_q (lm : Libm) {O} n (ora : OracleOptimQ (FNum lm) (Arr (FNum lm)) (SingleCut (FNum lm)) O)
  (opt : Options (FNum lm)) o (e : Ell (FNum lm)) (gamma : FNum lm) o' e' gamma' ans k :
  (2 <= n)%nat -> (Z.of_nat n <= 2 ^ 53)%Z -> calc_of n (e_helper e) -> clear (e_kappa e) ->
  cutting_plane_optim_q ora (ell_space single_cut) opt o e gamma = Ok (o', e', gamma', (ans, k)) ->
  clear (e_kappa e').
Proof. exact (optim_q_kappa lm n ora opt o e gamma o' e' gamma' ans k). Qed.
Print Assumptions C91_optim_q.

(** The conditions hold for what the repository provides: the constructors, the
    default tolerance, and the oracles of the examples and tests. *)
Theorem C91_start (lm : Libm) :
  (forall (v : FNum lm) xc e, ell_new_with_scalar v xc = Ok e -> calc_of (a_len xc) (e_helper e) /\ e_kappa e = v) /\
  (forall (v xc : Arr (FNum lm)) e, ell_new v xc = Ok e -> calc_of (a_len xc) (e_helper e) /\ e_kappa e = n1) /\
  is_finite (tolerance (options_default (N := FNum lm)) : f64) = true /\
  bpow radix2 (-1000) <= B2R (tolerance (options_default (N := FNum lm)) : f64).
Proof. exact (conj (new_calc lm) (conj (new_vec_calc lm) (default_tolerance lm))). Qed.
Print Assumptions C91_start.

Theorem C91_oracles (lm : Libm) :
  optim_only (fun _ _ => True) clear_single (ex1_assess (N := FNum lm)) /\
  optim_only (fun _ _ => True) clear_single (ex1rr_assess (N := FNum lm)) /\
  feas_only (fun _ => True) clear_single (ex3_oracle (N := FNum lm)) /\
  optim_only (fun _ _ => True) clear_single (ex4_assess (N := FNum lm)) /\
  optim_only (fun _ _ => True) clear_single (qcvx_assess (N := FNum lm)) /\
  optim_only (fun _ _ => True) clear_single (profit_assess (N := FNum lm)) /\
  optim_only (fun _ _ => True) clear_single (profit_rb_assess (N := FNum lm)) /\
  (forall p, optim_only (fun _ _ => True) clear_single (pf_assess (N := FNum lm) p)) /\
  optim_only (fun _ _ => True) clear_single (sq2_assess (N := FNum lm)) /\
  optim_only low_ok clear_parallel (lowpass_assess (N := FNum lm)).
Proof.
  exact (conj (ex1_clear lm) (conj (ex1rr_clear lm) (conj (ex3_clear lm) (conj (ex4_clear lm) (conj (qcvx_clear lm)
    (conj (profit_clear lm) (conj (profit_rb_clear lm) (conj (pf_clear lm) (conj (sq2_clear lm) (lowpass_clear lm)))))))))).
Qed.
Print Assumptions C91_oracles.

(** What [clear] says about comparisons: [kappa < 0.0] is false. *)
Theorem C91_meaning (x : f64) : clear x -> Bltb x (fofZ 0) = false.
Proof. exact (FloatSign.not_negative x). Qed.
Print Assumptions C91_meaning.

(** Both side conditions are needed.  With [tsq] in the underflow range a bias cut
    that misses the ball reports success and leaves a negative kappa. *)
Theorem C91_tiny_refuted : exists (e : Ell F) g (c : SingleCut F) (e' : Ell F),
  calc_of (lm := lm0) 2 (e_helper e) /\ clear (e_kappa e) /\ clear_single (lm := lm0) c /\
  apply_cut single_cut Bias e (g, c) = Ok (e', Success) /\ Bltb (e_kappa e' : f64) (fofZ 0) = true.
Proof. exact tiny_refuted. Qed.
Print Assumptions C91_tiny_refuted.

(** In one dimension a pair of parallel cuts, one of them through the centre, turns
    kappa into a huge negative number. *)
Theorem C91_dimension_one_refuted : exists (e : Ell F) g (c : ParallelCut F) (e' : Ell F),
  calc_of (lm := lm0) 1 (e_helper e) /\ clear (e_kappa e) /\ clear_parallel (lm := lm0) c /\
  apply_cut parallel_cut Central e (g, c) = Ok (e', Success) /\ Bltb (e_kappa e' : f64) (fofZ (- 10 ^ 15)) = true.
Proof. exact one_refuted. Qed.
Print Assumptions C91_dimension_one_refuted.

(** A case meeting all hypotheses: every run of the first example from a ball, with
    the default options. *)
Example C91_case (lm : Libm) (xc : Arr (FNum lm)) gamma e o' e' gamma' ans k : a_len xc = 2%nat ->
  ell_new_with_scalar (N := FNum lm) (fofZ 10) xc = Ok e ->
  cutting_plane_optim ex1_assess (ell_space single_cut) options_default tt e gamma = Ok (o', e', gamma', (ans, k)) ->
  clear (e_kappa e') \/ Bltb (e_tsq e' : f64) (tolerance (options_default (N := FNum lm))) = true.
Proof.
  intros Hl E. destruct (new_calc lm _ _ _ E) as [H1 H2]. rewrite Hl in H1. destruct (default_tolerance lm) as [T1 T2].
  refine (C91_optim_single lm 2 (fun _ _ => True) ex1_assess options_default tt e gamma o' e' gamma' ans k (le_n 2) _ (ex1_clear lm) I T1 T2 H1 _).
  - cbn. discriminate.
  - rewrite H2. reflexivity.
Qed.
(** ... and one that happens: example1.rs 38-52 with the default options. *)
Example C91_happens : outcome (e <- ell_at 10 (ints [0; 0]%Z) ;; cutting_plane_optim (N := F) ex1_assess space opts0 tt e neginf) <> None.
Proof. vm_compute. discriminate. Qed.
