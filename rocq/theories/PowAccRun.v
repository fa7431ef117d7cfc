(** The power iterations in binary64: whole runs (C116). *)
From Coq Require Import ZArith Reals Lra Lia Psatz List Bool Arith.
From Flocq Require Import Core IEEE754.BinarySingleNaN.
From Verif Require Import Num Res Arr ArrLemmas Spec RealLin PowerIter PowerSpec PowerMore FloatLemmas FloatErr FcosAcc StepAccSpec CgAcc PowAcc PowAccSpec.
Import ListNotations.
Local Open Scope R_scope.

Section R.
Variable lm : Libm.
Notation F := (FNum lm).
Notation popt m tol := (mkPOptions (N := F) m tol).
Lemma mat_of n (a : Arr F) : (0 < n)%nat -> length (adata a) = (n * n)%nat /\ arows a = n /\ acols a = n -> is_mat n n a.
Proof. intros Hn (L & R & C). unfold is_mat. auto. Qed.
Lemma fin_all n (x : Arr F) : is_vec n x -> vfin lm n x -> all_finite x.
Proof. intros [L _] Fx. apply Forall_forall. intros w Hw. destruct (In_nth _ _ (n0 (N := F)) Hw) as (i & Hi & <-). apply Fx. eapply Nat.lt_le_trans; [exact Hi|]. apply Nat.eq_le_incl. exact L. Qed.
Lemma all_fin n (x : Arr F) : is_vec n x -> all_finite x -> vfin lm n x.
Proof. intros [L _] Fx i Hi. unfold all_finite in Fx. rewrite Forall_forall in Fx. apply Fx. unfold vget. apply nth_In. eapply Nat.lt_le_trans; [exact Hi|]. apply Nat.eq_le_incl. symmetry. exact L. Qed.
Section G.
Variables (n : nat) (a : Arr F) (sigma : R) (x0 : Arr F).
Hypotheses (G : regular n a sigma) (S0 : start_ok n x0).
Let Hn := proj1 (g_dim n a sigma G).
Let H20 := proj2 (g_dim n a sigma G).
Let Ha := mat_of n a Hn (g_mat n a sigma G).
Lemma start_vec : is_vec n x0. Proof. destruct S0 as (L & C & _). split; auto. Qed.
Lemma start_unit u : p_unit x0 = Ok u -> unitish lm n u.
Proof. intros E. destruct S0 as (L & C & Fx & B & D). apply (unit_acc lm n Hn H20 x0 u start_vec); auto. apply all_fin; auto. exact start_vec. Qed.
Lemma start_unit1 : unit1 lm n (a_divs x0 (norm_l1 x0)).
Proof.
  destruct S0 as (L & C & Fx & B & D). apply (scale1_acc lm n Hn H20 x0 start_vec (all_fin n x0 start_vec Fx) B).
  eapply Rle_trans; [|apply norm2_le_norm1]. apply Rle_trans with (bpow radix2 (-450)); [apply bpow_le; lia|]. apply le_sq; [apply sqrt_pos|]. rewrite norm2_sq, <- bpow_plus. exact D.
Qed.
Lemma step1 x1 y x : is_vec n x1 -> unitish lm n x1 -> a_dot_mv a x1 = Ok y -> p_unit y = Ok x -> unitish lm n x.
Proof. intros. apply (step_unit lm n a Hn H20 Ha sigma x1 y x); auto; apply G. Qed.
Lemma step4 x1 y : is_vec n x1 -> unit1 lm n x1 -> a_dot_mv a x1 = Ok y -> unit1 lm n (a_divs y (norm_l1 y)).
Proof. intros. apply (step_unit1 lm n a Hn H20 Ha sigma x1 y); auto; apply G. Qed.
Lemma unit_D x : unitish lm n x -> 1 / 2 <= dot n (fcoords x) (fcoords x) <= 2.
Proof. intros [_ D]. destruct (n_facts n Hn H20) as [N1 NU]. apply Rabs_le_inv in D. lra. Qed.
Lemma answer x q : is_vec n x -> unitish lm n x -> p_quot a x = Ok q -> unit_answer n a x q.
Proof.
  intros Hx Ux Eq. pose proof (unit_quot_fin lm n a Hn H20 Ha x q (g_fin n a sigma G) (g_size n a sigma G) Hx Ux Eq) as Fq.
  split; [apply Hx|]. split; [apply (fin_all n x Hx), Ux|]. split; [apply Ux|]. split; [exact Fq|]. apply (quot_err lm n a Hn H20 Ha x q Hx Eq Fq). apply (unit_D x Ux).
Qed.
Lemma pow_run1 m (tol : f64) : fin tol = true -> exists x q k, power_iteration a x0 (popt m (tol : F)) = Ok (x, (q, k)) /\ (k <= m)%nat /\ unit_answer n a x q /\
  ((k < m)%nat -> miss n a x q <= frob n (fentry n a) * ((1 + 16 * (INR n * uu)) * val tol + 72 * (INR n * uu)) + bpow radix2 (-1000)).
Proof.
  intros Ft. destruct (run1 lm n a Hn Ha (unitish lm n) x0 m tol start_vec start_unit step1) as (x & q & k & E & Hx & Ux & Eq & Hk & HR).
  exists x, q, k. split; [exact E|]. split; [exact Hk|]. pose proof (answer x q Hx Ux Eq) as A. split; [exact A|]. intros K. destruct (HR K) as (x1 & y & Hx1 & Ux1 & Ey & Ex & HC).
  eapply Rle_trans; [apply (value_residual lm n a Hn H20 Ha x x1 y tol q Hx1 Ey Ex Ft HC Eq)|]; [apply A|apply (unit_D x Ux)|]. apply Rplus_le_compat_r. apply Rmult_le_compat_l; [apply sqrt_pos|]. destruct Ux as [_ D]. lra.
Qed.
Lemma pow_run2 m (tol : f64) : exists x q k, power_iteration2 a x0 (popt m (tol : F)) = Ok (x, (q, k)) /\ (k <= m)%nat /\ unit_answer n a x q.
Proof.
  destruct (run2 lm n a Hn Ha (unitish lm n) x0 m tol start_vec start_unit step1) as (x & q & k & E & Hx & Ux & Eq & Hk).
  exists x, q, k. split; [exact E|]. split; [exact Hk|]. exact (answer x q Hx Ux Eq).
Qed.
Lemma pow_run4 m (tol : f64) : fin tol = true -> exists x q k, power_iteration4 a x0 (popt m (tol : F)) = Ok (x, (q, k)) /\ (k <= m)%nat /\ unit_answer n a x q /\
  ((k < m)%nat -> miss n a x q <= sqrt (INR n) * frob n (fentry n a) * ((1 + 42 * (INR n * uu)) * val tol + 84 * (INR n * uu)) + bpow radix2 (-1000)).
Proof.
  intros Ft. destruct (run4 lm n a Hn Ha (unit1 lm n) x0 m tol start_vec start_unit1 step4) as (x & q & k & w & E & Hw & Uw & Ex & Eq & Hk & HR).
  exists x, q, k. split; [exact E|]. split; [exact Hk|]. pose proof (unit1_unit lm n Hn H20 w x Hw Uw Ex) as Ux.
  assert (Hx : is_vec n x). { destruct (unit_ok lm n w Hw) as (d & x' & _ & Ex' & Hx & _). rewrite Ex in Ex'. injection Ex' as <-. exact Hx. }
  pose proof (answer x q Hx Ux Eq) as A. split; [exact A|]. intros K. destruct (HR K) as (w1 & y & Hw1 & Uw1 & Ey & Ew & HC).
  apply (residual4 lm n a Hn H20 Ha x w w1 y tol q Hw1 Uw1); auto; [rewrite <- Ew; exact Uw|apply A].
Qed.
End G.
(** any matrix, any run: what the answer itself shows *)
Lemma pow_checked (n : nat) (a x0 : Arr F) (m : nat) (tol : f64) x (q : F) k : (0 < n)%nat -> (Z.of_nat n <= 2 ^ 20)%Z -> is_mat n n a -> is_vec n x0 -> fin tol = true ->
  power_iteration a x0 (popt m (tol : F)) = Ok (x, (q, k)) -> (k < m)%nat -> fin (q : f64) = true -> 1 / 2 <= dot n (fcoords x) (fcoords x) <= 2 ->
  miss n a x q <= frob n (fentry n a) * ((1 + 16 * (INR n * uu)) * val tol + 36 * (INR n * uu) + 3 / 2 * Rabs (dot n (fcoords x) (fcoords x) - 1)) + bpow radix2 (-1000).
Proof.
  intros Hn H20 Ha H0 Ft E Hk Fq HD. destruct (run1 lm n a Hn Ha (fun _ => True) x0 m tol H0 (fun _ _ => I) (fun _ _ _ _ _ _ _ => I)) as (x' & q' & k' & E' & Hx & _ & Eq & _ & HR).
  rewrite E in E'. injection E' as <- <- <-. destruct (HR Hk) as (x1 & y & Hx1 & _ & Ey & Ex & HC). apply (value_residual lm n a Hn H20 Ha x x1 y tol q Hx1 Ey Ex Ft HC Eq Fq HD).
Qed.
Lemma pow_value (n : nat) (a x0 : Arr F) (o : POptions F) run x (q : F) k : (0 < n)%nat -> (Z.of_nat n <= 2 ^ 20)%Z -> is_mat n n a -> is_vec n x0 ->
  run = power_iteration a x0 o \/ run = power_iteration2 a x0 o \/ run = power_iteration4 a x0 o -> run = Ok (x, (q, k)) -> fin (q : f64) = true -> dot n (fcoords x) (fcoords x) <= 2 ->
  all_finite x /\ Rabs (val (q : f64) - quad n (fentry n a) (fcoords x)) <= 13 * (INR n * uu) * frob n (fentry n a) + bpow radix2 (-1020).
Proof.
  intros Hn H20 Ha H0 HR E Fq HD. destruct o as [m tol].
  assert (K : is_vec n x /\ p_quot a x = Ok q).
  { destruct HR as [-> | [-> | ->]].
    - destruct (run1 lm n a Hn Ha (fun _ => True) x0 m tol H0 (fun _ _ => I) (fun _ _ _ _ _ _ _ => I)) as (x' & q' & k' & E' & Hx & _ & Eq & _). rewrite E in E'. injection E' as <- <- <-. auto.
    - destruct (run2 lm n a Hn Ha (fun _ => True) x0 m tol H0 (fun _ _ => I) (fun _ _ _ _ _ _ _ => I)) as (x' & q' & k' & E' & Hx & _ & Eq & _). rewrite E in E'. injection E' as <- <- <-. auto.
    - destruct (run4 lm n a Hn Ha (fun _ => True) x0 m tol H0 I (fun _ _ _ _ _ => I)) as (x' & q' & k' & w & E' & Hw & _ & Ex & Eq & _). rewrite E in E'. injection E' as <- <- <-. split; [|exact Eq].
      destruct (unit_ok lm n w Hw) as (d & x' & _ & Ex' & Hx & _). rewrite Ex in Ex'. injection Ex' as <-. exact Hx. }
  destruct K as [Hx Eq]. destruct (quot_err lm n a Hn H20 Ha x q Hx Eq Fq HD) as [Fx K]. split; [exact (fin_all n x Hx Fx)|exact K].
Qed.
End R.
