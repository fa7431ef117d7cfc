(** The lowpass oracle over the extended reals: feasibility, cuts, optimisation. *)
From Coq Require Import ZArith Reals List Bool Arith Lia Lra.
From Flocq Require Import Core.
From Verif Require Import Num Res Arr ArrLemmas CuttingPlane DriverSpec DriverProofs DriverBest Spec RealLin EllReal LmiSpec ExtSpec ExtDefined Lowpass LowpassSpec LowpassProofs.
Import ListNotations.
Open Scope R_scope.

Lemma lw_about_same (o o' : Lowpass ENum) f : lw_about o f -> lw_ok (f_n f) o' -> lw_same o o' -> lw_about o' f.
Proof.
  intros (_ & A2 & A3 & A4 & A5 & A6) H (S1 & S2 & S3 & S4 & S5). split; [exact H|].
  rewrite S1, S2, S3, S4, S5. auto.
Qed.
Lemma Fin_gt a b : nltb (n := ENum) (Fin b) (Fin a) = Rlt_bool b a. Proof. reflexivity. Qed.
Lemma Fin_lt a b : (nltb (n := ENum) (Fin a) (Fin b)) = Rlt_bool a b. Proof. reflexivity. Qed.
Lemma neg_fin (r : Arr RNum) : neg_row (fin_arr r) = fin_arr (neg_row r).
Proof.
  unfold neg_row, fin_arr, a_from. cbn [adata arows acols]. rewrite !map_length, !map_map. reflexivity.
Qed.
Lemma neg_vec n (r : Arr RNum) : is_vec n r -> is_vec n (neg_row r).
Proof. intros [L C]. split; [|reflexivity]. cbn. now rewrite map_length. Qed.
Lemma xvec_neg (r : Arr RNum) j : xvec (neg_row r) j = - xvec r j.
Proof.
  unfold xvec, neg_row, a_from. cbn [adata]. change (nopp (n := RNum)) with Ropp. replace 0 with (Ropp 0) at 1 by lra. apply map_nth.
Qed.

Section About.
Variables (o : Lowpass ENum) (f : filter) (x : Arr RNum).
Hypotheses (Ha : lw_about o f) (Hx : is_vec (f_n f) x).
Notation n := (f_n f).
Notation m := (f_m f).
Lemma spec_len : length (lw_spectrum o) = m.
Proof. destruct Ha as (_ & (rows & E & L & _) & _). now rewrite E, map_length. Qed.
Lemma row_fin k : (k < m)%nat -> exists r, nth k (lw_spectrum o) (a_new 0) = fin_arr r /\ is_vec n r /\ forall j, (j < n)%nat -> xvec r j = f_A f k j.
Proof.
  intros Hk. pose proof Ha as (Ho & (rows & E & L & Hr) & _). exists (nth k rows (a_new (N := RNum) 0)).
  assert (E2 : nth k (lw_spectrum o) (a_new 0) = fin_arr (nth k rows (a_new (N := RNum) 0))).
  { rewrite E. change (@a_new ENum 0) with (fin_arr (a_new (N := RNum) 0)). apply map_nth. }
  split; [exact E2|]. split; [|auto].
  pose proof (row_vec n o Ho k ltac:(rewrite spec_len; exact Hk)) as [V1 V2]. rewrite E2 in V1, V2. cbn in V1, V2. rewrite map_length in V1. split; auto.
Qed.
Lemma resp_dot k r : (k < m)%nat -> (forall j, (j < n)%nat -> xvec r j = f_A f k j) -> forall y, response f y k = dot n (xvec r) y.
Proof. intros Hk H y. unfold response. apply dot_ext; auto. intros; symmetry; auto. Qed.
Lemma resp_fin k : (k < m)%nat -> v_resp n o (fin_arr x) k = Fin (response f (xvec x) k).
Proof.
  intros Hk. destruct (row_fin k Hk) as (r & E & V & Hr). unfold v_resp. rewrite E.
  change (nsum0 (n := ENum)) with (Fin 0).
  rewrite (accum_fin _ (fun j => vget r j * vget x j)) by (intros; now rewrite !vget_fin). f_equal.
  rewrite (resp_dot k r Hk Hr). apply accum_Rsum.
Qed.

Definition best_of (l : list Z) (s : ext * Z) : Prop :=
  (l = [] /\ s = (NInf, (-1)%Z)) \/
  exists k, In k l /\ (Z.of_nat (f_q f) <= k < Z.of_nat m)%Z /\ s = (Fin (response f (xvec x) (Z.to_nat k)), k) /\
    forall j, In j l -> response f (xvec x) (Z.to_nat j) <= response f (xvec x) (Z.to_nat k).
Lemma best_tracks : tracks (N := ENum) n o (fin_arr x) best_of.
Proof.
  pose proof Ha as (Ho & _ & P & Q & _). split; [left; auto|]. rewrite spec_len, Q. intros l s k Hk M.
  rewrite resp_fin by lia. destruct M as [(-> & ->)|(j & J1 & J2 & -> & J3)].
  - cbn. right. exists k. split; [now left|]. split; [exact Hk|]. split; [reflexivity|]. intros j [<-|[]]. lra.
  - cbn [fst]. rewrite Fin_gt. destruct (Rlt_bool _ _) eqn:B.
    + apply Rlt_bool_iff in B. right. exists k. split; [now left|]. split; [exact Hk|]. split; [reflexivity|].
      intros i [<-|Hi]; [lra|]. specialize (J3 i Hi). lra.
    + apply Rlt_bool_no in B. right. exists j. split; [now right|]. split; [exact J2|]. split; [reflexivity|].
      intros i [<-|Hi]; [lra|]. auto.
Qed.
(** what the tests of the code say *)
Lemma v_meets_E : v_meets n o (fin_arr x) ->
  (forall sp, lw_sp o = Fin sp -> meets f sp (xvec x)) /\ (forall sp, stop_level f (xvec x) sp -> meets f sp (xvec x)).
Proof.
  pose proof Ha as (Ho & _ & P & Q & L1 & L2). unfold v_meets. rewrite spec_len, P, Q, L1, L2, !Nat2Z.id. cbv zeta. intros (M1 & M2 & M3 & M4).
  pose proof Ho as (_ & _ & _ & O1 & O2 & _). rewrite spec_len, P, Q in *.
  assert (A1 : forall k, (k < f_p f)%nat -> f_lp f <= response f (xvec x) k <= f_up f).
  { intros k Hk. specialize (M1 k Hk). rewrite resp_fin in M1 by lia. destruct M1 as [B1 B2]. apply Rlt_bool_no in B1. apply Rlt_bool_no in B2. lra. }
  assert (A2 : forall k, (f_p f <= k < f_q f)%nat -> 0 <= response f (xvec x) k).
  { intros k Hk. specialize (M2 k Hk). rewrite resp_fin in M2 by lia. apply Rlt_bool_no in M2. exact M2. }
  assert (A3 : forall k, (f_q f <= k < m)%nat -> 0 <= response f (xvec x) k).
  { intros k Hk. specialize (M3 k Hk). rewrite resp_fin in M3 by lia. destruct M3 as [_ B]. apply Rlt_bool_no in B. exact B. }
  assert (A4 : 0 <= xvec x 0%nat).
  { rewrite vget_fin in M4. apply Rlt_bool_no in M4. exact M4. }
  split; intros sp Hsp; (split; [exact A1|]; split; [exact A2|]; split; [|exact A4]); intros k Hk; (split; [auto|]).
  - specialize (M3 k Hk). rewrite resp_fin, Hsp in M3 by lia. destruct M3 as [B _]. apply Rlt_bool_no in B. exact B.
  - apply Hsp, Hk.
Qed.
Lemma meets_v sp : lw_sp o = Fin sp -> meets f sp (xvec x) -> v_meets n o (fin_arr x).
Proof.
  pose proof Ha as (Ho & _ & P & Q & L1 & L2). intros Hsp (M1 & M2 & M3 & M4). unfold v_meets. rewrite spec_len, P, Q, L1, L2, Hsp, !Nat2Z.id. cbv zeta.
  pose proof Ho as (_ & _ & _ & O1 & O2 & _). rewrite spec_len, P, Q in *.
  split; [|split; [|split]].
  - intros k Hk. rewrite resp_fin by lia. specialize (M1 k Hk). split; apply Rlt_bool_no; lra.
  - intros k Hk. rewrite resp_fin by lia. specialize (M2 k Hk). apply Rlt_bool_no; exact M2.
  - intros k Hk. rewrite resp_fin by lia. specialize (M3 k Hk). split; apply Rlt_bool_no; apply M3.
  - rewrite vget_fin. apply Rlt_bool_no. exact M4.
Qed.
(** y = x + (y - x) *)
Lemma dot_diff r (y : vec) : dot n (xvec r) (fun i => y i - xvec x i) = dot n (xvec r) y - dot n (xvec r) (xvec x).
Proof. apply dot_minus_r. Qed.
Lemma dot_neg r (y : vec) : dot n (xvec (neg_row r)) y = - dot n (xvec r) y.
Proof.
  transitivity (dot n (fun i => (-1) * xvec r i) y).
  - apply dot_ext; auto. intros i _. rewrite xvec_neg. ring.
  - rewrite dot_scal_l. ring.
Qed.
Lemma v_cut_E sp g c : lw_sp o = Fin sp -> v_cut n o (fin_arr x) g c ->
  exists g0 b0 b1, g = fin_arr g0 /\ is_vec n g0 /\ c = fin_par b0 b1 /\ 0 < b0 /\ keeps n (xvec g0) (xvec x) b0 b1 (meets f sp).
Proof.
  pose proof Ha as (Ho & _ & P & Q & L1 & L2). intros Hsp. unfold v_cut. rewrite spec_len, P, Q, L1, L2, Hsp, !Nat2Z.id. cbv zeta.
  pose proof Ho as (Hn & _ & _ & O1 & O2 & _). rewrite spec_len, P, Q in *.
  intros [(k & Hk & B & -> & ->)|[(k & Hk & B & -> & ->)|[(k & Hk & B & -> & ->)|[(k & Hk & B & -> & ->)|[(k & Hk & B & -> & ->)|(B & V & G & ->)]]]]];
    [rewrite resp_fin in * by lia; destruct (row_fin k ltac:(lia)) as (r & -> & Vr & Hr); apply Rlt_bool_iff in B; pose proof (resp_dot k r ltac:(lia) Hr) as RD; rewrite ?neg_fin ..|].
  - exists r, (response f (xvec x) k - f_up f), (Some (response f (xvec x) k - f_lp f)). split; [reflexivity|]. split; [exact Vr|]. split; [reflexivity|].
    split; [lra|]. intros y (M1 & _). specialize (M1 k Hk). rewrite dot_diff, <- !RD. lra.
  - exists (neg_row r), (- response f (xvec x) k + f_lp f), (Some (- response f (xvec x) k + f_up f)). split; [reflexivity|]. split; [now apply neg_vec|]. split; [reflexivity|].
    split; [lra|]. intros y (M1 & _). specialize (M1 k Hk). rewrite dot_diff, !dot_neg, <- !RD. lra.
  - exists r, (response f (xvec x) k - sp), (Some (response f (xvec x) k)). split; [reflexivity|]. split; [exact Vr|]. split; [reflexivity|].
    split; [lra|]. intros y (_ & _ & M3 & _). specialize (M3 k Hk). rewrite dot_diff, <- !RD. lra.
  - exists (neg_row r), (- response f (xvec x) k), (Some (- response f (xvec x) k + sp)). split; [reflexivity|]. split; [now apply neg_vec|]. split; [reflexivity|].
    split; [lra|]. intros y (_ & _ & M3 & _). specialize (M3 k Hk). rewrite dot_diff, !dot_neg, <- !RD. lra.
  - exists (neg_row r), (- response f (xvec x) k), None. split; [reflexivity|]. split; [now apply neg_vec|]. split; [reflexivity|].
    split; [lra|]. intros y (_ & M2 & _). specialize (M2 k Hk). rewrite dot_diff, !dot_neg, <- !RD. lra.
  - rewrite vget_fin in B. apply Rlt_bool_iff in B. change (vget x 0) with (xvec x 0%nat) in B. change (@IZR 0) with 0 in B.
    exists (mkArr (N := RNum) (-1 :: repeat 0 (n - 1)) (arows g) 0), (- xvec x 0%nat), None.
    split; [|split; [|split; [|split]]].
    + destruct V as [_ V]. destruct g as [d rr c]. cbn in V, G |- *. subst. unfold fin_arr. cbn [adata arows acols map]. f_equal.
      change ((-! n1 : ENum) :: repeat (n0 : ENum) (n - 1) = Fin (-1) :: map Fin (repeat 0 (n - 1))). f_equal.
      induction (n - 1)%nat as [|t IH]; [reflexivity|]. cbn [repeat map]. f_equal. exact IH.
    + split; [|reflexivity]. cbn. rewrite repeat_length. lia.
    + rewrite vget_fin. reflexivity.
    + lra.
    + intros y (_ & _ & _ & M4). split; [|exact I].
      assert (K : dot n (xvec (mkArr (N := RNum) (-1 :: repeat 0 (n - 1)) (arows g) 0)) (fun i => y i - xvec x i) = - (y 0%nat - xvec x 0%nat)); [|rewrite K; lra].
      unfold dot. rewrite (Rsum_one _ 0%nat); [unfold xvec; cbn; ring|exact Hn|].
      intros [|i] Hi Ni; [congruence|]. unfold xvec. cbn [adata nth]. rewrite nth_repeat. ring.
Qed.
End About.
