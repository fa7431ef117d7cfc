(** bsearch in binary64: every probe stays inside the interval. *)
From Coq Require Import ZArith Reals Lra Lia Bool Arith.
From Flocq Require Import Core IEEE754.BinarySingleNaN.
From Verif Require Import Num Res CuttingPlane DriverSpec DriverProofs2 FloatLemmas.
Local Open Scope R_scope.

(** One midpoint. *)
Lemma midpoint_inside lm (l u : f64) :
  fin l = true -> fin u = true -> val l <= val u -> fin (fsub u l) = true ->
  let g := @nadd (FNum lm) l (@bs_tau (FNum lm) l u) in
  fin g = true /\ val l <= val g <= val u.
Proof.
  intros Fl Fu Hle Fs g.
  destruct (fsub_fin_inv u l Fu Fl Fs) as (Es & Hs).
  assert (H2 : val (fofZ 2) = 2 /\ fin (fofZ 2) = true) by (apply fofZ_small; lia).
  destruct H2 as [E2 F2].
  set (d := val u - val l) in *.
  assert (Hd0 : 0 <= d) by (unfold d; lra).
  (* tau is between 0 and d *)
  assert (Hrd0 : 0 <= rnd d) by (rewrite <- rnd_0; now apply rnd_le).
  assert (Htau : 0 <= rnd (rnd d / 2) <= d).
  { split.
    - rewrite <- rnd_0. apply rnd_le. lra.
    - destruct (Req_dec d 0) as [E0|N0].
      + rewrite E0, rnd_0. unfold Rdiv. rewrite Rmult_0_l, rnd_0. lra.
      + destruct (pow2_below d) as (e & He & Hb).
        * lra.
        * exists (val u), (val l). split; [apply val_generic|]. split; [apply val_generic|reflexivity].
        * assert (Hr : rnd d <= bpow radix2 (e + 1)).
          { rewrite <- (rnd_generic (bpow radix2 (e + 1))) by (apply bpow_generic; lia).
            apply rnd_le. lra. }
          assert (Hh : rnd d / 2 <= bpow radix2 e).
          { rewrite bpow_plus in Hr. change (bpow radix2 1) with 2 in Hr. lra. }
          apply Rle_trans with (rnd (bpow radix2 e)); [now apply rnd_le|].
          rewrite rnd_generic by (now apply bpow_generic). lra. }
  assert (Hdb : rnd (rnd d / 2) <= Rabs (rnd d)).
  { rewrite Rabs_pos_eq by auto. apply Rle_trans with (rnd (rnd d)).
    - apply rnd_le. lra.
    - rewrite (rnd_generic (rnd d)); [lra|]. apply generic_format_round; typeclasses eauto. }
  destruct (fdiv_fin (fsub u l) (fofZ 2) Fs) as (Et & Ft).
  { rewrite E2. lra. }
  { rewrite Es, E2. rewrite Rabs_pos_eq by tauto. lra. }
  rewrite Es, E2 in Et.
  assert (Hg : val l <= rnd (val l + rnd (rnd d / 2)) <= val u).
  { rewrite <- (rnd_val l) at 1. rewrite <- (rnd_val u). split; apply rnd_le; unfold d in *; lra. }
  destruct (fadd_fin l (fdiv (fsub u l) (fofZ 2)) Fl Ft) as (Eg & Fg).
  { rewrite Et. apply Rabs_lt. generalize (val_bound l) (val_bound u). intros Hl Hu.
    apply Rabs_lt_inv in Hl. apply Rabs_lt_inv in Hu. lra. }
  change g with (fadd l (fdiv (fsub u l) (fofZ 2))). rewrite Eg, Et. auto.
Qed.

(** A narrower interval does not overflow if the wide one does not. *)
Lemma fsub_narrow (l u l' u' : f64) :
  fin l = true -> fin u = true -> fin l' = true -> fin u' = true ->
  val l <= val l' -> val l' <= val u' -> val u' <= val u ->
  fin (fsub u l) = true -> fin (fsub u' l') = true.
Proof.
  intros Fl Fu Fl' Fu' H1 H2 H3 Fs.
  destruct (fsub_fin_inv u l Fu Fl Fs) as (_ & Hs).
  apply fsub_fin; auto.
  assert (0 <= rnd (val u' - val l') <= rnd (val u - val l)).
  { split; [rewrite <- rnd_0|]; apply rnd_le; lra. }
  rewrite Rabs_pos_eq by tauto. rewrite Rabs_pos_eq in Hs by lra. lra.
Qed.

Lemma bsearch_float_inside lm {B} (ora : OracleBS (FNum lm) B) opt b (l u : f64) b' iv flag k :
  fin l = true -> fin u = true -> fin (fsub u l) = true ->
  bsearch ora opt b ((l, u) : FNum lm * FNum lm) = Ok (b', iv, (flag, k)) ->
  exists bs (gammas : nat -> f64) ans, bs 0%nat = b /\ bs k = b' /\
    forall i, (i < k)%nat ->
      ora (bs i) (gammas i) = Ok (bs (1 + i)%nat, ans i) /\
      fin (gammas i) = true /\ Bleb l (gammas i) = true /\ Bleb (gammas i) u = true.
Proof.
  intros Fl Fu Fs E.
  apply (bsearch_iff (N := FNum lm) ora opt b l u) in E as (Hle & _ & bs & lo & hi & ans & Hb & Hl & Hu & Hs & Hb' & _ & _).
  assert (Hle' : val l <= val u).
  { cbn [nleb FNum] in Hle. rewrite (fleb_fin l u Fl Fu) in Hle. revert Hle. case Rle_bool_spec; auto. discriminate. }
  assert (Hinv : forall i, (i <= k)%nat ->
     fin (lo i) = true /\ fin (hi i) = true /\ val l <= val (lo i) /\ val (lo i) <= val (hi i) /\ val (hi i) <= val u).
  { induction i; intros Hi.
    - rewrite Hl, Hu. repeat split; auto; lra.
    - destruct IHi as (A1 & A2 & A3 & A4 & A5); [lia|].
      destruct (Hs i ltac:(lia)) as (_ & _ & Hst).
      destruct (midpoint_inside lm (lo i) (hi i) A1 A2 A4) as (Fg & Hg).
      { apply (fsub_narrow l u); auto. }
      destruct (ans i); change (S i) with (1 + i)%nat; destruct Hst as [-> ->]; repeat split; auto; lra. }
  exists bs, (fun i => @nadd (FNum lm) (lo i) (@bs_tau (FNum lm) (lo i) (hi i))), ans.
  split; auto. split; auto. intros i Hi.
  destruct (Hinv i ltac:(lia)) as (A1 & A2 & A3 & A4 & A5).
  destruct (Hs i Hi) as (_ & Eo & _).
  destruct (midpoint_inside lm (lo i) (hi i) A1 A2 A4) as (Fg & Hg).
  { apply (fsub_narrow l u); auto. }
  split; auto. split; auto.
  rewrite (fleb_fin l _ Fl Fg), (fleb_fin _ u Fg Fu). split; apply Rle_bool_true; lra.
Qed.

(** f64::MAX *)
Definition fmax : f64 := @Bmax_float fprec femax fprec_gt_0 fprec_lt_emax.
Lemma bsearch_overflow :
  let ora : OracleBS (FNum lm0) (list f64) := fun log g => Ok (cons g log, true) in
  exists log iv r, bsearch ora (mkOptions (N := FNum lm0) 1 (fofZ 1)) nil ((Bopp fmax, fmax) : FNum lm0 * FNum lm0) = Ok (log, iv, r) /\
    log = cons (B754_infinity false) nil /\
    fin (Bopp fmax) = true /\ fin fmax = true /\ Bleb (Bopp fmax) fmax = true /\
    Bleb (B754_infinity false) fmax = false.
Proof.
  intros ora. eexists _, _, _. split; [vm_compute; reflexivity|]. vm_compute. auto 10.
Qed.
