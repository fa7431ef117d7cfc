(** bsearch over exact reals with a threshold oracle. *)
From Coq Require Import ZArith Reals Lra Lia Bool Arith.
From Flocq Require Import Core.
From Verif Require Import Num Res CuttingPlane DriverSpec DriverProofs2.
Local Open Scope R_scope.

(** The oracle answers "feasible" exactly from [t] on, and never panics. *)
Definition threshold {B} (ora : OracleBS RNum B) (t : R) : Prop :=
  forall b g, exists b', ora b g = Ok (b', Rle_bool t g).

Lemma bs_tau_R (lo hi : R) : @bs_tau RNum lo hi = (hi - lo) / 2.
Proof. reflexivity. Qed.

Section Thr.
Context {B : Type}.
Variable ora : OracleBS RNum B.
Variables t tol l u : R.
Hypothesis Hthr : threshold ora t.
Hypothesis Hlt : l < t <= u.

Lemma bs_steps_real k bs lo hi ans :
  lo 0%nat = l -> hi 0%nat = u -> bs_steps ora (tol : RNum) k bs lo hi ans ->
  (forall i, (i <= k)%nat ->
     lo i < t <= hi i /\ l <= lo i /\ hi i <= u /\ hi i - lo i = (u - l) / 2 ^ i /\
     (hi i <> u <-> exists j, (j < i)%nat /\ ans j = true)) /\
  (forall i, (i < k)%nat ->
     tol <= (u - l) / 2 ^ (1 + i) /\
     exists gamma, gamma = (lo i + hi i) / 2 /\ l < gamma < u /\
       ora (bs i) gamma = Ok (bs (1 + i)%nat, ans i) /\
       (ans i = true <-> t <= gamma) /\
       (ans i = true -> lo (1 + i)%nat = lo i /\ hi (1 + i)%nat = gamma) /\
       (ans i = false -> lo (1 + i)%nat = gamma /\ hi (1 + i)%nat = hi i)).
Proof.
  intros H0 H1 H.
  assert (Hinv : forall i, (i <= k)%nat ->
     lo i < t <= hi i /\ l <= lo i /\ hi i <= u /\ hi i - lo i = (u - l) / 2 ^ i /\
     (hi i <> u <-> exists j, (j < i)%nat /\ ans j = true)).
  { induction i; intros Hi.
    - rewrite H0, H1. simpl. repeat split; try lra.
      intros (j & Hj & _). lia.
    - destruct IHi as ((A1 & A2) & A3 & A4 & A5 & A6); [lia|].
      destruct (H i ltac:(lia)) as (Ht & Eo & Hs).
      rewrite bs_tau_R in *. cbn [nadd RNum] in *.
      set (g := lo i + (hi i - lo i) / 2) in *.
      destruct (Hthr (bs i) g) as (b' & Eb). rewrite Eb in Eo. inversion Eo as [[Hb Ha]]. clear Eo.
      assert (Hp : (u - l) / 2 ^ S i = (hi i - lo i) / 2).
      { rewrite A5. simpl. field. apply pow_nonzero. lra. }
      assert (Hw : 0 < hi i - lo i) by lra.
      destruct (ans i) eqn:Ea; simpl in Hs; destruct Hs as [-> ->]; rewrite Hp.
      + revert Ha. case Rle_bool_spec; [|discriminate]. intros Hg _.
        split; [unfold g in *; lra|]. split; [unfold g in *; lra|]. split; [unfold g; lra|]. split; [unfold g; lra|].
        split; intros _.
        * exists i. auto with arith.
        * unfold g. lra.
      + revert Ha. case Rle_bool_spec; [discriminate|]. intros Hg _.
        split; [unfold g in *; lra|]. split; [unfold g in *; lra|]. split; [lra|]. split; [unfold g; lra|].
        rewrite A6. split; intros (j & Hj & Hans).
        * exists j. split; auto with arith.
        * destruct (Nat.eq_dec j i) as [->|]; [congruence|]. exists j. split; auto. lia. }
  split; auto. intros i Hi.
  destruct (Hinv i ltac:(lia)) as ((A1 & A2) & A3 & A4 & A5 & A6).
  destruct (H i Hi) as (Ht & Eo & Hs). rewrite bs_tau_R in *. cbn [nadd nltb RNum] in *.
  assert (Hp : (u - l) / 2 ^ (1 + i) = (hi i - lo i) / 2).
  { rewrite A5. simpl. field. apply pow_nonzero. lra. }
  split.
  { rewrite Hp. revert Ht. case Rlt_bool_spec; [discriminate|]. auto. }
  replace (lo i + (hi i - lo i) / 2) with ((lo i + hi i) / 2) in * by lra.
  exists ((lo i + hi i) / 2). split; auto. split; [lra|]. split; auto.
  split; [|split].
  - destruct (Hthr (bs i) ((lo i + hi i) / 2)) as (b' & Eb). rewrite Eb in Eo. inversion Eo as [[Hb Ha]].
    case Rle_bool_spec; intros; split; auto; try discriminate; lra.
  - intros E. now rewrite E in Hs.
  - intros E. now rewrite E in Hs.
Qed.

End Thr.

Lemma bsearch_real {B} (ora : OracleBS RNum B) (opt : Options RNum) (t l u : R) (b : B) :
  threshold ora t -> l < t <= u ->
  exists b' flag k, bsearch ora opt b ((l, u) : RNum * RNum) = Ok (b', (l, u), (flag, k)) /\
  (k <= max_iters opt)%nat /\
  (forall i, (i < k)%nat -> tolerance opt <= (u - l) / 2 ^ (1 + i)) /\
  (k = max_iters opt \/ (u - l) / 2 ^ (1 + k) < tolerance opt) /\
  exists bs lo hi ans,
    bs 0%nat = b /\ lo 0%nat = l /\ hi 0%nat = u /\ bs k = b' /\
    (forall i, (i < k)%nat ->
       let gamma := (lo i + hi i) / 2 in
       l < gamma < u /\ ora (bs i) gamma = Ok (bs (1 + i)%nat, ans i) /\
       (ans i = true <-> t <= gamma) /\
       (ans i = true -> lo (1 + i)%nat = lo i /\ hi (1 + i)%nat = gamma) /\
       (ans i = false -> lo (1 + i)%nat = gamma /\ hi (1 + i)%nat = hi i)) /\
    (forall i, (i <= k)%nat -> lo i < t <= hi i /\ hi i - lo i = (u - l) / 2 ^ i) /\
    (flag = true <-> exists i, (i < k)%nat /\ ans i = true).
Proof.
  intros Hthr Hlt.
  assert (Hret : exists b' iv flag k, bsearch ora opt b (l, u) = Ok (b', iv, (flag, k))).
  { destruct (bsearch ora opt b (l, u)) as [[[b' iv] [flag k]]|] eqn:E; [eauto|].
    apply (bsearch_panic_iff (N := RNum) ora opt b l u) in E.
    - cbn [nleb RNum] in E. revert E. case Rle_bool_spec; [discriminate|]. intros. lra.
    - intros b0 g Ep. destruct (Hthr b0 g) as (b' & E'). congruence. }
  destruct Hret as (b' & iv & flag & k & E). pose proof E as E2.
  apply (bsearch_iff (N := RNum) ora opt b l u) in E2 as (_ & -> & bs & lo & hi & ans & Hb & Hl & Hu & Hs & Hb' & Hf & He).
  destruct (bs_steps_real ora t (tolerance opt) l u Hthr Hlt k bs lo hi ans Hl Hu Hs) as (Hinv & Hst).
  exists b', flag, k. split; auto. split.
  { destruct He as [[Hk _]| ->]; lia. }
  split.
  { intros i Hi. apply Hst. auto. }
  split.
  { destruct He as [[Hk Ht]| ->]; auto. right. rewrite bs_tau_R in Ht.
    destruct (Hinv k ltac:(lia)) as (_ & _ & _ & A5 & _). rewrite A5 in Ht.
    cbn [nltb RNum] in Ht. revert Ht. case Rlt_bool_spec; [|discriminate]. intros Ht _.
    replace ((u - l) / 2 ^ (1 + k)) with ((u - l) / 2 ^ k / 2); auto.
    simpl. field. apply pow_nonzero. lra. }
  exists bs, lo, hi, ans. split; auto. split; auto. split; auto. split; auto. split; [|split].
  - intros i Hi gamma. destruct (Hst i Hi) as (_ & g & -> & H). exact H.
  - intros i Hi. destruct (Hinv i Hi) as (A1 & _ & _ & A5 & _). auto.
  - destruct (Hinv k ltac:(lia)) as (_ & _ & _ & _ & A6). rewrite <- A6. subst flag.
    cbn [neqb RNum]. case Req_bool_spec; intros H; simpl; split; auto; try discriminate; tauto.
Qed.
