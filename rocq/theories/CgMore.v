(** What a caller of conjugate_gradient may rely on. *)
From Coq Require Import Reals List Arith Lia Lra.
From Verif Require Import Num Res Arr Spec RealLin PowerSpec PowerOps PowerMore Cg CgSpec CgProofs CgConv.
Open Scope R_scope.
Local Notation E := ENum.

Definition cg_stops n M c v tol k := breaks n M c v k \/ accepts n M c v tol k.
Lemma breaks_dec n M c v k : {breaks n M c v k} + {~ breaks n M c v k}.
Proof. apply Req_EM_T. Qed.
Lemma stops_dec n M c v tol k : {cg_stops n M c v tol k} + {~ cg_stops n M c v tol k}.
Proof.
  unfold cg_stops, accepts. destruct (breaks_dec n M c v k); auto.
  destruct (Rlt_dec (norm2 n (cr (cg_seq n M c v (S k)))) tol); auto. right. tauto.
Qed.
Lemma first_mono m m' P k : (m <= m')%nat -> first_below m P k -> first_below m' P k.
Proof. intros H (H1 & H2 & H3). split; [lia|auto]. Qed.

Section Sys.
Variables (n : nat) (a b : Arr E) (o : option (Arr E)) (M : mtx) (c v : vec) (tol : R).
Hypotheses (Hn : (0 < n)%nat) (Ha : holds_mat n a M) (Hb : holds n b c) (Ho : starts n o v).
Notation run m := (conjugate_gradient (N := E) a b o (Fin tol) m).

Lemma solved_inv m x : run m = Ok (Solved x) ->
  exists k, first_below m (cg_stops n M c v tol) k /\ ~ breaks n M c v k /\ holds n x (cx (cg_seq n M c v (S k))).
Proof.
  intros Hr. destruct (cg_outcome n a b o M c v tol m Hn Ha Hb Ho) as [H1 H2].
  destruct (first_or_none _ (stops_dec n M c v tol) m) as [(k & Hk)|Hk].
  - exists k. split; auto. destruct (H1 k Hk) as [G1 G2]. destruct (breaks_dec n M c v k) as [Hz|Hz].
    + rewrite (G1 Hz) in Hr. discriminate.
    + split; auto. destruct (G2 Hz) as (y & Ey & Hy). rewrite Ey in Hr. injection Hr as ->. auto.
  - rewrite (H2 Hk) in Hr. discriminate.
Qed.
Lemma solved_alive m k : first_below m (cg_stops n M c v tol) k -> ~ breaks n M c v k -> forall j, (j < S k)%nat -> alive n M c v j.
Proof.
  intros (_ & _ & Hb') Hz j Hj. assert (Nb : ~ breaks n M c v j).
  { destruct (Nat.eq_dec j k) as [->|]; auto. intros Hj'. apply (Hb' j); [lia|now left]. }
  split; [exact Nb|]. intros H. apply Nb. now apply dead_breaks.
Qed.
(** C65 *)
Lemma cg_solution m x : run m = Ok (Solved x) -> exists u, holds n x u /\ norm2 n (resid n M c u) < tol.
Proof.
  intros Hr. destruct (solved_inv m x Hr) as (k & (Hk & Hs & _) & Hz & Hx). eexists. split; [exact Hx|].
  destruct Hs as [Hs|Hs]; [elim (Hz Hs)|]. unfold accepts in Hs. unfold norm2 in *.
  rewrite (dot_ext n _ _ (cr (cg_seq n M c v (S k))) (cr (cg_seq n M c v (S k)))); auto; intros i Hi; symmetry; apply r_is_resid.
Qed.
Lemma cg_raise m m' x : run m = Ok (Solved x) -> (m <= m')%nat -> run m' = Ok (Solved x).
Proof.
  intros Hr Hm. destruct (cg_outcome n a b o M c v tol m Hn Ha Hb Ho) as [H1 H2].
  destruct (first_or_none _ (stops_dec n M c v tol) m) as [(k & Hk)|Hk]; [|rewrite (H2 Hk) in Hr; discriminate].
  destruct (H1 k Hk) as [G1 G2]. destruct (breaks_dec n M c v k) as [Hz|Hz]; [rewrite (G1 Hz) in Hr; discriminate|].
  (* both runs are the loop with the same first stop *)
  unfold conjugate_gradient in *. cbv zeta in *.
  destruct (a_dot_mv _ _) as [ax|]; [|discriminate]. cbn [bind] in *.
  destruct (a_sub b ax) as [r|]; [|discriminate]. cbn [bind] in *.
  destruct (a_dot r r) as [q|]; [|discriminate]. cbn [bind] in *.
  match type of Hr with bind (loop_range 0 m ?f ?s) _ = _ => set (body := f) in *; set (st := s) in * end.
  assert (L : forall d, loop_range 0 m body st = Ok (Done d) -> loop_range 0 m' body st = Ok (Done d)).
  { unfold loop_range. rewrite !Nat.sub_0_r. generalize st. generalize 0%nat. clear -Hm. revert m' Hm.
    induction m as [|m IH]; intros m' Hm lo s d Hd; cbn [loop_up] in Hd; [discriminate|].
    destruct m' as [|m']; [lia|]. cbn [loop_up]. destruct (body lo s) as [[s'|d']|]; cbn [bind] in *; auto.
    apply IH; auto. lia. }
  destruct (loop_range 0 m body st) as [[s|d]|] eqn:El; cbn [bind] in Hr; try discriminate. rewrite (L d eq_refl). exact Hr.
Qed.

(** C66: as soon as p'Mp vanishes only at p = 0 among the directions met *)
Lemma cg_finishes : sym n M -> 0 < tol -> nonzero n (resid n M c v) ->
  (forall k, nonzero n (cp (cg_seq n M c v k)) -> quad n M (cp (cg_seq n M c v k)) <> 0) ->
  exists x, forall m, (n <= m)%nat -> run m = Ok (Solved x).
Proof.
  intros Hs Ht Hr Hq. destruct (finishes n M c v Hs) as (k & Hk & Hl & Hz); [auto|].
  destruct k as [|k].
  { exfalso. apply nonzero_dot in Hr. cbn [cg_seq cr] in Hz. unfold resid in Hr. lra. }
  assert (Hacc : accepts n M c v tol k) by (unfold accepts, norm2; rewrite Hz, sqrt_0; exact Ht).
  destruct (first_or_none _ (stops_dec n M c v tol) (S k)) as [(j & Hj)|Hj]; [|elim (Hj k (Nat.lt_succ_diag_r k)); now right].
  assert (Hnb : ~ breaks n M c v j) by (apply Hl; apply Hj).
  destruct (cg_outcome n a b o M c v tol n Hn Ha Hb Ho) as [H1 _].
  destruct (H1 j (first_mono _ _ _ _ Hk Hj)) as [_ G]. destruct (G Hnb) as (x & Ex & Hx). exists x. intros m Hm. now apply cg_raise with n.
Qed.
Lemma cg_pd : sym n M -> pd n M -> 0 < tol -> nonzero n (resid n M c v) -> exists x, forall m, (n <= m)%nat -> run m = Ok (Solved x).
Proof. intros Hs Hp Ht Hr. apply cg_finishes; auto. intros k Hk. apply Hp in Hk. lra. Qed.
Lemma cg_psd z : sym n M -> psd n M -> (forall i, (i < n)%nat -> mulmv n M z i = c i) -> 0 < tol -> nonzero n (resid n M c v) ->
  exists x, forall m, (n <= m)%nat -> run m = Ok (Solved x).
Proof. intros Hs Hp Hz Ht Hr. apply cg_finishes; auto. intros k Hk. pose proof (psd_direction n M c v Hs z k Hp Hz Hk). lra. Qed.

(** C67 *)
Lemma cg_exact m : ~ nonzero n (resid n M c v) ->
  run m = Ok (Failed (if Nat.eqb m 0 then OutOfIterations else DidNotConverge)).
Proof.
  intros Hr. destruct (cg_outcome n a b o M c v tol m Hn Ha Hb Ho) as [H1 H2]. destruct (Nat.eqb_spec m 0) as [->|Hm].
  - apply H2. intros j Hj. lia.
  - assert (B : breaks n M c v 0) by (apply dead_breaks; apply zero_dot; exact Hr).
    apply (H1 0%nat); auto. split; [lia|]. split; [now left|]. intros; lia.
Qed.

(** energy *)
Lemma cg_energy m x z : sym n M -> psd n M -> (forall i, (i < n)%nat -> mulmv n M z i = c i) -> run m = Ok (Solved x) ->
  exists u, holds n x u /\ energy n M z u < energy n M z v.
Proof.
  intros Hs Hp Hz Hr. destruct (solved_inv m x Hr) as (k & Hk & Hnb & Hx). eexists. split; [exact Hx|].
  pose proof (solved_alive m k Hk Hnb) as Hl. clear -Hs Hp Hz Hl.
  assert (D : forall j, (j <= k)%nat -> energy n M z (cx (cg_seq n M c v (S j))) < energy n M z (cx (cg_seq n M c v j))).
  { intros j Hj. rewrite (energy_step n M c v Hs z j Hz) by (intros; apply Hl; lia).
    destruct (Hl j ltac:(lia)) as [A B]. pose proof (Hp (cp (cg_seq n M c v j))) as A'.
    assert (0 < dot n (cr (cg_seq n M c v j)) (cr (cg_seq n M c v j)) * dot n (cr (cg_seq n M c v j)) (cr (cg_seq n M c v j)) / quad n M (cp (cg_seq n M c v j))); [|lra].
    apply Rdiv_lt_0_compat; [|lra]. pose proof (dot_self_nonneg n (cr (cg_seq n M c v j))). nra. }
  induction k as [|k IH]; [exact (D 0%nat (le_n 0))|].
  eapply Rlt_trans; [exact (D (S k) (le_n _))|]. apply IH; [intros; apply Hl; lia|intros; apply D; lia].
Qed.
Lemma cg_optimal m x z : sym n M -> psd n M -> (forall i, (i < n)%nat -> mulmv n M z i = c i) -> run m = Ok (Solved x) ->
  exists u k, holds n x u /\ (0 < k <= m)%nat /\ krylov n M c v k (fun i => u i - v i) /\
  forall y, krylov n M c v k (fun i => y i - v i) -> energy n M z u <= energy n M z y.
Proof.
  intros Hs Hp Hz Hr. destruct (solved_inv m x Hr) as (k & Hk & Hnb & Hx). pose proof (solved_alive m k Hk Hnb) as Hl.
  eexists. exists (S k). split; [exact Hx|]. split; [destruct Hk; lia|]. split; [apply in_krylov|].
  intros y Hy. now apply optimal.
Qed.
End Sys.
