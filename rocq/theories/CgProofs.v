(** What conjugate_gradient returns, over the extended reals. *)
From Coq Require Import Reals List Arith Lia Lra Bool.
From Flocq Require Import Core.Raux.
From Verif Require Import Num Res Arr ArrLemmas Spec RealLin ExtDefined PowerSpec PowerOps Cg CgSpec.
Import ListNotations.

Section Any.
Open Scope nat_scope.
Context {N : Num}.
Lemma update_ok n (f : N -> N -> N) (v p : Arr N) : is_vec n v -> is_vec n p ->
  exists w, for_range 0 n (fun i v => pi <- a_idx p i ;; vi <- a_idx v i ;; a_setidx v i (f vi pi)) v = Ok w /\ is_vec n w /\
  forall d i, i < n -> nth i (adata w) d = f (nth i (adata v) d) (nth i (adata p) d).
Proof.
  intros [Lv Cv] [Lp Cp].
  destruct (for_range_inv (fun k (a : Arr N) => is_vec n a /\ forall d i, i < n ->
     nth i (adata a) d = if i <? k then f (nth i (adata v) d) (nth i (adata p) d) else nth i (adata v) d)
    0 n (fun i v => pi <- a_idx p i ;; vi <- a_idx v i ;; a_setidx v i (f vi pi)) v) as (w & E & Hw & Hd).
  - lia.
  - split; [split; auto|]. auto.
  - intros i t [_ Hi] [[Lt Ct] Ht]. unfold a_idx, a_setidx.
    rewrite (rd_nth (adata p) _ n0) by lia. cbn [bind]. rewrite (rd_nth (adata t) _ n0) by lia. cbn [bind].
    rewrite wr_ok by lia. cbn [bind]. eexists. split; [reflexivity|]. cbn [adata acols].
    split; [split; cbn [adata acols]; auto; now rewrite upd_length|]. intros d k Hk. rewrite nth_upd by lia.
    destruct (Nat.eqb_spec i k) as [->|].
    + rewrite Ht by lia. rewrite Nat.ltb_irrefl. destruct (Nat.ltb_spec k (S k)); [|lia].
      rewrite (nth_indep (adata v) d n0), (nth_indep (adata p) d n0) by lia. reflexivity.
    + rewrite Ht by lia. destruct (Nat.ltb_spec k i), (Nat.ltb_spec k (S i)); auto; lia.
  - exists w. split; auto. split; auto. intros d i Hi. rewrite Hd by auto. apply Nat.ltb_lt in Hi. now rewrite Hi.
Qed.
(** the same with the reads in the other order *)
Lemma update_ok' n (f : N -> N -> N) (v p : Arr N) : is_vec n v -> is_vec n p ->
  exists w, for_range 0 n (fun i v => pi <- a_idx p i ;; vi <- a_idx v i ;; a_setidx v i (f pi vi)) v = Ok w /\ is_vec n w /\
  forall d i, i < n -> nth i (adata w) d = f (nth i (adata p) d) (nth i (adata v) d).
Proof. intros Hv Hp. exact (update_ok n (fun a b => f b a) v p Hv Hp). Qed.
End Any.

Open Scope R_scope.
Local Notation E := ENum.
Lemma axpy_fin n x s p u v : holds n x u -> holds n p v ->
  exists w, cg_axpy (N := E) n x (Fin s) p = Ok w /\ holds n w (fun i => u i + s * v i).
Proof.
  intros Hx Hp. destruct (update_ok (N := E) n (fun a b => nadd (n := E) a (nmul (n := E) (Fin s) b)) x p) as (w & Ew & [L C] & H); eauto using holds_vec.
  exists w. split; auto. split; [|split]; auto. intros i Hi. rewrite (H Nan) by auto.
  destruct Hx as (_ & _ & Hx), Hp as (_ & _ & Hp). rewrite Hx, Hp by auto. reflexivity.
Qed.
Lemma axmy_fin n x s p u v : holds n x u -> holds n p v ->
  exists w, cg_axmy (N := E) n x (Fin s) p = Ok w /\ holds n w (fun i => u i - s * v i).
Proof.
  intros Hx Hp. destruct (update_ok (N := E) n (fun a b => nsub (n := E) a (nmul (n := E) (Fin s) b)) x p) as (w & Ew & [L C] & H); eauto using holds_vec.
  exists w. split; auto. split; [|split]; auto. intros i Hi. rewrite (H Nan) by auto.
  destruct Hx as (_ & _ & Hx), Hp as (_ & _ & Hp). rewrite Hx, Hp by auto. reflexivity.
Qed.
Lemma dir_fin n p s r u v : holds n p u -> holds n r v ->
  exists w, cg_dir (N := E) n p (Fin s) r = Ok w /\ holds n w (fun i => v i + s * u i).
Proof.
  intros Hp Hr. destruct (update_ok (N := E) n (fun a b => nadd (n := E) b (nmul (n := E) (Fin s) a)) p r) as (w & Ew & [L C] & H); eauto using holds_vec.
  exists w. split; auto. split; [|split]; auto. intros i Hi. rewrite (H Nan) by auto.
  destruct Hp as (_ & _ & Hp), Hr as (_ & _ & Hr). rewrite Hr, Hp by auto. reflexivity.
Qed.

Section Run.
Variables (n : nat) (a : Arr E) (M : mtx) (b x0 : vec) (tol : R).
Hypotheses (Hn : (0 < n)%nat) (Ha : holds_mat n a M).
Notation sq := (cg_seq n M b x0).

Definition about (k : nat) (s : cg_state (N := E)) : Prop :=
  let '(x, r, p, q) := s in holds n x (cx (sq k)) /\ holds n r (cr (sq k)) /\ holds n p (cp (sq k)) /\
  q = Fin (dot n (cr (sq k)) (cr (sq k))).

(** a zero residual comes with a zero direction, so the method never divides by
    a zero residual *)
Lemma dead k : dot n (cr (sq k)) (cr (sq k)) = 0 -> forall i, (i < n)%nat -> cp (sq k) i = 0.
Proof.
  destruct k as [|k]; intros H i Hi; pose proof (dot_self_zero _ _ H i Hi) as Hr.
  - exact Hr.
  - cbn [cg_seq cp cr] in *. rewrite Hr. cbn [cg_seq cr] in H. rewrite H. unfold Rdiv. ring.
Qed.
Lemma dead_breaks k : dot n (cr (sq k)) (cr (sq k)) = 0 -> breaks n M b x0 k.
Proof.
  intros H. unfold breaks, quad, dot. apply Rsum_zero. intros i Hi. rewrite (dead k H i Hi). ring.
Qed.

Lemma step_breaks k s : about k s -> breaks n M b x0 k -> cg_step (N := E) a n (Fin tol) s = Ok (Done (Failed DidNotConverge)).
Proof.
  destruct s as [[[x r] p] q]. intros (Hx & Hr & Hp & ->) Hb. unfold cg_step.
  destruct (mv_fin n a p M _ Hn Ha Hp) as (y & -> & Hy). cbn [bind]. rewrite (dot_fin n p y _ _ Hp Hy). cbn [bind].
  change (dot n (cp (sq k)) (mulmv n M (cp (sq k)))) with (quad n M (cp (sq k))). rewrite Hb.
  change (neqb (n := E) (Fin 0) n0) with (Req_bool 0 0). now rewrite Req_bool_true.
Qed.
Lemma step_goes k s : about k s -> ~ breaks n M b x0 k ->
  (accepts n M b x0 tol k -> exists x, cg_step (N := E) a n (Fin tol) s = Ok (Done (Solved x)) /\ holds n x (cx (sq (S k)))) /\
  (~ accepts n M b x0 tol k -> exists s', cg_step (N := E) a n (Fin tol) s = Ok (Next s') /\ about (S k) s').
Proof.
  destruct s as [[[x r] p] q]. intros (Hx & Hr & Hp & ->) Hb. unfold cg_step.
  assert (Hrr : dot n (cr (sq k)) (cr (sq k)) <> 0) by (intros H0; apply Hb; now apply dead_breaks).
  destruct (mv_fin n a p M _ Hn Ha Hp) as (y & -> & Hy). cbn [bind]. rewrite (dot_fin n p y _ _ Hp Hy). cbn [bind].
  change (dot n (cp (sq k)) (mulmv n M (cp (sq k)))) with (quad n M (cp (sq k))).
  change (neqb (n := E) (Fin (quad n M (cp (sq k)))) n0) with (Req_bool (quad n M (cp (sq k))) 0).
  rewrite Req_bool_false by exact Hb. cbv zeta.
  change (ndiv (n := E) ?u ?v) with (ext_div u v). rewrite ext_div_fin by exact Hb.
  set (al := dot n (cr (sq k)) (cr (sq k)) / quad n M (cp (sq k))).
  destruct (axpy_fin n x al p _ _ Hx Hp) as (x1 & -> & Hx1). cbn [bind].
  destruct (axmy_fin n r al y _ _ Hr Hy) as (r1 & -> & Hr1). cbn [bind].
  rewrite (dot_fin n r1 r1 _ _ Hr1 Hr1). cbn [bind].
  rewrite ext_sqrt_fin by apply dot_self_nonneg.
  change (nltb (n := E) (Fin ?u) (Fin tol)) with (Rlt_bool u tol).
  change (sqrt (dot n (fun i => cr (sq k) i - al * mulmv n M (cp (sq k)) i) (fun i => cr (sq k) i - al * mulmv n M (cp (sq k)) i)))
    with (norm2 n (cr (sq (S k)))).
  split; intros Hc; unfold accepts in Hc.
  - rewrite Rlt_bool_true by auto. exists x1. split; auto.
  - rewrite Rlt_bool_false by lra. cbv zeta. rewrite ext_div_fin by auto.
    destruct (dir_fin n p (dot n (cr (sq (S k))) (cr (sq (S k))) / dot n (cr (sq k)) (cr (sq k))) r1 _ _ Hp Hr1) as (p1 & Ep & Hp1).
    change (dot n (fun i => cr (sq k) i - al * mulmv n M (cp (sq k)) i) (fun i => cr (sq k) i - al * mulmv n M (cp (sq k)) i))
      with (dot n (cr (sq (S k))) (cr (sq (S k)))). rewrite Ep. cbn [bind].
    eexists. split; [reflexivity|]. split; [|split; [|split]]; auto.
Qed.
End Run.
(** the start handed to the method *)
Definition starts (n : nat) (o : option (Arr E)) (v : vec) : Prop :=
  match o with Some x => holds n x v | None => forall i, (i < n)%nat -> v i = 0 end.
Lemma new_holds n v : (forall i, (i < n)%nat -> v i = 0) -> holds n (a_new (N := E) n) v.
Proof.
  intros H. split; [apply repeat_length|]. split; [reflexivity|]. intros i Hi. rewrite H by auto.
  cbn [a_new adata]. rewrite (nth_indep _ _ (n0 (N := E))) by now rewrite repeat_length. now rewrite nth_repeat.
Qed.

Lemma cg_outcome n a b o M c v tol m : (0 < n)%nat -> holds_mat n a M -> holds n b c -> starts n o v ->
  let run := conjugate_gradient (N := E) a b o (Fin tol) m in
  (forall k, first_below m (fun k => breaks n M c v k \/ accepts n M c v tol k) k ->
     (breaks n M c v k -> run = Ok (Failed DidNotConverge)) /\
     (~ breaks n M c v k -> exists x, run = Ok (Solved x) /\ holds n x (cx (cg_seq n M c v (S k))))) /\
  (none_below m (fun k => breaks n M c v k \/ accepts n M c v tol k) -> run = Ok (Failed OutOfIterations)).
Proof.
  intros Hn Ha Hb Ho run.
  assert (Hx : exists x, holds n x v /\ run = (ax <- a_dot_mv (N := E) a x ;; residual <- a_sub (N := E) b ax ;;
    q <- a_dot (N := E) residual residual ;;
    c <- loop_range 0 m (fun _ s => cg_step (N := E) a n (Fin tol) s) (x, residual, residual, q) ;;
    match c with Done r => Ok r | Next _ => Ok (Failed OutOfIterations) end)).
  { assert (L : a_len (N := E) b = n) by apply Hb. unfold run, conjugate_gradient. rewrite L. destruct o as [x|].
    - exists x. split; auto.
    - exists (a_new (N := E) n). split; auto. now apply new_holds. }
  destruct Hx as (x & Hx & ->).
  destruct (mv_fin n a x M v Hn Ha Hx) as (ax & -> & Hax). cbn [bind].
  destruct (sub_fin n b ax c _ Hb Hax) as (r & -> & Hr). cbn [bind].
  rewrite (dot_fin n r r _ _ Hr Hr). cbn [bind].
  set (q := dot n _ _).
  match goal with |- context [loop_range 0 m ?body ?st] =>
  destruct (loop_first (fun k => breaks n M c v k \/ accepts n M c v tol k) (about n M c v)
    (fun k r => (breaks n M c v k -> r = Failed DidNotConverge) /\
                (~ breaks n M c v k -> exists x, r = Solved x /\ holds n x (cx (cg_seq n M c v (S k)))))
    body) with (m := m) (s := st) as [H1 H2] end.
  - intros k s Hk Hs. destruct (Req_dec (quad n M (cp (cg_seq n M c v k))) 0) as [Hz|Hz].
    + exists (Failed DidNotConverge). split; [eapply step_breaks; eauto|]. split; auto. intros H; elim (H Hz).
    + destruct Hs as [Hs|Hs]; [elim (Hz Hs)|]. destruct (step_goes n a M c v tol Hn Ha k s Hk Hz) as [G _].
      destruct (G Hs) as (y & Ey & Hy). exists (Solved y). split; auto. split; [intros H; elim (Hz H)|]. eauto.
  - intros k s Hk Hs. destruct (step_goes n a M c v tol Hn Ha k s Hk) as [_ G]; auto.
  - split; [|split; [|split]]; auto.
  - split.
    + intros k Hk. destruct (H1 k Hk) as (y & Ey & Hy1 & Hy2). split.
      * intros Hz. now rewrite Ey, (Hy1 Hz).
      * intros Hz. destruct (Hy2 Hz) as (w & -> & Hw). exists w. split; auto. now rewrite Ey.
    + intros Hk. destruct (H2 Hk) as (s & Es & _). now rewrite Es.
Qed.
