(** What an update of Ell computes, for every number type. *)
From Coq Require Import ZArith List Bool Arith Lia.
From Verif Require Import Num Res Arr CuttingPlane EllCalc Ell ArrLemmas.
Import ListNotations.

Section Gen.
Context {N : Num}.

Lemma ell_move_xc_ok n r (g xc : Arr N) : length (adata g) = n -> length (adata xc) = n ->
  ell_move_xc n r g xc = Ok (mkArr (map (fun i => vget xc i -! r *! vget g i) (seq 0 n)) (arows xc) (acols xc)).
Proof.
  intros Lg Lx. unfold ell_move_xc.
  destruct (for_range_inv (fun k (a : Arr N) => exists d, a = mkArr d (arows xc) (acols xc) /\ length d = n /\
     forall i, i < n -> nth i d n0 = if i <? k then vget xc i -! r *! vget g i else vget xc i)
    0 n (fun i xc => x <- a_idx xc i;; g0 <- a_idx g i;; a_setidx xc i (x -! r *! g0)) xc)
    as (a & E & d & -> & Ld & Hd).
  - lia.
  - exists (adata xc). destruct xc; simpl in *. repeat split; auto.
  - intros i t [_ Hi] (d & -> & Ld & Hd). unfold a_idx, a_setidx. simpl.
    rewrite (rd_nth d _ n0) by lia. simpl. rewrite (rd_nth (adata g) _ n0) by lia. simpl.
    rewrite wr_ok by lia. simpl. eexists. split; [reflexivity|]. eexists. split; [reflexivity|].
    split; [now rewrite upd_length|]. intros k Hk. rewrite nth_upd by lia.
    destruct (Nat.eqb_spec i k) as [->|].
    + rewrite Hd by lia. rewrite Nat.ltb_irrefl. destruct (Nat.ltb_spec k (S k)); [auto|lia].
    + rewrite Hd by lia. destruct (Nat.ltb_spec k i), (Nat.ltb_spec k (S i)); auto; lia.
  - rewrite E. f_equal. f_equal. apply list_map_seq with n0; auto. intros i Hi. rewrite Hd by auto.
    apply Nat.ltb_lt in Hi. now rewrite Hi.
Qed.

(** The new entry (i,j): computed in the lower triangle, mirrored. *)
Definition shrunk (old : nat -> nat -> N) (ratio : N) (g : nat -> N) (i j : nat) : N :=
  if j <=? i then old i j -! ratio *! g i *! g j else old j i -! ratio *! g j *! g i.

Lemma ell_shrink_mq_ok n ratio (g : Arr N) d : length (adata g) = n -> length d = n * n ->
  exists d', ell_shrink_mq n ratio g d = Ok d' /\ length d' = n * n /\
    forall i j, i < n -> j < n -> mget n d' i j = shrunk (mget n d) ratio (vget g) i j.
Proof.
  intros Lg Ld. unfold ell_shrink_mq.
  set (new := shrunk (mget n d) ratio (vget g)).
  destruct (for_range_inv (fun i t => length t = n * n /\ forall a b, a < n -> b < n ->
      mget n t a b = if Nat.max a b <? i then new a b else mget n d a b)
    0 n (fun i d0 => gi <- a_idx g i ;; let r_qg := ratio *! gi in
       for_range 0 (i + 1) (fun j d1 => gj <- a_idx g j ;;
         let update := r_qg *! gj in let idx := i * n + j in
         v <- rd d1 idx ;; d2 <- wr d1 idx (v -! update) ;;
         if negb (i =? j) then w <- rd d2 idx ;; wr d2 (j * n + i) w else Ok d2) d0) d)
    as (d' & E & Ld' & Hd').
  - lia.
  - split; auto.
  - intros i t [_ Hi] [Lt Ht]. unfold a_idx. rewrite (rd_nth (adata g) _ n0) by lia. cbn [bind]. cbv zeta.
    fold (vget g i).
    destruct (for_range_inv (fun j t' => length t' = n * n /\ forall a b, a < n -> b < n ->
        mget n t' a b = if (Nat.max a b <? i) || ((Nat.max a b =? i) && (Nat.min a b <? j)) then new a b else mget n d a b)
      0 (i + 1) (fun j d1 => gj <- rd (adata g) j;;
         v <- rd d1 (i * n + j);; d2 <- wr d1 (i * n + j) (v -! ratio *! vget g i *! gj);;
         (if negb (i =? j) then w <- rd d2 (i * n + j);; wr d2 (j * n + i) w else Ok d2)) t)
      as (t' & E & Lt' & Ht').
    + lia.
    + split; auto. intros a b Ha Hb. rewrite Ht by auto.
      destruct (Nat.ltb_spec (Nat.min a b) 0); [lia|]. now rewrite Bool.andb_false_r, Bool.orb_false_r.
    + intros j u [_ Hj] [Lu Hu].
      assert (Fij : i * n + j < n * n) by (apply flat_lt; lia).
      assert (Fji : j * n + i < n * n) by (apply flat_lt; lia).
      rewrite (rd_nth (adata g) _ n0) by lia. cbn [bind]. fold (vget g j).
      rewrite (rd_nth u _ n0) by lia. cbn [bind]. rewrite wr_ok by lia. cbn [bind].
      fold (mget n u i j).
      assert (Eold : mget n u i j = mget n d i j).
      { rewrite Hu by lia. destruct (Nat.ltb_spec (Nat.max i j) i); [lia|].
        destruct (Nat.ltb_spec (Nat.min i j) j); [lia|]. now rewrite Bool.andb_false_r. }
      rewrite Eold. set (nv := mget n d i j -! ratio *! vget g i *! vget g j).
      assert (En1 : new i j = nv). { unfold new, shrunk. destruct (Nat.leb_spec j i); [reflexivity|lia]. }
      assert (En2 : new j i = nv).
      { unfold new, shrunk. destruct (Nat.leb_spec i j); [|reflexivity]. replace j with i by lia.
        unfold nv. now replace j with i by lia. }
      destruct (Nat.eqb_spec i j) as [<-|Ne]; cbn [negb].
      * eexists. split; [reflexivity|]. split; [now rewrite upd_length|].
        intros a b Ha Hb. rewrite mget_upd by lia. rewrite Hu by lia.
        destruct (Nat.eqb_spec i a) as [<-|]; [destruct (Nat.eqb_spec i b) as [<-|]|]; cbn [andb].
        -- rewrite En1. destruct (Nat.ltb_spec (Nat.max i i) i); [lia|]. destruct (Nat.eqb_spec (Nat.max i i) i); [|lia].
           destruct (Nat.ltb_spec (Nat.min i i) (S i)); [reflexivity|lia].
        -- destruct (Nat.ltb_spec (Nat.max i b) i), (Nat.eqb_spec (Nat.max i b) i), (Nat.ltb_spec (Nat.min i b) i),
             (Nat.ltb_spec (Nat.min i b) (S i)); auto; lia.
        -- destruct (Nat.ltb_spec (Nat.max a b) i), (Nat.eqb_spec (Nat.max a b) i), (Nat.ltb_spec (Nat.min a b) i),
             (Nat.ltb_spec (Nat.min a b) (S i)); auto; lia.
      * rewrite (rd_nth _ _ n0) by (rewrite upd_length; lia). cbn [bind].
        rewrite nth_upd_same by lia. rewrite wr_ok by (rewrite upd_length; lia).
        eexists. split; [reflexivity|]. split; [now rewrite !upd_length|].
        intros a b Ha Hb. rewrite mget_upd by (try rewrite upd_length; lia).
        rewrite mget_upd by lia. rewrite Hu by lia.
        destruct (Nat.eqb_spec j a) as [<-|]; [destruct (Nat.eqb_spec i b) as [<-|]|]; cbn [andb].
        -- rewrite En2. destruct (Nat.ltb_spec (Nat.max j i) i); [lia|]. destruct (Nat.eqb_spec (Nat.max j i) i); [|lia].
           destruct (Nat.ltb_spec (Nat.min j i) (S j)); [reflexivity|lia].
        -- destruct (Nat.eqb_spec i j); [lia|]. cbn [andb].
           destruct (Nat.ltb_spec (Nat.max j b) i), (Nat.eqb_spec (Nat.max j b) i), (Nat.ltb_spec (Nat.min j b) j),
             (Nat.ltb_spec (Nat.min j b) (S j)); auto; lia.
        -- destruct (Nat.eqb_spec i a) as [<-|]; [destruct (Nat.eqb_spec j b) as [<-|]|]; cbn [andb].
           ++ rewrite En1. destruct (Nat.ltb_spec (Nat.max i j) i); [lia|]. destruct (Nat.eqb_spec (Nat.max i j) i); [|lia].
              destruct (Nat.ltb_spec (Nat.min i j) (S j)); [reflexivity|lia].
           ++ destruct (Nat.ltb_spec (Nat.max i b) i), (Nat.eqb_spec (Nat.max i b) i), (Nat.ltb_spec (Nat.min i b) j),
                (Nat.ltb_spec (Nat.min i b) (S j)); auto; lia.
           ++ destruct (Nat.ltb_spec (Nat.max a b) i), (Nat.eqb_spec (Nat.max a b) i), (Nat.ltb_spec (Nat.min a b) j),
                (Nat.ltb_spec (Nat.min a b) (S j)); auto; lia.
    + exists t'. split; auto. split; auto. intros a b Ha Hb. rewrite Ht' by auto.
      destruct (Nat.ltb_spec (Nat.max a b) i), (Nat.eqb_spec (Nat.max a b) i), (Nat.ltb_spec (Nat.min a b) (i + 1)),
        (Nat.ltb_spec (Nat.max a b) (S i)); auto; lia.
  - exists d'. split; auto. split; auto. intros a b Ha Hb. rewrite Hd' by auto.
    destruct (Nat.ltb_spec (Nat.max a b) n); auto; lia.
Qed.

(** The shape the code expects. *)
Definition ell_wf (n : nat) (e : Ell N) : Prop :=
  0 < n /\ is_mat n n (e_mq e) /\ length (adata (e_xc e)) = n.

(** The pieces of one update, from the state before it. *)
Definition gt (e : Ell N) (g : Arr N) (n i : nat) : N :=
  accum n0 (fun j => mget n (adata (e_mq e)) i j *! vget g j) n.
Definition omega (e : Ell N) (g : Arr N) (n : nat) : N :=
  accum nsum0 (fun i => vget g i *! gt e g n i) n.

Lemma ell_update_core_ok n (e : Ell N) (g : Arr N) (strategy : N -> cutres N) :
  ell_wf n e -> is_vec n g ->
  let om := omega e g n in
  let tsq := e_kappa e *! om in
  exists e' st rho sigma delta,
    strategy tsq = (st, (rho, sigma, delta)) /\
    ell_update_core e g strategy = Ok (e', st) /\ ell_wf n e' /\
    e_tsq e' = tsq /\ e_helper e' = e_helper e /\ e_no_defer e' = e_no_defer e /\
    arows (e_xc e') = arows (e_xc e) /\ acols (e_xc e') = acols (e_xc e) /\
    (st <> Success -> e' = mkEll (e_no_defer e) (e_mq e) (e_xc e) (e_kappa e) (e_helper e) tsq) /\
    (st = Success ->
      (forall i, i < n -> vget (e_xc e') i = vget (e_xc e) i -! rho /! om *! gt e g n i) /\
      e_kappa e' = (if e_no_defer e then n1 else e_kappa e *! delta) /\
      (forall i j, i < n -> j < n ->
         let m := shrunk (mget n (adata (e_mq e))) (sigma /! om) (gt e g n) i j in
         mget n (adata (e_mq e')) i j = if e_no_defer e then m *! (e_kappa e *! delta) else m)).
Proof.
  intros (Hn & Hm & Hx) Hg om tsq. pose proof Hm as (Lm & Rm & Cm).
  unfold ell_update_core. rewrite (a_dot_mv_ok n n) by auto. cbn [bind].
  set (gta := mkArr (map _ (seq 0 n)) n 0).
  assert (Hgt : is_vec n gta) by (split; [simpl; now rewrite map_length, seq_length|reflexivity]).
  assert (Vgt : forall i, i < n -> vget gta i = gt e g n i).
  { intros i Hi. unfold vget, gta. simpl. now rewrite nth_map_seq. }
  rewrite (a_dot_ok n) by auto. cbn [bind].
  assert (Eom : accum nsum0 (fun i => vget g i *! vget gta i) n = om).
  { apply accum_ext. intros i Hi. now rewrite Vgt. }
  rewrite Eom. cbv zeta. fold tsq.
  destruct (strategy tsq) as [st [[rho sigma] delta]] eqn:Es.
  destruct (is_success st) eqn:Est; cbn [negb].
  - assert (st = Success) by (destruct st; simpl in Est; congruence). subst st.
    cbn [e_no_defer e_mq e_xc e_kappa e_helper e_tsq].
    unfold a_len. rewrite Hx.
    rewrite ell_move_xc_ok by (auto; apply Hgt). cbn [bind].
    destruct (ell_shrink_mq_ok n (sigma /! om) gta (adata (e_mq e))) as (d' & Ed & Ld & Hd).
    { apply Hgt. } { auto. }
    rewrite Ed. cbn [bind].
    assert (Hs : forall i j, i < n -> j < n ->
       shrunk (mget n (adata (e_mq e))) (sigma /! om) (vget gta) i j =
       shrunk (mget n (adata (e_mq e))) (sigma /! om) (gt e g n) i j).
    { intros i j Hi Hj. unfold shrunk. now rewrite !Vgt by auto. }
    destruct (e_no_defer e) eqn:End.
    + eexists _, Success, rho, sigma, delta. split; [reflexivity|]. split; [reflexivity|].
      split. { split; auto. split; [|simpl; now rewrite map_length, seq_length].
        split; [simpl; now rewrite map_length|]. simpl. auto. }
      do 5 (split; [reflexivity|]). split; [congruence|]. intros _. cbn [e_xc e_kappa e_mq].
      split; [|split].
      * intros i Hi. unfold vget at 1. simpl. rewrite nth_map_seq by auto. now rewrite Vgt.
      * reflexivity.
      * intros i j Hi Hj. unfold mget at 1. simpl.
        rewrite (nth_indep _ n0 (n0 *! (e_kappa e *! delta))) by (rewrite map_length, Ld; now apply flat_lt).
        rewrite (map_nth (fun v => v *! (e_kappa e *! delta))). fold (mget n d' i j). rewrite Hd by auto. now rewrite Hs.
    + eexists _, Success, rho, sigma, delta. split; [reflexivity|]. split; [reflexivity|].
      split. { split; auto. split; [|simpl; now rewrite map_length, seq_length].
        split; [simpl; auto|]. simpl. auto. }
      do 5 (split; [reflexivity|]). split; [congruence|]. intros _. cbn [e_xc e_kappa e_mq].
      split; [|split].
      * intros i Hi. unfold vget at 1. simpl. rewrite nth_map_seq by auto. now rewrite Vgt.
      * reflexivity.
      * intros i j Hi Hj. cbn [adata]. rewrite Hd by auto. now rewrite Hs.
  - assert (st <> Success) by (destruct st; simpl in Est; congruence).
    eexists _, st, rho, sigma, delta. split; [reflexivity|]. split; [reflexivity|].
    split. { split; auto. }
    do 5 (split; [reflexivity|]). split; [auto|]. intros; congruence.
Qed.

(** A rejected cut changes nothing but [tsq]; no shape assumption. *)
Lemma ell_update_core_rejected (e : Ell N) g strategy e' st :
  ell_update_core e g strategy = Ok (e', st) -> st <> Success ->
  e' = mkEll (e_no_defer e) (e_mq e) (e_xc e) (e_kappa e) (e_helper e) (e_tsq e') /\
  exists gtv om rsd, a_dot_mv (e_mq e) g = Ok gtv /\ a_dot g gtv = Ok om /\
    e_tsq e' = e_kappa e *! om /\ strategy (e_tsq e') = (st, rsd).
Proof.
  unfold ell_update_core. intros E Hst.
  apply bind_inv in E as (gtv & E1 & E). apply bind_inv in E as (om & E2 & E).
  cbv zeta in E. destruct (strategy (e_kappa e *! om)) as [st' [[rho sigma] delta]] eqn:Es.
  destruct (is_success st') eqn:Est; cbn [negb] in E.
  - assert (st' = Success) by (destruct st'; simpl in Est; congruence). subst st'. exfalso.
    apply bind_inv in E as (xc & _ & E). apply bind_inv in E as (d & _ & E).
    cbn [e_no_defer] in E. destruct (e_no_defer e); inversion E; congruence.
  - inversion E; subst. simpl. split; auto. exists gtv, om, (rho, sigma, delta). auto.
Qed.

(** The status is the strategy's. *)
Lemma ell_update_core_status (e : Ell N) g strategy e' st :
  ell_update_core e g strategy = Ok (e', st) -> st = fst (strategy (e_tsq e')).
Proof.
  unfold ell_update_core. intros E.
  apply bind_inv in E as (gtv & E1 & E). apply bind_inv in E as (om & E2 & E).
  cbv zeta in E. destruct (strategy (e_kappa e *! om)) as [st' [[rho sigma] delta]] eqn:Es.
  destruct (is_success st') eqn:Est; cbn [negb] in E.
  - apply bind_inv in E as (xc & _ & E). apply bind_inv in E as (d & _ & E).
    cbn [e_no_defer] in E. destruct (e_no_defer e); inversion E; subst; simpl; rewrite Es; auto.
  - inversion E; subst. simpl. now rewrite Es.
Qed.
End Gen.
