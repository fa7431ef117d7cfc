(** What the SVM oracle computes. *)
From Coq Require Import ZArith Reals List Bool Arith Lia Lra.
From Flocq Require Import Core.
From Verif Require Import Num Res Arr ArrLemmas CuttingPlane Spec RealLin EllReal LmiSpec ExtSpec ExtDefined Svm SvmSpec.
Import ListNotations.
Open Scope nat_scope.

Lemma nth_skipn_add {A} (l : list A) k j d : nth j (skipn k l) d = nth (k + j) l d.
Proof. revert l; induction k; intros [|x l]; cbn; auto. destruct j; reflexivity. Qed.
Lemma nth_firstn_lt {A} (l : list A) k j d : j < k -> nth j (firstn k l) d = nth j l d.
Proof. revert l j; induction k; intros [|x l] j H; cbn; try lia; auto. destruct j; auto. apply IHk. lia. Qed.
Section Any.
Context {N : Num}.
Notation arr := (Arr N).
Lemma a_row_ok r c (a : arr) i : 0 < c -> is_mat r c a -> i < r ->
  a_row a i = Ok (mkArr (map (fun j => mget c (adata a) i j) (seq 0 c)) c 0).
Proof.
  intros Hc (L & Rr & Cc) Hi. unfold a_row, a_is_2d, slice. rewrite Rr, Cc, L.
  pose proof (flat_lt c r i (c - 1) Hi ltac:(lia)).
  rewrite (proj2 (Nat.ltb_lt 0 c)), (proj2 (Nat.ltb_lt i r)), (proj2 (Nat.leb_le _ _)) by nia. cbn [assert bind].
  do 2 f_equal. apply (list_map_seq _ _ _ n0).
  - rewrite firstn_length, skipn_length, L. nia.
  - intros j Hj. rewrite nth_firstn_lt, nth_skipn_add by auto. reflexivity.
Qed.
Lemma copy_ok n (xc : arr) : n <= length (adata xc) ->
  for_range 0 n (fun i a => v <- a_idx xc i ;; a_setidx a i v) (a_new n) = Ok (mkArr (map (vget xc) (seq 0 n)) n 0).
Proof.
  intros L. destruct (for_range_inv (fun k (a : arr) => exists d, a = mkArr d n 0 /\ length d = n /\ forall i, i < k -> nth i d n0 = vget xc i)
    0 n (fun i a => v <- a_idx xc i ;; a_setidx a i v) (a_new n)) as (s & E & d & -> & Ld & D); [lia|..].
  - exists (repeat n0 n). split; [reflexivity|]. split; [apply repeat_length|]. intros; lia.
  - intros i t Hi (d & -> & Ld & D). unfold a_idx, a_setidx. rewrite (rd_nth _ _ n0) by lia. cbn [bind adata arows acols].
    rewrite wr_ok by lia. cbn [bind]. eexists. split; [reflexivity|]. eexists. split; [reflexivity|]. split; [now rewrite upd_length|].
    intros k Hk. rewrite nth_upd by lia. destruct (Nat.eqb_spec i k) as [->|]; [reflexivity|]. apply D. lia.
  - rewrite E. do 2 f_equal. apply (list_map_seq _ _ _ n0); auto.
Qed.

Variables (r c : nat) (data : arr) (labels : list Z) (xc : arr).
Definition v_margin (i : nat) : N := nZ (nth i labels 0%Z) *! (accum nsum0 (fun j => vget xc j *! mget c (adata data) i j) c +! vget xc c).
(** the first strictly smaller one wins *)
Fixpoint run_min (k : nat) : N * nat :=
  match k with
  | O => (npinf, 0)
  | S k => if v_margin k <?! fst (run_min k) then (v_margin k, k) else run_min k
  end.
Hypotheses (Hc : 0 < c) (Hd : is_mat r c data) (Hl : r <= length labels) (Hx : c < length (adata xc)).
Lemma svm_min_ok : svm_min (svm_new data labels) (mkArr (map (vget xc) (seq 0 c)) c 0) (vget xc c) = Ok (run_min r).
Proof.
  unfold svm_min. cbn [svm_new svm_data svm_labels].
  destruct (for_range_inv (fun k (s : N * nat) => s = run_min k) 0 (arows data) (fun i '(min_val, min_idx) =>
    y <- rd labels i ;; xi <- a_row data i ;; d <- a_dot (mkArr (map (vget xc) (seq 0 c)) c 0) xi ;;
    let margin := nZ y *! (d +! vget xc c) in if margin <?! min_val then Ok (margin, i) else Ok (min_val, min_idx)) (npinf, 0)) as (s & E & ->).
  - lia.
  - reflexivity.
  - intros i [m k] Hi Et. pose proof Hd as (L & Rr & Cc). rewrite (rd_nth _ _ 0%Z) by lia. cbn [bind].
    rewrite (a_row_ok r c) by (auto; lia). cbn [bind]. rewrite (a_dot_ok c) by (split; cbn; [rewrite map_length, seq_length; reflexivity|reflexivity]).
    cbn [bind]. cbv zeta.
    replace (accum nsum0 _ c) with (accum nsum0 (fun j => vget xc j *! mget c (adata data) i j) c).
    2: { apply accum_ext. intros j Hj. unfold vget; cbn [adata]; rewrite !nth_map_seq by auto; reflexivity. }
    change (nZ (nth i labels 0%Z) *! _) with (v_margin i). cbn [run_min]. rewrite <- Et. cbn [fst].
    destruct (v_margin i <?! m); eauto.
  - pose proof Hd as (_ & Rr & _). rewrite Rr in E. rewrite <- E. rewrite Rr. reflexivity.
Qed.
Lemma run_min_lt : 0 < r -> snd (run_min r) < r.
Proof.
  intros H. assert (B : forall k, k <= r -> snd (run_min k) < r).
  { induction k as [|k IH]; intros Hk; [exact H|]. cbn. destruct (v_margin k <?! _); cbn; [lia|apply IH; lia]. }
  apply B. lia.
Qed.
Lemma svm_assess_ok gamma m k : run_min r = (m, k) -> (m >=?! n1) = true \/ 0 < r ->
  svm_assess (svm_new data labels) xc gamma =
    if m >=?! n1 then Ok (svm_new data labels, n0, ((a_new (c + 1), mkSingle n0), true))
    else Ok (svm_new data labels, m, ((a_from (map (fun j => -! nZ (nth k labels 0%Z) *! mget c (adata data) k j) (seq 0 c) ++ [-! nZ (nth k labels 0%Z)]), mkSingle m), true)).
Proof.
  intros Em Hr. unfold svm_assess. cbn [svm_new svm_nfeat]. pose proof Hd as (L & Rr & Cc). rewrite Cc.
  rewrite copy_ok by lia. cbn [bind]. unfold a_idx at 1. rewrite (rd_nth _ _ n0) by lia. cbn [bind]. fold (vget xc c).
  replace (mkSvm data labels c) with (svm_new data labels) by (unfold svm_new; now rewrite Cc). rewrite svm_min_ok, Em. cbn [bind].
  destruct (m >=?! n1); [reflexivity|]. destruct Hr as [|Hr]; [discriminate|]. pose proof (run_min_lt Hr) as B. rewrite Em in B. cbn in B.
  cbn [svm_new svm_labels svm_data]. rewrite (rd_nth _ _ 0%Z) by lia. cbn [bind]. rewrite (a_row_ok r c) by auto. cbn [bind adata].
  rewrite map_map. reflexivity.
Qed.
End Any.

Open Scope R_scope.
(** ** finite data, in the extended reals *)
Section Fin.
Variables (d : samples) (o : Svm ENum) (a x : Arr RNum).
Hypotheses (Eo : o = svm_new (N := ENum) (fin_arr a) (svm_labels o)) (Hc : (0 < s_cols d)%nat)
  (La : length (adata a) = (s_rows d * s_cols d)%nat) (Ra : arows a = s_rows d) (Ca : acols a = s_cols d)
  (Dx : forall i j, (i < s_rows d)%nat -> (j < s_cols d)%nat -> nth (i * s_cols d + j) (adata a) 0 = s_x d i j)
  (Ll : (s_rows d <= length (svm_labels o))%nat) (Dy : forall i, (i < s_rows d)%nat -> nth i (svm_labels o) 0%Z = s_y d i)
  (Lx : (s_cols d < length (adata x))%nat).
Notation vm := (v_margin (N := ENum) (s_cols d) (fin_arr a) (svm_labels o) (fin_arr x)).
Notation rm := (run_min (N := ENum) (s_cols d) (fin_arr a) (svm_labels o) (fin_arr x)).
Lemma vm_fin i : (i < s_rows d)%nat -> vm i = Fin (margin d (xvec x) i).
Proof.
  intros Hi. unfold v_margin, margin. rewrite Dy by auto. change (nsum0 (n := ENum)) with (Fin 0).
  rewrite (accum_fin _ (fun j => xvec x j * s_x d i j)).
  - rewrite vget_fin, accum_Rsum. reflexivity.
  - intros j Hj. rewrite vget_fin, mget_fin. unfold mget. change (n0 (N := RNum)) with 0. rewrite Dx by auto. reflexivity.
Qed.
Lemma rm_fin k : (k <= s_rows d)%nat -> (0 < k)%nat ->
  exists j, rm k = (Fin (margin d (xvec x) j), j) /\ (j < k)%nat /\
    (forall i, (i < k)%nat -> margin d (xvec x) j <= margin d (xvec x) i) /\ (forall i, (i < j)%nat -> margin d (xvec x) j < margin d (xvec x) i).
Proof.
  induction k as [|k IH]; intros Hk H0; [lia|]. cbn [run_min]. rewrite vm_fin by lia. destruct k as [|k].
  - exists 0%nat. cbn [run_min fst]. split; [reflexivity|]. split; [lia|]. split; [|intros; lia]. intros i Hi. assert (i = 0)%nat as -> by lia. lra.
  - destruct IH as (j & E & J1 & J2 & J3); [lia..|]. rewrite E. cbn [fst]. cbn [nltb ENum ext_ltb].
    destruct (Rlt_bool _ _) eqn:C.
    + apply Rlt_bool_iff in C. exists (S k). split; [reflexivity|]. split; [lia|]. split.
      * intros i Hi. destruct (Nat.eq_dec i (S k)) as [->|]; [lra|]. specialize (J2 i ltac:(lia)). lra.
      * intros i Hi. specialize (J2 i ltac:(lia)). lra.
    + apply Rlt_bool_no in C. exists j. split; [reflexivity|]. split; [lia|]. split; [|exact J3].
      intros i Hi. destruct (Nat.eq_dec i (S k)) as [->|]; [lra|]. apply J2. lia.
Qed.
Lemma fin_mat : is_mat (s_rows d) (s_cols d) (fin_arr a).
Proof. split; [cbn; now rewrite map_length|split; assumption]. Qed.
Lemma svm_fin (gamma : ext) : 
  (s_rows d = 0%nat /\ svm_assess (N := ENum) o (fin_arr x) gamma = Ok (o, Fin 0, ((a_new (N := ENum) (s_cols d + 1), mkSingle (N := ENum) (Fin 0)), true))) \/
  exists k, weakest d (xvec x) k /\
    ((1 <= margin d (xvec x) k /\ svm_assess (N := ENum) o (fin_arr x) gamma = Ok (o, Fin 0, ((a_new (N := ENum) (s_cols d + 1), mkSingle (N := ENum) (Fin 0)), true))) \/
     (margin d (xvec x) k < 1 /\ exists g : Arr RNum, length (adata g) = (s_cols d + 1)%nat /\ acols g = 0%nat /\
        (forall j, (j < s_cols d)%nat -> xvec g j = - (IZR (s_y d k) * s_x d k j)) /\ xvec g (s_cols d) = - IZR (s_y d k) /\
        svm_assess (N := ENum) o (fin_arr x) gamma = Ok (o, Fin (margin d (xvec x) k), ((fin_arr g, mkSingle (N := ENum) (Fin (margin d (xvec x) k))), true)))).
Proof.
  assert (LX : (s_cols d < length (adata (fin_arr x)))%nat) by (cbn; now rewrite map_length).
  rewrite Eo. destruct (Nat.eq_dec (s_rows d) 0) as [Z|Z].
  - left. split; [exact Z|]. rewrite (svm_assess_ok (N := ENum) (s_rows d) (s_cols d) (fin_arr a) (svm_labels o) (fin_arr x) Hc fin_mat Ll LX gamma PInf 0);
    [reflexivity|now rewrite Z|left; reflexivity].
  - right. destruct (rm_fin (s_rows d) (le_n _) ltac:(lia)) as (k & E & K1 & K2 & K3). exists k. split; [repeat split; assumption|].
    rewrite (svm_assess_ok (N := ENum) (s_rows d) (s_cols d) (fin_arr a) (svm_labels o) (fin_arr x) Hc fin_mat Ll LX gamma _ _ E) by (right; lia).
    change (nleb (n := ENum)) with ext_leb. change (n1 (N := ENum)) with (Fin 1). cbn [ext_leb].
    destruct (Rle_bool 1 (margin d (xvec x) k)) eqn:C.
    + left. apply Rle_bool_iff in C. split; [exact C|reflexivity].
    + right. apply Rle_bool_no in C. split; [exact C|].
      exists (a_from (N := RNum) (map (fun j => - (IZR (s_y d k) * s_x d k j)) (seq 0 (s_cols d)) ++ [- IZR (s_y d k)])).
      split; [cbn; rewrite app_length, map_length, seq_length; reflexivity|]. split; [reflexivity|].
      split; [intros j Hj; unfold xvec; cbn [adata a_from]; rewrite app_nth1 by (now rewrite map_length, seq_length); now rewrite nth_map_seq|].
      split; [unfold xvec; cbn [adata a_from]; rewrite app_nth2; rewrite map_length, seq_length; [rewrite Nat.sub_diag; reflexivity|lia]|].
      match goal with |- Ok (_, _, ((?A, _), _)) = Ok (_, _, ((?B, _), _)) => assert (AB : A = B); [|rewrite AB; reflexivity] end.
      unfold fin_arr at 2, a_from. cbn [adata arows acols]. rewrite map_app, map_map. f_equal.
      * apply f_equal2.
        -- apply map_ext_in. intros j Hj. apply in_seq in Hj. rewrite Dy, mget_fin by auto. unfold mget. change (n0 (N := RNum)) with 0. rewrite Dx by lia.
           cbn. f_equal. ring.
        -- rewrite Dy by auto. reflexivity.
      * rewrite !app_length, !map_length. reflexivity.
Qed.
End Fin.

(** a point whose smallest margin is at least as large is never cut off by the
    half space through the queried point *)
Lemma svm_halfspace d x g k z : (k < s_rows d)%nat ->
  (forall j, (j < s_cols d)%nat -> g j = - (IZR (s_y d k) * s_x d k j)) -> g (s_cols d) = - IZR (s_y d k) ->
  dot (s_cols d + 1) g (fun i => z i - x i) = margin d x k - margin d z k.
Proof.
  intros Hk G1 G2. rewrite Nat.add_1_r. unfold dot. cbn [Rsum]. rewrite G2. unfold margin, dot.
  rewrite (Rsum_ext _ _ (fun j => IZR (s_y d k) * (x j * s_x d k j) + - IZR (s_y d k) * (z j * s_x d k j))) by (intros j Hj; rewrite G1 by auto; ring).
  rewrite Rsum_plus, !Rsum_scal. ring.
Qed.
Lemma svm_answer (o : Svm ENum) d (x : Arr RNum) (gamma : ext) : svm_about o d -> (s_cols d < length (adata x))%nat ->
  exists gamma' g beta, svm_assess (N := ENum) o (fin_arr x) gamma = Ok (o, Fin gamma', ((fin_arr g, mkSingle (N := ENum) (Fin beta)), true)) /\
    length (adata g) = (s_cols d + 1)%nat /\ acols g = 0%nat /\
    (s_rows d = 0%nat \/ exists k, weakest d (xvec x) k /\
       (1 <= margin d (xvec x) k \/
        (gamma' = margin d (xvec x) k /\ beta = gamma' /\
         (forall j, (j < s_cols d)%nat -> xvec g j = - (IZR (s_y d k) * s_x d k j)) /\ xvec g (s_cols d) = - IZR (s_y d k)))) /\
    ((forall i, (i < s_rows d)%nat -> 1 <= margin d (xvec x) i) -> gamma' = 0 /\ beta = 0 /\ forall j, xvec g j = 0) /\
    (forall z, (forall i, (i < s_rows d)%nat -> gamma' <= margin d z i) -> dot (s_cols d + 1) (xvec g) (fun i => z i - xvec x i) <= 0).
Proof.
  intros (a & Eo & Hc & La & Ra & Ca & Dx & Ll & Dy) Lx.
  assert (Z : forall j, xvec (a_new (N := RNum) (s_cols d + 1)) j = 0).
  { intros j. unfold xvec. cbn [a_new adata]. change (n0 (N := RNum)) with 0. apply nth_repeat. }
  assert (ZA : a_new (N := ENum) (s_cols d + 1) = fin_arr (a_new (N := RNum) (s_cols d + 1))).
  { unfold a_new, fin_arr. cbn [adata arows acols]. f_equal. generalize (s_cols d + 1)%nat as n. induction n as [|n IH]; [reflexivity|]. cbn [repeat map]. rewrite <- IH. reflexivity. }
  assert (Zero : svm_assess (N := ENum) o (fin_arr x) gamma = Ok (o, Fin 0, ((a_new (N := ENum) (s_cols d + 1), mkSingle (N := ENum) (Fin 0)), true)) ->
    (s_rows d = 0%nat \/ exists k, weakest d (xvec x) k /\ 1 <= margin d (xvec x) k) ->
    exists gamma' g beta, svm_assess (N := ENum) o (fin_arr x) gamma = Ok (o, Fin gamma', ((fin_arr g, mkSingle (N := ENum) (Fin beta)), true)) /\
    length (adata g) = (s_cols d + 1)%nat /\ acols g = 0%nat /\
    (s_rows d = 0%nat \/ exists k, weakest d (xvec x) k /\
       (1 <= margin d (xvec x) k \/
        (gamma' = margin d (xvec x) k /\ beta = gamma' /\
         (forall j, (j < s_cols d)%nat -> xvec g j = - (IZR (s_y d k) * s_x d k j)) /\ xvec g (s_cols d) = - IZR (s_y d k)))) /\
    ((forall i, (i < s_rows d)%nat -> 1 <= margin d (xvec x) i) -> gamma' = 0 /\ beta = 0 /\ forall j, xvec g j = 0) /\
    (forall z, (forall i, (i < s_rows d)%nat -> gamma' <= margin d z i) -> dot (s_cols d + 1) (xvec g) (fun i => z i - xvec x i) <= 0)).
  { intros E K. exists 0, (a_new (N := RNum) (s_cols d + 1)), 0. rewrite E, ZA. split; [reflexivity|]. split; [apply repeat_length|]. split; [reflexivity|].
    split; [destruct K as [K|(k & K1 & K2)]; [left; exact K|right; exists k; split; [exact K1|left; exact K2]]|].
    split; [auto|]. intros z _. right. unfold dot. apply Rsum_zero. intros i _. rewrite Z. ring. }
  destruct (svm_fin d o a x Eo Hc La Ra Ca Dx Ll Dy Lx gamma) as [(R0 & E)|(k & W & [(M & E)|(M & g & G0 & G1 & G2 & G3 & E)])].
  - apply Zero; auto.
  - apply Zero; [exact E|]. right. exists k. auto.
  - exists (margin d (xvec x) k), g, (margin d (xvec x) k). split; [exact E|]. split; [exact G0|]. split; [exact G1|].
    split; [right; exists k; split; [exact W|right; auto]|].
    split; [intros K; specialize (K k (proj1 W)); lra|].
    intros z Hz. rewrite (svm_halfspace d (xvec x) (xvec g) k z (proj1 W) G2 G3). specialize (Hz k (proj1 W)). lra.
Qed.
(** every answer claims an improvement, for any number type and any input *)
Lemma svm_always {N : Num} (o : Svm N) xc gamma o' gamma' cut b : svm_assess o xc gamma = Ok (o', gamma', (cut, b)) -> b = true /\ o' = o.
Proof.
  unfold svm_assess. intros E. apply bind_inv in E as (w & _ & E). apply bind_inv in E as (v & _ & E). apply bind_inv in E as ([m k] & _ & E).
  destruct (m >=?! n1); [inversion E; auto|]. apply bind_inv in E as (y & _ & E). apply bind_inv in E as (xi & _ & E). inversion E; auto.
Qed.
(** the bias in the answer is not usable as a bias: the cut g.(z-x) + beta <= 0
    excludes points with a larger smallest margin *)
Lemma svm_bias_wrong : exists (o : Svm ENum) d (x : Arr RNum) (gamma' : R) g beta z, svm_about o d /\ length (adata x) = (s_cols d + 1)%nat /\
  svm_assess (N := ENum) o (fin_arr x) NInf = Ok (o, Fin gamma', ((fin_arr g, mkSingle (N := ENum) (Fin beta)), true)) /\
  (forall i, (i < s_rows d)%nat -> gamma' < margin d z i) /\ 0 < dot (s_cols d + 1) (xvec g) (fun i => z i - xvec x i) + beta.
Proof.
  pose (d := mkSamples 2 1 (fun i _ => if Nat.eqb i 0 then 1 else -1) (fun i => if Nat.eqb i 0 then 1%Z else (-1)%Z)).
  pose (a := mkArr (N := RNum) [1; -1] 2 1). pose (o := svm_new (N := ENum) (fin_arr a) [1%Z; (-1)%Z]).
  pose (x := mkArr (N := RNum) [1 / 2; 0] 2 0). pose (z := fun i : nat => if Nat.eqb i 0 then 3 / 4 else 0).
  assert (Ab : svm_about o d).
  { exists a. repeat split; try reflexivity; cbn; try lia.
    - intros [|[|i]] [|j] Hi Hj; try lia; reflexivity.
    - intros [|[|i]] Hi; try lia; reflexivity. }
  destruct (svm_answer o d x NInf Ab ltac:(cbn; lia)) as (gamma' & g & beta & E & _ & _ & K & _).
  exists o, d, x, gamma', g, beta, z. split; [exact Ab|]. split; [reflexivity|]. split; [exact E|].
  destruct K as [K|(k & W & K)]; [discriminate|].
  assert (M0 : margin d (xvec x) 0 = 1 / 2) by (unfold margin, dot, xvec; cbn; lra).
  assert (M1 : margin d (xvec x) 1 = 1 / 2) by (unfold margin, dot, xvec; cbn; lra).
  assert (K0 : k = 0%nat).
  { destruct W as (W1 & W2 & W3). cbn in W1. destruct k as [|[|k]]; try lia. specialize (W3 0%nat ltac:(lia)). lra. }
  subst k. destruct K as [K|(-> & -> & G1 & G2)]; [lra|]. rewrite M0.
  assert (Z0 : margin d z 0 = 3 / 4) by (unfold margin, dot, z; cbn; lra).
  assert (Z1 : margin d z 1 = 3 / 4) by (unfold margin, dot, z; cbn; lra).
  split.
  - intros i Hi. cbn in Hi. destruct i as [|[|i]]; try lia; lra.
  - rewrite (svm_halfspace d (xvec x) (xvec g) 0 z) by (auto; cbn; lia). rewrite M0, Z0. lra.
Qed.
