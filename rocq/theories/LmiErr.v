(** What a factorisation carried out with small errors says about a matrix all of whose
    entries are at most [M]; and what its approximate witness says.  Pure real-number
    part of C106. *)
From Coq Require Import Reals Arith Lia Lra Psatz Bool.
From Flocq Require Import Core.Raux.
From Verif Require Import Spec RealLin EllSpec StableSpec StableReal LdltReal FloatErr LdltErr LdltRej PowerMore.
Local Open Scope R_scope.

Lemma Rsum_trunc n m f : (m <= n)%nat -> (forall i, (m <= i < n)%nat -> f i = 0) -> Rsum n f = Rsum m f.
Proof.
  intros Hm. replace n with (m + (n - m))%nat by lia. generalize (n - m)%nat as d. induction d; intros H; [now rewrite Nat.add_0_r|].
  rewrite Nat.add_succ_r in *. cbn [Rsum]. rewrite H, IHd by (intros; try apply H; lia). ring.
Qed.
Lemma quad_block_zero n m A x : (m <= n)%nat -> (forall i, (m <= i < n)%nat -> x i = 0) -> quad n A x = quad m A x.
Proof.
  intros Hm Hz. unfold quad, dot, mulmv. rewrite (Rsum_trunc n m) by (auto; intros i Hi; rewrite (Hz i) by auto; ring).
  apply Rsum_ext. intros i Hi. f_equal. apply Rsum_trunc; auto. intros j Hj. rewrite (Hz j) by auto. ring.
Qed.
(** a form with entries at most [c] *)
Lemma quad_entries n (E : mtx) x c : 0 <= c -> (forall i j, (i < n)%nat -> (j < n)%nat -> Rabs (E i j) <= c) ->
  Rabs (quad n E x) <= INR n * c * dot n x x.
Proof.
  intros Hc H. unfold quad, dot at 1, mulmv. eapply Rle_trans; [apply Rabs_Rsum|].
  apply Rle_trans with (Rsum n (fun i => Rabs (x i) * (c * Rsum n (fun j => Rabs (x j))))).
  - apply Rsum_le. intros i Hi. rewrite Rabs_mult. apply Rmult_le_compat_l; [apply Rabs_pos|]. eapply Rle_trans; [apply Rabs_Rsum|].
    rewrite <- Rsum_scal. apply Rsum_le. intros j Hj. rewrite Rabs_mult. apply Rmult_le_compat_r; [apply Rabs_pos|auto].
  - rewrite Rsum_scal_r. set (s := Rsum n (fun j => Rabs (x j))).
    pose proof (cauchy n (fun _ => 1) (fun i => Rabs (x i))) as C.
    assert (E1 : dot n (fun _ => 1) (fun i => Rabs (x i)) = s) by (apply Rsum_ext; intros; ring).
    assert (E2 : dot n (fun _ => 1) (fun _ => 1) = INR n) by (unfold dot; rewrite Rsum_const; ring).
    assert (E3 : dot n (fun i => Rabs (x i)) (fun i => Rabs (x i)) = dot n x x) by (apply Rsum_ext; intros; rewrite <- Rabs_mult; apply Rabs_pos_eq; apply Rle_0_sqr).
    rewrite E1, E2, E3 in C. replace (s * (c * s)) with (c * (s * s)) by ring. replace (INR n * c * dot n x x) with (c * (INR n * dot n x x)) by ring.
    apply Rmult_le_compat_l; auto.
Qed.

Section Err.
Variables (n : nat) (A L T : mtx) (D : vec) (u e w W M : R).
Hypotheses (Hu : 0 < u) (He : 0 < e) (Heu : e <= u) (Hnu : INR n * u <= 1 / 1000) (Hw : 0 < w) (HW : 1 <= W)
  (Htiny : 100 * INR n * W * e <= u * w) (Hn : (1 <= n)%nat) (HM : w <= M <= W) (TD : forall i, T i i = D i).
Notation row_err := (row_err A L T D u e).
Notation RR := (RR L D).
Notation BB := (BB L D).
Notation KK := (KK L D).
Notation ldl := (ldl L D).
Notation MM := (MM L D).
Let nu := INR n * u.
Lemma nuE : 0 < nu <= 1 / 1000 /\ u <= nu.
Proof.
  pose proof (n1 n Hn) as N1. assert (1 * u <= INR n * u) by (apply Rmult_le_compat_r; lra). unfold nu. split; [split; [|exact Hnu]|]; lra.
Qed.
Lemma size_ok i : (i < n)%nat -> row_err i -> (forall k, (k < i)%nat -> 0 < D k <= M) -> 0 < D i -> A i i <= M -> RR i i + D i <= 101 / 100 * M.
Proof.
  intros Hi Ri Pd Di HA. pose proof (diag_err' n A L T D u e w W Hu He Heu Hnu HW Htiny Hn TD i Hi Ri ltac:(intros k Hk; specialize (Pd k Hk); lra)) as H.
  pose proof (RR_pos L D i i ltac:(intros k Hk; apply (Pd k Hk))) as R0.
  rewrite (Rabs_pos_eq (D i)) in H by lra. apply Rabs_le_inv in H. destruct nuE as [[N0 N1] N2].
  assert (U1 : u * D i <= 1 / 1000 * D i) by (apply Rmult_le_compat_r; lra).
  assert (U2 : INR n * u * RR i i <= 1 / 1000 * RR i i) by (apply Rmult_le_compat_r; lra).
  assert (U3 : u * w <= 1 / 1000 * w) by (apply Rmult_le_compat_r; lra).
  lra.
Qed.
Lemma KK_weighted i j a b : (j <= n)%nat -> (forall k, (k < j)%nat -> 0 < D k <= M) -> 0 <= a -> 0 <= b ->
  2 * (a * b) * KK i j <= a * a * RR i j + b * b * (INR n * W).
Proof.
  intros Hj Pd Ha Hb. unfold LdltErr.KK, LdltErr.RR. rewrite <- !Rsum_scal.
  apply Rle_trans with (Rsum j (fun k => a * a * (L i k * L i k * D k) + b * b * W)).
  - apply Rsum_le. intros k Hk. destruct (Pd k Hk) as [P0 P1].
    assert (E1 : Rabs (L i k) * Rabs (L i k) = L i k * L i k) by (rewrite <- Rabs_mult; apply Rabs_pos_eq; apply Rle_0_sqr).
    assert (0 <= (a * Rabs (L i k) - b) * (a * Rabs (L i k) - b) * D k) by (apply Rmult_le_pos; [apply Rle_0_sqr|lra]).
    assert (b * b * D k <= b * b * W) by (apply Rmult_le_compat_l; [apply Rle_0_sqr|lra]). rewrite <- E1. lra.
  - rewrite Rsum_plus. apply Rplus_le_compat_l. rewrite Rsum_const. replace (b * b * (INR n * W)) with (INR n * (b * b * W)) by ring.
    apply Rmult_le_compat_r; [apply Rmult_le_pos; [apply Rle_0_sqr|lra]|now apply le_INR].
Qed.
(** an off-diagonal entry, weighted *)
Lemma off_err i j a b : (i < n)%nat -> (j < i)%nat -> row_err i -> row_err j -> (forall k, (k <= j)%nat -> 0 < D k <= M) -> RR j j + D j <= 101 / 100 * M ->
  0 <= a -> 0 <= b ->
  a * b * Rabs (A i j - ldl i j) <= nu * (3 * (a * a) * RR i (S j) + 2 * (b * b) * M + / 10 * (a * a) * M).
Proof.
  intros Hi Hj Ri Rj Pd R2 a0 b0. destruct (Pd j (le_n j)) as [Dj DMj]. pose proof (n1 n Hn) as N1. destruct (jn n Hn j ltac:(lia)) as [J0 J1].
  pose proof (entry_err n A L T D u e Hu He Hnu Hn i j Hi Hj Ri Rj ltac:(intros; now apply Pd)) as H.
  unfold LdltErr.ldl. rewrite (proj2 (Nat.eqb_neq i j)) by lia.
  set (z := A i j - (Rsum j (fun k => L i k * L j k * D k) + L i j * D j)) in *.
  assert (ab0 : 0 <= a * b) by (apply Rmult_le_pos; auto). assert (aa : 0 <= a * a) by apply Rle_0_sqr. assert (bb : 0 <= b * b) by apply Rle_0_sqr.
  pose proof (BB_weighted L D i j a b ltac:(intros; apply Pd; lia) a0 b0) as W1. pose proof (last_weighted L D i j a b Dj a0 b0) as W2.
  pose proof (KK_weighted i j a b ltac:(lia) ltac:(intros; apply Pd; lia) a0 b0) as W3.
  assert (RS : RR i (S j) = RR i j + L i j * L i j * D j) by reflexivity.
  assert (lq : 0 <= L i j * L i j * D j) by (apply Rmult_le_pos; [apply Rle_0_sqr|lra]).
  pose proof (RR_pos L D i j ltac:(intros; apply Pd; lia)) as R0.
  set (Y := BB i j + Rabs (L i j) * D j) in *.
  assert (W4 : 2 * (a * b) * Y <= a * a * RR i (S j) + b * b * (101 / 100 * M)).
  { unfold Y. assert (b * b * (RR j j + D j) <= b * b * (101 / 100 * M)) by (apply Rmult_le_compat_l; auto). rewrite RS. lra. }
  assert (W0 : 0 <= 2 * (a * b) * Y). { apply Rmult_le_pos; [lra|]. unfold Y. pose proof (BB_pos L D i j ltac:(intros; apply Pd; lia)). assert (0 <= Rabs (L i j) * D j) by (apply Rmult_le_pos; [apply Rabs_pos|lra]). lra. }
  assert (NW : 1 * W <= INR n * W) by (apply Rmult_le_compat_r; lra). assert (NW2 : INR n * 1 <= INR n * W) by (apply Rmult_le_compat_l; lra).
  assert (E1 : a * b * (e * (2 * D j + 2 * KK i j + 4 * INR j + 1)) <= e * (a * a * RR i j) + (a * a + b * b) * (u * w / 20)).
  { assert (X1 : e * (2 * (a * b) * KK i j) <= e * (a * a * RR i j + b * b * (INR n * W))) by (apply Rmult_le_compat_l; lra).
    assert (X2 : a * b * (e * (2 * D j + 4 * INR j + 1)) <= (a * a + b * b) / 2 * (e * (7 * (INR n * W)))).
    { apply Rmult_le_compat; auto; [apply Rmult_le_pos; lra| |apply Rmult_le_compat_l; lra]. pose proof (Rle_0_sqr (a - b)). unfold Rsqr in *. lra. }
    assert (X3 : b * b * (e * (INR n * W)) <= b * b * (u * w / 100)) by (apply Rmult_le_compat_l; lra).
    assert (X4 : (a * a + b * b) / 2 * (e * (7 * (INR n * W))) <= (a * a + b * b) / 2 * (7 * (u * w / 100))) by (apply Rmult_le_compat_l; lra).
    assert (0 <= a * a * (u * w)) by (apply Rmult_le_pos; [auto|apply Rmult_le_pos; lra]). assert (0 <= b * b * (u * w)) by (apply Rmult_le_pos; [auto|apply Rmult_le_pos; lra]). lra. }
  assert (E2 : a * b * Rabs z <= 3 / 2 * ((INR j + 1) * u) * (2 * (a * b) * Y) + (e * (a * a * RR i j) + (a * a + b * b) * (u * w / 20))).
  { apply Rle_trans with (a * b * (3 * (INR j + 1) * u * Y + e * (2 * D j + 2 * KK i j + 4 * INR j + 1))); [apply Rmult_le_compat_l; auto|]. lra. }
  destruct nuE as [[N0 N3] N2].
  assert (E3 : (INR j + 1) * u * (2 * (a * b) * Y) <= nu * (a * a * RR i (S j) + b * b * (101 / 100 * M))).
  { apply Rmult_le_compat; auto; [apply Rmult_le_pos; lra|]. unfold nu. apply Rmult_le_compat_r; lra. }
  assert (S0 : 0 <= a * a * RR i (S j)) by (apply Rmult_le_pos; lra).
  assert (E4 : e * (a * a * RR i j) <= nu * (a * a * RR i (S j))).
  { apply Rmult_le_compat; try lra; [apply Rmult_le_pos; lra|]. apply Rmult_le_compat_l; lra. }
  assert (E5 : (a * a + b * b) * (u * w) <= (a * a + b * b) * (nu * M)) by (apply Rmult_le_compat_l; [lra|]; apply Rmult_le_compat; lra).
  assert (Z1 : 0 <= nu * (a * a * RR i (S j))) by (apply Rmult_le_pos; lra). assert (Z2 : 0 <= nu * (b * b * M)) by (apply Rmult_le_pos; [lra|apply Rmult_le_pos; lra]).
  assert (Z3 : 0 <= nu * (a * a * M)) by (apply Rmult_le_pos; [lra|apply Rmult_le_pos; lra]).
  clear - E2 E3 E4 E5 Z1 Z2 Z3. lra.
Qed.
Lemma RR_mono i j k : (forall q, (q < k)%nat -> 0 < D q) -> (j <= k)%nat -> RR i j <= RR i k.
Proof.
  intros Pd Hj. replace k with (j + (k - j))%nat in * by lia. generalize (k - j)%nat as d, Pd. clear. induction d; intros Pd; [rewrite Nat.add_0_r; lra|].
  rewrite Nat.add_succ_r in *. change (RR i (S (j + d))) with (RR i (j + d) + L i (j + d)%nat * L i (j + d)%nat * D (j + d)%nat).
  assert (0 <= L i (j + d)%nat * L i (j + d)%nat * D (j + d)%nat) by (apply Rmult_le_pos; [apply Rle_0_sqr|left; apply Pd; lia]).
  specialize (IHd ltac:(intros; apply Pd; lia)). lra.
Qed.
(** two rows with positive pivots *)
Lemma both_err i j (x : vec) : (i < n)%nat -> (j <= i)%nat -> (forall k, (k <= i)%nat -> row_err k /\ 0 < D k <= A k k /\ A k k <= M) ->
  Rabs (x i * x j * (A i j - ldl i j)) <= 4 * nu * M * (x i * x i) + 4 * nu * M * (x j * x j).
Proof.
  intros Hi Hj H. destruct nuE as [[N0 N1] N2].
  assert (Pd : forall k, (k <= i)%nat -> 0 < D k <= M) by (intros k Hk; destruct (H k Hk) as (_ & ? & ?); lra).
  assert (Sz : forall k, (k <= i)%nat -> RR k k + D k <= 101 / 100 * M).
  { intros k Hk. apply size_ok; try lia; try apply H; auto. intros; apply Pd; lia. }
  assert (xi : 0 <= x i * x i) by apply Rle_0_sqr. assert (xj : 0 <= x j * x j) by apply Rle_0_sqr.
  assert (Pi : 0 <= nu * (x i * x i * M)) by (apply Rmult_le_pos; [lra|apply Rmult_le_pos; lra]). assert (Pj : 0 <= nu * (x j * x j * M)) by (apply Rmult_le_pos; [lra|apply Rmult_le_pos; lra]).
  destruct (Nat.eq_dec i j) as [->|Hne].
  - rewrite Rabs_mult, Rabs_pos_eq by apply Rle_0_sqr. unfold LdltErr.ldl. rewrite Nat.eqb_refl. fold (RR j j).
    pose proof (diag_err' n A L T D u e w W Hu He Heu Hnu HW Htiny Hn TD j Hi ltac:(apply H; lia) ltac:(intros k Hk; specialize (Pd k ltac:(lia)); lra)) as E.
    specialize (Sz j Hj). pose proof (Pd j Hj) as Dj. pose proof (RR_pos L D j j ltac:(intros k Hk; apply (Pd k); lia)) as R0. rewrite (Rabs_pos_eq (D j)) in E by lra. fold nu in E.
    assert (E2 : Rabs (A j j - (RR j j + D j)) <= 4 * nu * M).
    { apply Rle_trans with (1 := E). assert (u * D j <= nu * D j) by (apply Rmult_le_compat_r; lra). assert (u * w <= nu * M) by (apply Rmult_le_compat; lra).
      assert (nu * (RR j j + D j) <= nu * (101 / 100 * M)) by (apply Rmult_le_compat_l; lra). assert (0 <= nu * D j) by (apply Rmult_le_pos; lra). assert (0 <= nu * M) by (apply Rmult_le_pos; lra).
      replace (3 * INR n * u * RR j j) with (3 * (nu * RR j j)) by (unfold nu; ring). lra. }
    apply Rle_trans with (x j * x j * (4 * nu * M)); [apply Rmult_le_compat_l; auto|]. lra.
  - rewrite !Rabs_mult.
    assert (Ea : x i * x i = Rabs (x i) * Rabs (x i)) by (rewrite <- Rabs_mult; symmetry; apply Rabs_pos_eq; auto).
    assert (Eb : x j * x j = Rabs (x j) * Rabs (x j)) by (rewrite <- Rabs_mult; symmetry; apply Rabs_pos_eq; auto).
    pose proof (off_err i j (Rabs (x i)) (Rabs (x j)) Hi ltac:(lia) ltac:(apply H; lia) ltac:(apply H; lia) ltac:(intros; apply Pd; lia) (Sz j Hj) (Rabs_pos _) (Rabs_pos _)) as E.
    rewrite <- Ea, <- Eb in E. apply Rle_trans with (1 := E).
    assert (RR i (S j) <= 101 / 100 * M). { pose proof (RR_mono i (S j) i ltac:(intros q Hq; apply (Pd q); lia) ltac:(lia)). pose proof (Sz i (le_n i)). pose proof (Pd i (le_n i)). lra. }
    assert (nu * (x i * x i * RR i (S j)) <= nu * (x i * x i * (101 / 100 * M))) by (apply Rmult_le_compat_l; [lra|]; apply Rmult_le_compat_l; auto).
    lra.
Qed.
Lemma accept_M x : sym n A -> (forall i, (i < n)%nat -> row_err i /\ 0 < D i <= A i i /\ A i i <= M) -> (exists i, (i < n)%nat /\ x i <> 0) ->
  0 < quad n A x + 8 * INR n * INR n * u * M * dot n x x.
Proof.
  intros Hs H Hx.
  assert (Q' : quad n MM x - quad n A x <= 2 * INR n * Rsum n (fun i => 4 * nu * M * (x i * x i))).
  { apply quad_diff. intros i j Hi Hj. unfold LdltErr.MM. destruct (Nat.leb_spec j i) as [K|K].
    - pose proof (both_err i j x Hi K ltac:(intros; apply H; lia)) as E. apply Rabs_le_inv in E. lra.
    - pose proof (both_err j i x Hj ltac:(lia) ltac:(intros; apply H; lia)) as E. apply Rabs_le_inv in E. rewrite (Hs i j) by auto. lra. }
  assert (P : 0 < quad n MM x). { apply (ldl_pd n MM L D); auto; [apply MM_sym|apply MM_ldl|]. intros k Hk. apply H; auto. }
  rewrite Rsum_scal in Q'. fold (dot n x x) in Q'. unfold nu in Q'. lra.
Qed.

(** ** A rejected row and its witness *)
Variables (p : nat) (v : vec).
Hypotheses (Hp : (p < n)%nat) (Hn2 : 2000 * (INR n * INR n * u) <= 1) (Hs : sym n A) (Hrow : forall i, (i <= p)%nat -> row_err i)
  (Hpos : forall i, (i < p)%nat -> 0 < D i <= A i i) (HA : forall i j, (i <= p)%nat -> (j <= p)%nat -> Rabs (A i j) <= M)
  (Hv1 : v p = 1) (Hv0 : forall i, (p < i)%nat -> v i = 0)
  (Hres : forall k, (k < p)%nat -> Rabs (v k + Rsum (S p) (fun j => if (k <? j)%nat then L j k * v j else 0)) <=
     3 * INR n * u * Rsum (S p) (fun j => if (k <? j)%nat then Rabs (L j k * v j) else 0) + 4 * INR n * e).
Let Z := dot n v v.
Let S0 := RR p p.
Lemma Z_block : Z = Rsum (S p) (fun i => v i * v i).
Proof. unfold Z, dot. apply Rsum_trunc; [lia|]. intros i Hi. rewrite Hv0 by lia. ring. Qed.
Lemma Z1 : 1 <= Z.
Proof. rewrite Z_block. cbn [Rsum]. rewrite Hv1. assert (0 <= Rsum p (fun i => v i * v i)) by (apply Rsum_nonneg; intros; apply Rle_0_sqr). lra. Qed.
Lemma ok k : (k < p)%nat -> row_err k /\ 0 < D k <= A k k /\ A k k <= M.
Proof. intros Hk. split; [apply Hrow; lia|]. split; [apply Hpos; auto|]. pose proof (HA k k ltac:(lia) ltac:(lia)) as H. apply Rabs_le_inv in H. lra. Qed.
Lemma okM k : (k < p)%nat -> 0 < D k <= M. Proof. intros Hk. destruct (ok k Hk) as (_ & ? & ?). lra. Qed.
Lemma okS k : (k < p)%nat -> RR k k + D k <= 101 / 100 * M.
Proof. intros Hk. apply size_ok; try lia; try apply ok; auto. intros q Hq. apply okM. lia. Qed.
Lemma S0_pos : 0 <= S0. Proof. apply RR_pos. intros k Hk. apply okM; auto. Qed.
Let c i := if (i =? p)%nat then nu * (4 * M + 3 * S0 + Rabs (D p)) else 4 * nu * M * (v i * v i).
Lemma c_low k : (k < p)%nat -> c k = 4 * nu * M * (v k * v k). Proof. intros Hk. unfold c. now rewrite (proj2 (Nat.eqb_neq k p)) by lia. Qed.
Lemma entry_c i j : (i <= p)%nat -> (j <= i)%nat -> Rabs (v i * v j * (A i j - ldl i j)) <= c i + c j.
Proof.
  intros Hi Hj. destruct nuE as [[N0 N1] N2]. pose proof S0_pos as SP. assert (P0 : 0 <= nu * S0) by (apply Rmult_le_pos; lra).
  assert (P1 : 0 <= nu * M) by (apply Rmult_le_pos; lra). assert (P2 : 0 <= nu * Rabs (D p)) by (apply Rmult_le_pos; [lra|apply Rabs_pos]).
  destruct (Nat.eq_dec i p) as [->|Hne].
  - destruct (Nat.eq_dec j p) as [->|Hnj].
    + rewrite Hv1, !Rmult_1_l. unfold LdltErr.ldl, c. rewrite !Nat.eqb_refl. fold (RR p p).
      pose proof (diag_err' n A L T D u e w W Hu He Heu Hnu HW Htiny Hn TD p Hp ltac:(apply Hrow; lia) ltac:(intros k Hk; pose proof (okM k Hk); lra)) as E.
      apply Rle_trans with (1 := E). fold S0. assert (u * Rabs (D p) <= nu * Rabs (D p)) by (apply Rmult_le_compat_r; [apply Rabs_pos|lra]). assert (u * w <= nu * M) by (apply Rmult_le_compat; lra).
      replace (3 * INR n * u * S0) with (3 * (nu * S0)) by (unfold nu; ring). lra.
    + assert (Hjp : (j < p)%nat) by lia. rewrite Hv1, Rmult_1_l, Rabs_mult, (c_low j Hjp). unfold c. rewrite Nat.eqb_refl.
      pose proof (off_err p j 1 (Rabs (v j)) Hp Hjp ltac:(apply Hrow; lia) ltac:(apply Hrow; lia) ltac:(intros k Hk; apply okM; lia) (okS j Hjp) ltac:(lra) (Rabs_pos _)) as E.
      assert (Eb : Rabs (v j) * Rabs (v j) = v j * v j) by (rewrite <- Rabs_mult; apply Rabs_pos_eq; apply Rle_0_sqr).
      rewrite Eb, Rmult_1_l in E. pose proof (RR_mono p (S j) p ltac:(intros q Hq; apply (okM q); lia) ltac:(lia)) as R1. fold S0 in R1.
      assert (nu * RR p (S j) <= nu * S0) by (apply Rmult_le_compat_l; lra). assert (0 <= nu * (v j * v j * M)) by (apply Rmult_le_pos; [lra|apply Rmult_le_pos; [apply Rle_0_sqr|lra]]). lra.
  - rewrite !c_low by lia. apply both_err; try lia. intros k Hk. apply ok. lia.
Qed.
Lemma c_sum : Rsum (S p) c <= nu * (4 * M * Z + 3 * S0 + Rabs (D p)).
Proof.
  rewrite Z_block. cbn [Rsum]. rewrite Hv1. unfold c at 2. rewrite Nat.eqb_refl. rewrite (Rsum_ext p c (fun i => 4 * nu * M * (v i * v i))) by (intros; now apply c_low).
  rewrite Rsum_scal. lra.
Qed.
Lemma diff_form : Rabs (quad (S p) A v - quad (S p) MM v) <= 2 * INR n * (nu * (4 * M * Z + 3 * S0 + Rabs (D p))).
Proof.
  assert (half : forall i j, (i < S p)%nat -> (j < S p)%nat -> Rabs (v i * v j * (A i j - MM i j)) <= c i + c j).
  { intros i j Hi Hj. unfold LdltErr.MM. destruct (Nat.leb_spec j i) as [K|K]; [apply entry_c; lia|].
    rewrite (Hs i j) by lia. pose proof (entry_c j i ltac:(lia) ltac:(lia)). rewrite (Rmult_comm (v i)). lra. }
  pose proof (quad_diff (S p) MM A v c ltac:(intros i j Hi Hj; specialize (half i j Hi Hj); apply Rabs_le_inv in half; lra)) as Q1.
  pose proof (quad_diff (S p) A MM v c ltac:(intros i j Hi Hj; specialize (half i j Hi Hj); apply Rabs_le_inv in half; lra)) as Q2.
  pose proof c_sum as CS. assert (C0 : 0 <= Rsum (S p) c).
  { apply Rsum_nonneg. intros i Hi. pose proof (half i i Hi Hi). pose proof (Rabs_pos (v i * v i * (A i i - MM i i))). lra. }
  assert (In : INR (S p) <= INR n) by (apply le_INR; lia). pose proof (pos_INR (S p)).
  assert (2 * INR (S p) * Rsum (S p) c <= 2 * INR n * (nu * (4 * M * Z + 3 * S0 + Rabs (D p)))) by (apply Rmult_le_compat; lra).
  apply Rabs_le. lra.
Qed.
(** the form of the factors at the witness *)
Lemma fac_form : Rabs (quad (S p) MM v - D p) <= nu * (102 / 100 * M * Z + S0).
Proof.
  rewrite (ldl_quad (S p) MM L D v (MM_sym L D _) (MM_ldl L D _)). cbn [Rsum].
  assert (Ep : upper_mv (S p) (transp L) v p = 1).
  { unfold upper_mv. rewrite Rsum_zero, Hv1; [ring|]. intros i Hi. destruct (Nat.ltb_spec p i); auto; lia. }
  rewrite Ep. match goal with |- Rabs (?s + D p * (1 * 1) - D p) <= _ => replace (s + D p * (1 * 1) - D p) with s by ring end.
  destruct nuE as [[N0 N1] N2]. pose proof (n1 n Hn) as Nn. pose proof S0_pos as SP. pose proof Z1 as HZ.
  set (Q k := Rsum (S p) (fun j => if (k <? j)%nat then L j k * L j k * (v j * v j) else 0)).
  assert (B : forall k, (k < p)%nat -> 0 <= D k * (upper_mv (S p) (transp L) v k * upper_mv (S p) (transp L) v k) <= nu * (/ 20 * (D k * Q k)) + u * w / 100 * / INR n).
  { intros k Hk. destruct (okM k Hk) as [D0 D1]. split; [apply Rmult_le_pos; [lra|apply Rle_0_sqr]|].
    specialize (Hres k Hk). unfold upper_mv, transp. set (r := v k + _) in *. set (q := Rsum (S p) (fun j => if (k <? j)%nat then Rabs (L j k * v j) else 0)) in *.
    assert (q2 : q * q <= INR n * Q k).
    { pose proof (cauchy (S p) (fun _ => 1) (fun j => if (k <? j)%nat then Rabs (L j k * v j) else 0)) as C.
      assert (E1 : dot (S p) (fun _ => 1) (fun j => if (k <? j)%nat then Rabs (L j k * v j) else 0) = q) by (apply Rsum_ext; intros; ring).
      assert (E2 : dot (S p) (fun _ => 1) (fun _ => 1) = INR (S p)) by (unfold dot; rewrite Rsum_const; ring).
      assert (E3 : dot (S p) (fun j => if (k <? j)%nat then Rabs (L j k * v j) else 0) (fun j => if (k <? j)%nat then Rabs (L j k * v j) else 0) = Q k).
      { apply Rsum_ext. intros j Hj. destruct (k <? j)%nat; [|ring]. rewrite <- Rabs_mult, Rabs_pos_eq by apply Rle_0_sqr. ring. }
      rewrite E1, E2, E3 in C. apply Rle_trans with (1 := C). apply Rmult_le_compat_r; [|apply le_INR; lia].
      apply Rsum_nonneg. intros j Hj. destruct (k <? j)%nat; [|lra]. apply Rmult_le_pos; apply Rle_0_sqr. }
    assert (q0 : 0 <= q) by (apply Rsum_nonneg; intros j Hj; destruct (k <? j)%nat; [apply Rabs_pos|lra]).
    assert (r2 : r * r <= 2 * (3 * nu * q) * (3 * nu * q) + 2 * (4 * INR n * e) * (4 * INR n * e)).
    { replace (r * r) with (Rabs r * Rabs r) by (rewrite <- Rabs_mult; apply Rabs_pos_eq; apply Rle_0_sqr).
      assert (X : Rabs r <= 3 * nu * q + 4 * INR n * e) by (unfold nu; lra). pose proof (Rabs_pos r) as r0.
      set (s := 3 * nu * q) in *. set (t := 4 * INR n * e) in *. assert (Rabs r * Rabs r <= (s + t) * (s + t)) by (apply Rmult_le_compat; lra).
      pose proof (Rle_0_sqr (s - t)). unfold Rsqr in *. lra. }
    assert (F1 : D k * (r * r) <= D k * (2 * (3 * nu * q) * (3 * nu * q)) + D k * (2 * (4 * INR n * e) * (4 * INR n * e))) by (rewrite <- Rmult_plus_distr_l; apply Rmult_le_compat_l; lra).
    assert (Qp : 0 <= Q k). { apply Rsum_nonneg. intros j Hj. destruct (k <? j)%nat; [|lra]. apply Rmult_le_pos; apply Rle_0_sqr. }
    assert (F2 : D k * (2 * (3 * nu * q) * (3 * nu * q)) <= nu * (/ 20 * (D k * Q k))).
    { replace (D k * (2 * (3 * nu * q) * (3 * nu * q))) with (18 * nu * nu * (D k * (q * q))) by ring.
      apply Rle_trans with (18 * nu * nu * (D k * (INR n * Q k))). { apply Rmult_le_compat_l; [apply Rmult_le_pos; lra|]. apply Rmult_le_compat_l; lra. }
      replace (18 * nu * nu * (D k * (INR n * Q k))) with (nu * (18 * (INR n * INR n * u) * (D k * Q k))) by (unfold nu; ring).
      apply Rmult_le_compat_l; [lra|]. apply Rmult_le_compat_r; [apply Rmult_le_pos; lra|]. lra. }
    assert (F3 : D k * (2 * (4 * INR n * e) * (4 * INR n * e)) <= u * w / 100 * / INR n).
    { apply Rmult_le_reg_r with (INR n); [lra|]. replace (u * w / 100 * / INR n * INR n) with (u * w / 100) by (field; lra).
      replace (D k * (2 * (4 * INR n * e) * (4 * INR n * e)) * INR n) with (32 * (INR n * INR n * e) * (INR n * D k * e)) by ring.
      assert (INR n * INR n * e <= INR n * INR n * u) by (apply Rmult_le_compat_l; [apply Rmult_le_pos; lra|lra]).
      assert (X1 : INR n * D k * e <= INR n * W * e) by (apply Rmult_le_compat_r; [lra|]; apply Rmult_le_compat_l; lra).
      assert (X0 : 0 <= INR n * D k * e) by (apply Rmult_le_pos; [apply Rmult_le_pos|]; lra).
      assert (Y0 : 0 <= INR n * INR n * e) by (apply Rmult_le_pos; [apply Rmult_le_pos|]; lra).
      apply Rle_trans with (1 * (INR n * W * e)); [|lra]. apply Rmult_le_compat; lra. }
    lra. }
  rewrite Rabs_pos_eq by (apply Rsum_nonneg; intros k Hk; apply B; auto).
  eapply Rle_trans; [apply Rsum_le; intros k Hk; apply B; exact Hk|]. rewrite Rsum_plus, Rsum_scal, Rsum_scal, Rsum_const.
  assert (SW : Rsum p (fun k => D k * Q k) = Rsum (S p) (fun j => v j * v j * RR j j)).
  { unfold Q. rewrite (Rsum_ext p _ (fun k => Rsum (S p) (fun j => D k * (if (k <? j)%nat then L j k * L j k * (v j * v j) else 0)))) by (intros; now rewrite Rsum_scal).
    rewrite Rsum_swap. apply Rsum_ext. intros j Hj. unfold LdltErr.RR. rewrite <- Rsum_scal. rewrite (Rsum_trunc p j) by (try lia; intros i Hi; rewrite (proj2 (Nat.ltb_ge i j)) by lia; ring).
    apply Rsum_ext. intros k Hk. rewrite (proj2 (Nat.ltb_lt k j)) by lia. ring. }
  rewrite SW. cbn [Rsum]. rewrite Hv1. fold S0.
  assert (P1 : Rsum p (fun j => v j * v j * RR j j) <= 101 / 100 * M * (Z - 1)).
  { rewrite Z_block. cbn [Rsum]. rewrite Hv1. match goal with |- _ <= ?a * (?s + 1 * 1 - 1) => replace (a * (s + 1 * 1 - 1)) with (a * s) by ring end. rewrite <- Rsum_scal. apply Rsum_le. intros j Hj. pose proof (okS j Hj). pose proof (okM j Hj).
    rewrite (Rmult_comm (101 / 100 * M)). apply Rmult_le_compat_l; [apply Rle_0_sqr|lra]. }
  assert (P2 : INR p * (u * w / 100 * / INR n) <= u * w / 100).
  { apply Rmult_le_reg_r with (INR n); [lra|]. replace (INR p * (u * w / 100 * / INR n) * INR n) with (INR p * (u * w / 100)) by (field; lra).
    rewrite (Rmult_comm _ (INR n)). apply Rmult_le_compat_r; [|apply le_INR; lia]. assert (0 <= u * w) by (apply Rmult_le_pos; lra). lra. }
  assert (P3 : u * w <= nu * M) by (apply Rmult_le_compat; lra). assert (P4 : 0 <= nu * S0) by (apply Rmult_le_pos; lra).
  assert (P5 : nu * Rsum p (fun j => v j * v j * RR j j) <= nu * (101 / 100 * M * (Z - 1))) by (apply Rmult_le_compat_l; lra).
  assert (P6 : 0 <= nu * (M * (Z - 1))) by (apply Rmult_le_pos; [lra|apply Rmult_le_pos; lra]).
  assert (P7 : 0 <= nu * M) by (apply Rmult_le_pos; lra). clear - P2 P3 P4 P5 P6 P7. lra.
Qed.

Lemma witness_form : Rabs (quad n A v - D p) <= 29 * (INR n * INR n * INR n * u * M * Z).
Proof.
  rewrite (quad_block_zero n (S p)) by (try lia; intros i Hi; apply Hv0; lia).
  pose proof diff_form as E1. pose proof fac_form as E2. destruct nuE as [[N0 N1] N2]. pose proof (n1 n Hn) as Nn. pose proof S0_pos as SP. pose proof Z1 as HZ.
  pose proof (diag_err' n A L T D u e w W Hu He Heu Hnu HW Htiny Hn TD p Hp ltac:(apply Hrow; lia) ltac:(intros k Hk; pose proof (okM k Hk); lra)) as E3.
  fold S0 in E3. pose proof (HA p p (le_n p) (le_n p)) as App. set (d := Rabs (D p)) in *. assert (d0 : 0 <= d) by apply Rabs_pos.
  assert (SB : S0 <= 102 / 100 * (M + d)).
  { apply Rabs_le_inv in E3. apply Rabs_le_inv in App. assert (- d <= D p) by (unfold d; pose proof (Rle_abs (- D p)); rewrite Rabs_Ropp in *; lra).
    assert (u * d <= 1 / 1000 * d) by (apply Rmult_le_compat_r; lra). assert (nu * S0 <= 1 / 1000 * S0) by (apply Rmult_le_compat_r; lra).
    assert (u * w <= 1 / 1000 * w) by (apply Rmult_le_compat_r; lra). replace (3 * INR n * u * S0) with (3 * (nu * S0)) in E3 by (unfold nu; ring). lra. }
  assert (QA : Rabs (quad (S p) A v) <= INR n * M * Z).
  { eapply Rle_trans; [apply (quad_entries (S p) A v M); [lra|]; intros i j Hi Hj; apply HA; lia|]. rewrite Z_block. unfold dot.
    apply Rmult_le_compat_r; [apply Rsum_nonneg; intros; apply Rle_0_sqr|]. apply Rmult_le_compat_r; [lra|]. apply le_INR. lia. }
  set (X := quad (S p) A v) in *. set (Y := quad (S p) MM v) in *. set (m := INR n * nu).
  assert (m0 : 0 < m) by (apply Rmult_lt_0_compat; lra). assert (m1 : 2000 * m <= 1) by (unfold m, nu; lra).
  assert (nm : nu <= m). { unfold m. rewrite <- (Rmult_1_l nu) at 1. apply Rmult_le_compat_r; lra. }
  assert (MZ : 0 < M * Z) by (apply Rmult_lt_0_compat; lra). assert (MZ1 : M <= M * Z) by (rewrite <- (Rmult_1_r M) at 1; apply Rmult_le_compat_l; lra).
  (* everything against m *)
  assert (G1 : Rabs (X - D p) <= m * (18 * (M * Z) + 10 * d)).
  { replace (X - D p) with ((X - Y) + (Y - D p)) by ring. eapply Rle_trans; [apply Rabs_triang|].
    assert (F1 : 2 * INR n * (nu * (4 * M * Z + 3 * S0 + d)) <= m * (8 * (M * Z) + 612 / 100 * (M + d) + 2 * d)).
    { replace (2 * INR n * (nu * (4 * M * Z + 3 * S0 + d))) with (m * (8 * (M * Z) + 6 * S0 + 2 * d)) by (unfold m; ring). apply Rmult_le_compat_l; lra. }
    assert (F2 : nu * (102 / 100 * M * Z + S0) <= m * (102 / 100 * (M * Z) + 102 / 100 * (M + d))).
    { apply Rmult_le_compat; lra. }
    assert (F3 : m * M <= m * (M * Z)) by (apply Rmult_le_compat_l; lra). assert (F4 : 0 <= m * d) by (apply Rmult_le_pos; lra).
    assert (F5 : 0 <= m * (M * Z)) by (apply Rmult_le_pos; lra). lra. }
  assert (G2 : d <= INR n * M * Z + Rabs (X - D p)).
  { unfold d. replace (D p) with (X + - (X - D p)) at 1 by ring. eapply Rle_trans; [apply Rabs_triang|]. rewrite Rabs_Ropp. lra. }
  set (t := Rabs (X - D p)) in *. assert (G3 : m * d <= m * (INR n * M * Z + t)) by (apply Rmult_le_compat_l; lra).
  assert (t0 : 0 <= t) by apply Rabs_pos. assert (G4 : m * t <= 1 / 2000 * t) by (apply Rmult_le_compat_r; lra).
  assert (G5 : m * (M * Z) <= m * (INR n * (M * Z))). { apply Rmult_le_compat_l; [lra|]. rewrite <- (Rmult_1_l (M * Z)) at 1. apply Rmult_le_compat_r; lra. }
  replace (INR n * INR n * INR n * u * M * Z) with (m * (INR n * (M * Z))) by (unfold m, nu; ring).
  assert (0 <= m * (INR n * (M * Z))) by (apply Rmult_le_pos; [lra|apply Rmult_le_pos; lra]). lra.
Qed.
End Err.
