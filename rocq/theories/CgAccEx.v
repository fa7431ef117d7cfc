(** A case for C113: the repository's 2 by 2 system. *)
From Coq Require Import ZArith Reals Lra Lia List Bool Arith.
From Flocq Require Import Core IEEE754.BinarySingleNaN.
From Verif Require Import Num Res Arr ArrLemmas Spec RealLin PowerSpec FloatLemmas FloatErr FcosAcc StepAccSpec StepEx Cg CgAccSpec CgAcc CgWitness Replay.
Import ListNotations.
Local Open Scope R_scope.

Notation ctol := (flit 1 (-5)).
Definition wchk (s : cg_state (N := F)) : bool :=
  let '(x, r, p, rho) := s in
  forallb (between (-1) 1) (adata x) && forallb (between (-4) 4) (adata r) &&
  match a_dot_mv cga p with Ok ad => match a_dot p ad with Ok d => between (-1) 1 (ndiv (n := F) rho d) | Panic => false end | Panic => false end.
Fixpoint pchk (k : nat) (s : cg_state (N := F)) : bool :=
  wchk s && match cg_step cga 2 (ctol : F) s with Ok (Next s1) => match k with O => false | S k => pchk k s1 end | _ => true end.
Lemma all_between z (l : list f64) i : (0 < z <= 100)%Z -> forallb (between (- z) z) l = true -> Rabs (val (nth i l (n0 (N := F)))) <= IZR z.
Proof.
  intros Hz H. destruct (le_lt_dec (length l) i) as [L|L].
  - rewrite nth_overflow by exact L. rewrite (n0_val lm0). rewrite Rabs_R0. apply IZR_le. lia.
  - rewrite forallb_forall in H. specialize (H _ (nth_In l (n0 (N := F)) L)). destruct (between_val (- z) z _ ltac:(lia) ltac:(lia) H) as [_ H2]. apply Rabs_le. rewrite opp_IZR in H2. exact H2.
Qed.
Lemma wchk_ok s : wchk s = true -> cg_within 2 cga 1 4 1 s.
Proof.
  destruct s as [[[x r] p] rho]. unfold wchk, cg_within. intros H. apply andb_true_iff in H as [H H3]. apply andb_true_iff in H as [H1 H2].
  split; [intros i _; exact (all_between 1 (adata x) i ltac:(lia) H1)|]. split; [intros i _; exact (all_between 4 (adata r) i ltac:(lia) H2)|].
  intros ad d E1 E2. rewrite E1, E2 in H3. destruct (between_val (-1) 1 _ ltac:(lia) ltac:(lia) H3) as [_ B]. apply Rabs_le. exact B.
Qed.
Lemma pchk_ok k s j s' : pchk k s = true -> cg_path cga 2 ctol s j s' -> cg_within 2 cga 1 4 1 s'.
Proof.
  intros K P. revert k K. induction P as [s|s s1 j s' E P IH]; intros k K.
  - apply wchk_ok. destruct k; cbn [pchk] in K; apply andb_true_iff in K; apply K.
  - destruct k; cbn [pchk] in K; apply andb_true_iff in K as [_ K]; rewrite E in K; [discriminate|]. exact (IH k K).
Qed.
Definition start : res (cg_state (N := F)) :=
  ax <- a_dot_mv cga (a_new (N := F) (a_len cgb)) ;; r <- a_sub cgb ax ;; rho <- a_dot r r ;; Ok (a_new (N := F) (a_len cgb), r, r, rho).
Lemma start_chk : match start with Ok s => pchk 10 s = true | Panic => False end.
Proof. vm_compute. reflexivity. Qed.
Lemma cg_runs : match conjugate_gradient cga cgb None (ctol : F) 10 with Ok (Solved x) => forallb (between (-1) 1) (adata x) && (length (adata x) =? 2)%nat = true | _ => False end.
Proof. vm_compute. reflexivity. Qed.
Lemma ctol_chk : between 0 1 ctol = true. Proof. vm_compute. reflexivity. Qed.
Lemma cga_chk : forallb (between (-4) 4) (adata cga) = true. Proof. vm_compute. reflexivity. Qed.

Lemma cg_case : exists x, conjugate_gradient cga cgb None (ctol : F) 10 = Ok (Solved x) /\
  norm2 2 (fun i => fcoords cgb i - Rsum 2 (fun j => fentry 2 cga i j * fcoords x j)) <= val ctol + / 10000000000.
Proof.
  pose proof cg_runs as C. destruct (conjugate_gradient cga cgb None (ctol : F) 10) as [[x|]|] eqn:Run; try contradiction. exists x. split; [reflexivity|]. apply andb_true_iff in C as [C1 C2]. apply Nat.eqb_eq in C2.
  destruct (between_val 0 1 _ ltac:(lia) ltac:(lia) ctol_chk) as [Ft [T0 T1]].
  assert (E400 : bpow radix2 (-400) <= / 2). { change (/ 2) with (bpow radix2 (-1)). apply bpow_le. lia. }
  assert (E500 : bpow radix2 (-500) <= / 1000000000000). { assert (H : bpow radix2 (-500) <= bpow radix2 (-40)) by (apply bpow_le; lia). change (bpow radix2 (-40)) with (/ 1099511627776) in H. lra. }
  assert (E53 : uu <= / 9007199254740992) by (apply Req_le; reflexivity). pose proof uu_small as U.
  assert (E1072 : bpow radix2 (-1072) <= / 1000000000000000). { assert (H : bpow radix2 (-1072) <= bpow radix2 (-50)) by (apply bpow_le; lia). change (bpow radix2 (-50)) with (/ 1125899906842624) in H. lra. } pose proof (bpow_gt_0 radix2 (-1072)).
  pose proof (cg_answer lm0 2 cga cgb 4 1 4 1 ltac:(lia) ltac:(cbn; lia) ltac:(split; [reflexivity|split; reflexivity]) (fun i j _ _ => all_between 4 (adata cga) (i * 2 + j) ltac:(lia) cga_chk) ltac:(lra) ltac:(lra) ltac:(lra)
    None ctol 10 x ltac:(split; reflexivity) I Ft ltac:(lra)) as M.
  assert (B : norm2 2 (fun i => fcoords cgb i - Rsum 2 (fun j => fentry 2 cga i j * fcoords x j)) <= (1 + 6 * INR 2 * uu) * val ctol + bpow radix2 (-500) + INR 2 * (INR 10 + 1) * cg_unit 2 4 1 4 1).
  { apply M; [|exact Run| |].
    - intros s k s' Fi P. pose proof start_chk as S. unfold start in S. destruct s as [[[x1 r1] p1] rho1]. destruct Fi as (-> & -> & ax & E1 & E2 & E3). rewrite E1 in S. cbn [bind] in S. rewrite E2 in S. cbn [bind] in S. rewrite E3 in S. cbn [bind] in S. exact (pchk_ok 10 _ k s' S P).
    - intros i Hi. rewrite forallb_forall in C1. assert (L : (i < length (adata x))%nat) by lia. specialize (C1 _ (nth_In (adata x) (n0 (N := F)) L)). exact (proj1 (between_val (-1) 1 _ ltac:(lia) ltac:(lia) C1)).
    - intros i _. exact (all_between 1 (adata x) i ltac:(lia) C1). }
  eapply Rle_trans; [exact B|]. unfold cg_unit. replace (INR 10) with 10 by (cbn; ring). replace (INR 2) with 2 by (cbn; ring). set (t := val ctol) in *. assert (uu * t <= uu) by nra. nra.
Qed.
