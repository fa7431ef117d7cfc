(** Cases for the conjugate gradient theorems. *)
From Coq Require Import Reals ZArith List Arith Lia Lra Floats.SpecFloat.
From Flocq Require Import Core IEEE754.BinarySingleNaN.
From Verif Require Import Num Res Arr Spec PowerSpec PowerOps PowerWitness Cg CgSpec CgProofs CgConv CgMore Replay.
Import ListNotations.

(** conjugate_gradient.rs 72-122, in binary64 *)
Definition cga : Arr F := mkArr (N := F) (map fofZ [4; 1; 1; 3]%Z) 2 2.
Definition cgb : Arr F := ints [1; 2]%Z.
Definition scaled (r : res (cg_result F)) : option (list Z) :=
  match r with Ok (Solved x) => Some (map (fun v => ftrunc (fmul v (fofZ 10000000))) (adata x)) | _ => None end.
Example replay_cg_simple : scaled (conjugate_gradient (N := F) cga cgb None (flit 1 (-5)) 1000) = Some [909090; 6363636]%Z.
Proof. vm_compute. reflexivity. Qed.
Example replay_cg_guess : scaled (conjugate_gradient (N := F) cga cgb (Some (ints [1; 1]%Z)) (flit 1 (-5)) 1000) = Some [909090; 6363636]%Z.
Proof. vm_compute. reflexivity. Qed.
Example replay_cg_zero : match conjugate_gradient (N := F) (mkArr (N := F) (map fofZ [0; 0; 0; 0]%Z) 2 2) (ints [1; 1]%Z) None (flit 1 (-5)) 10 with
  | Ok (Failed e) => e = DidNotConverge | _ => False end.
Proof. vm_compute. reflexivity. Qed.
Example replay_cg_tol : match conjugate_gradient (N := F) cga cgb None (flit 1 (-10)) 1000 with
  | Ok (Solved x) => match (ax <- a_dot_mv (N := F) cga x ;; r <- a_sub (N := F) cgb ax ;; a_dot (N := F) r r) with
                     | Ok q => nltb (n := F) (nsqrt q) (flit 1 (-10)) = true | Panic => False end
  | _ => False end.
Proof. vm_compute. reflexivity. Qed.

(** binary64: 3x = 1 is "solved" with tolerance 1e-20 by the double nearest 1/3 *)
Definition three : f64 := fofZ 3.
Definition one : f64 := fofZ 1.
Definition tiny : f64 := flit 1 (-20).
Definition third : res (cg_result F) := conjugate_gradient (N := F) (mkArr (N := F) [three] 1 1) (mkArr (N := F) [one] 1 0) None tiny 1.
Lemma third_run : match third with
  | Ok (Solved x) => map B2SF (adata x) = [S754_finite false 6004799503160661 (-54)] /\ arows x = 1%nat /\ acols x = 0%nat
  | _ => False end.
Proof. vm_compute. auto. Qed.
Lemma three_sf : B2SF three = S754_finite false 6755399441055744 (-51). Proof. vm_compute. reflexivity. Qed.
Lemma one_sf : B2SF one = S754_finite false 4503599627370496 (-52). Proof. vm_compute. reflexivity. Qed.
Lemma tiny_sf : exists m e, B2SF tiny = S754_finite false m e /\ (Zpos m < 2 ^ 53)%Z /\ (e = -119)%Z.
Proof.
  assert (H : match B2SF tiny with S754_finite false m e => andb (Zpos m <? 2 ^ 53)%Z (e =? -119)%Z | _ => false end = true) by (vm_compute; reflexivity).
  destruct (B2SF tiny) as [?|?| |[] m e]; try discriminate. exists m, e. apply andb_prop in H. destruct H as [H1 H2].
  apply Z.ltb_lt in H1. apply Z.eqb_eq in H2. auto.
Qed.
Open Scope R_scope.
Lemma third_unsolved : exists a b x tol : f64,
  conjugate_gradient (N := F) (mkArr (N := F) [a] 1 1) (mkArr (N := F) [b] 1 0) None tol 1 = Ok (Solved (mkArr (N := F) [x] 1 0)) /\
  B2R tol < B2R b - B2R a * B2R x.
Proof.
  exists three, one. pose proof third_run as H.
  assert (G : exists x, third = Ok (Solved (mkArr (N := F) [x] 1 0)) /\ B2SF x = S754_finite false 6004799503160661 (-54)).
  { destruct third as [[[d r c]|e]|]; try contradiction.
  cbn [adata arows acols] in H. destruct H as (Hd & -> & ->). destruct d as [|x [|]]; try discriminate. injection Hd as Hx.
    exists x. split; auto. }
  destruct G as (x & E & Hx). exists x, tiny. split; [exact E|]. clear E H.
  rewrite <- !SF2R_B2SF. rewrite Hx, three_sf, one_sf. destruct tiny_sf as (m & e & -> & Hm & ->).
  unfold SF2R, F2R, cond_Zopp. cbn [Fnum Fexp]. apply IZR_lt in Hm.
  change (bpow radix2 (-119)) with (/ IZR (2 ^ 119)). change (bpow radix2 (-52)) with (/ IZR (2 ^ 52)).
  change (bpow radix2 (-51)) with (/ IZR (2 ^ 51)). change (bpow radix2 (-54)) with (/ IZR (2 ^ 54)).
  change (2 ^ 53)%Z with 9007199254740992%Z in Hm. change (2 ^ 119)%Z with 664613997892457936451903530140172288%Z.
  change (2 ^ 52)%Z with 4503599627370496%Z. change (2 ^ 51)%Z with 2251799813685248%Z. change (2 ^ 54)%Z with 18014398509481984%Z.
  lra.
Qed.

(** the repository's matrix meets the hypotheses of the termination theorem *)
Lemma spd_case : holds_mat 2 (mat2 4 1 1 3) (m2 4 1 1 3) /\ holds 2 (vec2 1 2) (v2 1 2) /\ starts 2 None (fun _ => 0) /\
  sym 2 (m2 4 1 1 3) /\ pd 2 (m2 4 1 1 3) /\ nonzero 2 (resid 2 (m2 4 1 1 3) (v2 1 2) (fun _ => 0)).
Proof.
  split; [apply mat2_holds|]. split; [apply vec2_holds|]. split; [intros i Hi; reflexivity|]. split; [|split].
  - intros i j Hi Hj. destruct i as [|[|i]]; [| |lia]; (destruct j as [|[|j]]; [| |lia]); reflexivity.
  - intros x (i & Hi & Hx). unfold quad, dot, mulmv. cbn [Rsum m2].
    assert (0 < x 0%nat * x 0%nat + x 1%nat * x 1%nat) by (destruct i as [|[|i]]; [nra|nra|lia]).
    pose proof (Rle_0_sqr (x 0%nat + x 1%nat)). unfold Rsqr in *. nra.
  - exists 0%nat. split; [lia|]. unfold resid, mulmv. cbn [Rsum m2 v2]. lra.
Qed.
(** a singular consistent system *)
Lemma psd_case : sym 2 (m2 1 1 1 1) /\ psd 2 (m2 1 1 1 1) /\ (forall i, (i < 2)%nat -> mulmv 2 (m2 1 1 1 1) (v2 1 0) i = v2 1 1 i) /\
  nonzero 2 (resid 2 (m2 1 1 1 1) (v2 1 1) (fun _ => 0)).
Proof.
  split; [|split; [|split]].
  - intros i j Hi Hj. destruct i as [|[|i]]; [| |lia]; (destruct j as [|[|j]]; [| |lia]); reflexivity.
  - intros x. unfold quad, dot, mulmv. cbn [Rsum m2]. pose proof (Rle_0_sqr (x 0%nat + x 1%nat)). unfold Rsqr in *. nra.
  - intros i Hi. unfold mulmv. destruct i as [|[|i]]; [| |lia]; cbn [Rsum m2 v2]; ring.
  - exists 0%nat. split; [lia|]. unfold resid, mulmv. cbn [Rsum m2 v2]. lra.
Qed.
(** an invertible symmetric system on which the method gives up at once *)
Lemma indefinite_fails : exists a b M c z, holds_mat 2 a M /\ holds 2 b c /\ sym 2 M /\ inverse 2 M M /\
  (forall i, (i < 2)%nat -> mulmv 2 M z i = c i) /\
  forall tol m, (0 < m)%nat -> conjugate_gradient (N := ENum) a b None (Fin tol) m = Ok (Failed DidNotConverge).
Proof.
  exists (mat2 1 0 0 (-1)), (vec2 1 1), (m2 1 0 0 (-1)), (v2 1 1), (v2 1 (-1)).
  split; [apply mat2_holds|]. split; [apply vec2_holds|]. split; [|split; [|split]].
  - intros i j Hi Hj. destruct i as [|[|i]]; [| |lia]; (destruct j as [|[|j]]; [| |lia]); reflexivity.
  - intros i j Hi Hj. unfold mulmm, mtx_one. destruct i as [|[|i]]; [| |lia]; (destruct j as [|[|j]]; [| |lia]); cbn [Rsum m2 Nat.eqb]; split; ring.
  - intros i Hi. unfold mulmv. destruct i as [|[|i]]; [| |lia]; cbn [Rsum m2 v2]; ring.
  - intros tol m Hm.
    destruct (cg_outcome 2 (mat2 1 0 0 (-1)) (vec2 1 1) None (m2 1 0 0 (-1)) (v2 1 1) (fun _ => 0) tol m ltac:(lia) (mat2_holds _ _ _ _) (vec2_holds _ _)) as [H _];
      [intros i Hi; reflexivity|].
    assert (B : breaks 2 (m2 1 0 0 (-1)) (v2 1 1) (fun _ => 0) 0).
    { unfold breaks, quad, dot. cbn [cg_seq cp]. unfold mulmv. cbn [Rsum m2 v2]. ring. }
    apply (H 0%nat); auto. split; [lia|]. split; [now left|]. intros; lia.
Qed.
