(** What the reported point of a run inherits from the oracle. *)
From Coq Require Import ZArith List Bool Arith Lia.
From Verif Require Import Num Res CuttingPlane DriverSpec DriverProofs DriverProofs2.

Section Best2.
Context {N : Num} {A C O S : Type}.
Variables (ora : OracleOptim N A C O) (sp : SearchSpace N A C S) (opt : Options N).
Variables (I : O -> Prop) (J : N -> Prop) (P : A -> N -> Prop).
Hypothesis H : forall o x g o' g' cut sh, I o -> J g -> ora o x g = Ok (o', g', (cut, sh)) ->
  I o' /\ J g' /\ if sh : bool then P x g' else g' = g.

Lemma optim_best2 o s g o' s' g' xb k : I o -> J g ->
  cutting_plane_optim ora sp opt o s g = Ok (o', s', g', (xb, k)) ->
  I o' /\ J g' /\ match xb with None => g' = g | Some x => P x g' end.
Proof.
  intros I0 J0 E. apply optim_iff in E as (q & os & ss & gs & sh & <- & <- & <- & Run & -> & -> & -> & Last).
  assert (St : forall i, i < q -> exists st, optim_step ora sp os ss gs sh i st).
  { destruct Run as [R1 R2]. intros i Hi. destruct (Nat.lt_ge_cases i k) as [L|L].
    - destruct (R1 i L) as [K _]. eauto.
    - destruct R2 as [(_ & -> & st & K & _)|(-> & ->)]; [|lia]. assert (i = k) as -> by lia. eauto. }
  assert (Inv : forall i, i <= q -> I (os i) /\ J (gs i)).
  { induction i as [|i IH]; intros Hi; auto. destruct (St i) as (st & cut & K & _); [lia|].
    destruct (H _ _ _ _ _ _ _ (proj1 (IH ltac:(lia))) (proj2 (IH ltac:(lia))) K) as (? & ? & _). auto. }
  assert (Same : forall i, i < q -> sh i = false -> gs (1 + i) = gs i).
  { intros i Hi F. destruct (St i Hi) as (st & cut & K & _).
    destruct (H _ _ _ _ _ _ _ (proj1 (Inv i ltac:(lia))) (proj2 (Inv i ltac:(lia))) K) as (_ & _ & L). rewrite F in L. exact L. }
  split; [apply Inv; lia|]. split; [apply Inv; lia|]. destruct Last as [(-> & F)|(i & Hi & F & G & ->)].
  - assert (K : forall i, i <= q -> gs i = gs 0).
    { induction i as [|i IH]; intros Hi; auto. rewrite <- IH by lia. apply Same; [lia|]. apply F. lia. }
    apply K. lia.
  - destruct (St i Hi) as (st & cut & K & _).
    destruct (H _ _ _ _ _ _ _ (proj1 (Inv i ltac:(lia))) (proj2 (Inv i ltac:(lia))) K) as (_ & _ & L). rewrite F in L.
    assert (Q : forall j, i < j -> j <= q -> gs j = gs (1 + i)).
    { induction j as [|j IH]; intros L1 L2; [lia|]. destruct (Nat.eq_dec i j) as [->|]; [reflexivity|].
      rewrite <- IH by lia. apply (Same j); [lia|]. apply G. lia. }
    rewrite (Q q) by lia. exact L.
Qed.
End Best2.
Section Best.
Context {N : Num} {A C O S : Type}.
Variables (ora : OracleOptim N A C O) (sp : SearchSpace N A C S) (opt : Options N).
Variables (I : O -> Prop) (J : N -> Prop) (P : A -> Prop) (f : A -> N).
Hypothesis H : forall o x g o' g' cut sh, I o -> J g -> ora o x g = Ok (o', g', (cut, sh)) ->
  I o' /\ J g' /\ if sh : bool then g' = f x /\ P x else g' = g.

Lemma optim_best o s g o' s' g' xb k : I o -> J g ->
  cutting_plane_optim ora sp opt o s g = Ok (o', s', g', (xb, k)) ->
  I o' /\ J g' /\ match xb with None => g' = g | Some x => g' = f x /\ P x end.
Proof. exact (optim_best2 ora sp opt I J (fun x g => g = f x /\ P x) H o s g o' s' g' xb k). Qed.
End Best.
