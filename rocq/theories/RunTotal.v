(** Runs on an Ell never panic when the oracle does not, for every number type. *)
From Coq Require Import List Arith Lia Bool.
From Verif Require Import Num Res Arr CuttingPlane EllCalc Ell EllRun ArrLemmas EllLemmas EllMore.
Import ListNotations.

Section Total.
Context {N : Num} {C O : Type} (ct : CutType N C) (n : nat).

(** [P] is kept by the oracle, which answers every question about a vector of
    dimension [n] with a vector of dimension [n]. *)
Definition feas_answers (P : O -> Prop) (ora : OracleFeas N (Arr N) C O) : Prop :=
  forall o x, P o -> is_vec n x -> exists o' ans, of_assess ora o x = Ok (o', ans) /\ P o' /\
    match ans with None => True | Some (g, _) => is_vec n g end.
Definition optim_answers (P : O -> N -> Prop) (ora : OracleOptim N (Arr N) C O) : Prop :=
  forall o x gamma, P o gamma -> is_vec n x -> exists o' gamma' g c sh,
    ora o x gamma = Ok (o', gamma', ((g, c), sh)) /\ P o' gamma' /\ is_vec n g.
Definition optim_q_answers (P : O -> N -> Prop) (ora : OracleOptimQ N (Arr N) C O) : Prop :=
  forall o x gamma retry, P o gamma -> is_vec n x -> exists o' gamma' g c sh xq more,
    ora o x gamma retry = Ok (o', gamma', ((g, c), sh, xq, more)) /\ P o' gamma' /\ is_vec n g.

Definition good (e : Ell N) : Prop := ell_wf n e /\ is_vec n (e_xc e).

Lemma good_step m e g c : good e -> is_vec n g -> exists e' st, apply_cut ct m e (g, c) = Ok (e', st) /\ good e'.
Proof.
  intros [Hw [Hl Hx]] Hg. rewrite apply_cut_core.
  destruct (ell_update_core_ok n e g (cut_core ct m e c) Hw Hg) as (e' & st & rho & sigma & delta & _ & E & Hw' & _ & _ & _ & _ & Hc & _).
  exists e', st. split; [exact E|]. split; [exact Hw'|]. split; [apply Hw'|]. congruence.
Qed.

Lemma feas_runs P (ora : OracleFeas N (Arr N) C O) opt o e : feas_answers P ora -> P o -> good e ->
  exists o' e' ans k, cutting_plane_feas ora (ell_space ct) opt o e = Ok (o', e', (ans, k)) /\ P o' /\ good e' /\ match ans with None => True | Some x => is_vec n x end.
Proof.
  intros Ha Hp Hg. unfold cutting_plane_feas.
  match goal with |- context [loop_range 0 ?hi ?body ?s] =>
    destruct (loop_range_inv (fun _ '((o, e) : O * Ell N) => P o /\ good e)
      (fun '((o, e, (ans, _)) : O * Ell N * (option (Arr N) * nat)) => P o /\ good e /\ match ans with None => True | Some x => is_vec n x end) 0 hi body s) as [([o' e'] & E & H)|([[o' e'] [ans k]] & E & H)] end.
  - lia.
  - auto.
  - intros i [o1 e1] _ [Hp1 Hg1]. destruct (Ha o1 (e_xc e1) Hp1 (proj2 Hg1)) as (o2 & ans & E & Hp2 & Hv).
    cbn [ell_space sp_xc]. rewrite E. cbn [bind]. destruct ans as [[g c]|]; [|right; eexists; split; [reflexivity|cbn; split; [auto|split; [auto|apply Hg1]]]].
    destruct (good_step Bias e1 g c Hg1 Hv) as (e2 & st & E2 & Hg2). cbn [apply_cut] in E2. cbn [ell_space sp_update_bias_cut]. rewrite E2. cbn [bind].
    destruct (negb (is_success st) || _); [right|left]; (eexists; split; [reflexivity|cbn; auto]).
  - rewrite E. cbn [bind]. exists o', e', None, (max_iters opt). tauto.
  - rewrite E. cbn [bind]. exists o', e', ans, k. auto.
Qed.

Lemma optim_runs P (ora : OracleOptim N (Arr N) C O) opt o e gamma : optim_answers P ora -> P o gamma -> good e ->
  exists o' e' gamma' ans k, cutting_plane_optim ora (ell_space ct) opt o e gamma = Ok (o', e', gamma', (ans, k)) /\ P o' gamma' /\ good e'.
Proof.
  intros Ha Hp Hg. unfold cutting_plane_optim.
  match goal with |- context [loop_range 0 ?hi ?body ?s] =>
    destruct (loop_range_inv (fun _ '((o, e, ga, _) : O * Ell N * num N * option (Arr N)) => P o ga /\ good e)
      (fun '((o, e, ga, _) : O * Ell N * num N * (option (Arr N) * nat)) => P o ga /\ good e) 0 hi body s) as [([[[o' e'] ga'] xb] & E & H)|([[[o' e'] ga'] [ans k]] & E & H)] end.
  - lia.
  - auto.
  - intros i [[[o1 e1] ga1] xb] _ [Hp1 Hg1]. destruct (Ha o1 (e_xc e1) ga1 Hp1 (proj2 Hg1)) as (o2 & ga2 & g & c & sh & E & Hp2 & Hv).
    cbn [ell_space sp_xc]. rewrite E. cbn [bind].
    destruct (good_step Bias e1 g c Hg1 Hv) as (e2 & st & E2 & Hg2). destruct (good_step Central e1 g c Hg1 Hv) as (e3 & st3 & E3 & Hg3).
    cbn [apply_cut] in E2, E3. cbn [ell_space sp_update_bias_cut sp_update_central_cut].
    destruct sh; [rewrite E3|rewrite E2]; cbn [bind]; match goal with |- context [if ?b then _ else _] => destruct b end; [right|left|right|left]; (eexists; split; [reflexivity|cbn; auto]).
  - rewrite E. cbn [bind]. eauto 9.
  - rewrite E. cbn [bind]. eauto 9.
Qed.

Lemma optim_q_runs P (ora : OracleOptimQ N (Arr N) C O) opt o e gamma : optim_q_answers P ora -> P o gamma -> good e ->
  exists o' e' gamma' ans k, cutting_plane_optim_q ora (ell_space ct) opt o e gamma = Ok (o', e', gamma', (ans, k)) /\ P o' gamma' /\ good e'.
Proof.
  intros Ha Hp Hg. unfold cutting_plane_optim_q.
  match goal with |- context [loop_range 0 ?hi ?body ?s] =>
    destruct (loop_range_inv (fun _ '((o, e, ga, _, _) : O * Ell N * num N * option (Arr N) * bool) => P o ga /\ good e)
      (fun '((o, e, ga, _) : O * Ell N * num N * (option (Arr N) * nat)) => P o ga /\ good e) 0 hi body s) as [([[[[o' e'] ga'] xb] rt] & E & H)|([[[o' e'] ga'] [ans k]] & E & H)] end.
  - lia.
  - auto.
  - intros i [[[[o1 e1] ga1] xb] rt] _ [Hp1 Hg1]. destruct (Ha o1 (e_xc e1) ga1 rt Hp1 (proj2 Hg1)) as (o2 & ga2 & g & c & sh & xq & more & E & Hp2 & Hv).
    cbn [ell_space sp_xc]. rewrite E. cbn [bind].
    destruct (good_step Quantised e1 g c Hg1 Hv) as (e2 & st & E2 & Hg2). cbn [apply_cut] in E2. cbn [ell_space sp_update_q].
    destruct sh; rewrite E2; cbn [bind]; destruct st; try destruct more; cbn [negb]; try match goal with |- context [if ?b then _ else _] => destruct b end;
      first [left; eexists; split; [reflexivity|]; cbn; auto; fail|right; eexists; split; [reflexivity|]; cbn; auto].
  - rewrite E. cbn [bind]. eauto 9.
  - rewrite E. cbn [bind]. eauto 9.
Qed.

(** Binary search: it panics exactly when its own assertion on the interval fails. *)
Lemma assess_runs P (ora : OracleFeas N (Arr N) C O) b gamma : feas_answers P ora -> (forall o ga, P o -> P (of_update ora o ga)) ->
  P (ba_omega b) -> good (ba_space b) ->
  exists b' r, assess_bs ora (ell_space ct) b gamma = Ok (b', r) /\ P (ba_omega b') /\ good (ba_space b') /\ ba_options b' = ba_options b.
Proof.
  intros Ha Hu Hp Hg. unfold assess_bs. destruct (feas_runs P ora (ba_options b) (of_update ora (ba_omega b) gamma) (ba_space b) Ha (Hu _ _ Hp) Hg) as (o' & e' & ans & k & E & Hp' & _ & Hx).
  rewrite E. cbn [bind]. destruct ans as [x|]; eexists _, _; (split; [reflexivity|]); cbn; auto. split; [exact Hp'|]. split; [|reflexivity].
  destruct Hg as [(W1 & W2 & W3) _]. split; [|exact Hx]. split; [exact W1|]. split; [exact W2|]. apply Hx.
Qed.
Lemma bsearch_runs P (ora : OracleFeas N (Arr N) C O) opt b intrvl : feas_answers P ora -> (forall o ga, P o -> P (of_update ora o ga)) ->
  P (ba_omega b) -> good (ba_space b) ->
  (bsearch (assess_bs ora (ell_space ct)) opt b intrvl = Panic <-> (fst intrvl <=?! snd intrvl) = false).
Proof.
  intros Ha Hu Hp Hg. destruct intrvl as [lo up]. unfold bsearch. cbn [fst snd]. destruct (lo <=?! up) eqn:B; [|cbn; tauto]. cbn [assert].
  split; [|discriminate]. intros K. exfalso. revert K.
  match goal with |- context [loop_range 0 ?hi ?body ?s] =>
    destruct (loop_range_inv (fun _ '((b, _, _) : BSearchAdaptor N O (Ell N) * num N * num N) => P (ba_omega b) /\ good (ba_space b))
      (fun _ => True) 0 hi body s) as [([[b' lo'] up'] & E & _)|([b' r] & E & _)] end.
  - lia.
  - auto.
  - intros i [[b1 l1] u1] _ [Hp1 Hg1]. match goal with |- context [if ?c then Ok (Done _) else _] => destruct c end; [right; eexists; split; [reflexivity|exact I]|].
    match goal with |- context [assess_bs ora (ell_space ct) b1 ?ga] => destruct (assess_runs P ora b1 ga Ha Hu Hp1 Hg1) as (b2 & r2 & E2 & Hp2 & Hg2 & _) end.
    rewrite E2. cbn [bind]. left. destruct r2; eexists; (split; [reflexivity|split; assumption]).
  - rewrite E. discriminate.
  - rewrite E. discriminate.
Qed.
End Total.
