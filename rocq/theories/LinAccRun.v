(** Calls of the linear examples in binary64 and runs with them (C119). *)
From Coq Require Import ZArith Reals Lra Lia Psatz List Bool Arith.
From Flocq Require Import Core IEEE754.BinarySingleNaN.
From Verif Require Import Num Res Arr ArrLemmas CuttingPlane EllCalc Ell EllRun Spec RunSpec EllReal Examples ExSpec ExProofs FloatLemmas FloatErr FcosAcc StepAccSpec StepRunSpec StepRun ProfitSpec ProfAccSpec ProfAcc QcAcc LinAccSpec LinAcc MonoRun.
Import ListNotations.
Local Open Scope R_scope.

#[local] Opaque fadd fsub fmul fdiv fsqrt fofZ.
Section V.
Variable lm : Libm.
Notation F := (FNum lm).
Variables (X C : R).
Hypothesis HR : lin_range X C.
Notation mu := (lin_margin C).

Lemma point (y : Arr F) : in_square X y -> exists x0 x1 : F, a_idx y 0 = Ok x0 /\ a_idx y 1 = Ok x1 /\ fin (x0 : f64) = true /\ fin (x1 : f64) = true /\
  fcoords y 0%nat = val (x0 : f64) /\ fcoords y 1%nat = val (x1 : f64) /\ Rabs (val (x0 : f64)) <= X /\ Rabs (val (x1 : f64)) <= X.
Proof.
  intros (Ty & Ay & By). destruct (idx2 (N := F) y ltac:(rewrite (proj1 Ty); lia)) as (s & l & Es & El & Vs & Vl). exists s, l.
  assert (Fs : fin (s : f64) = true) by (rewrite Vs; exact (two_fin lm y 0 Ty Ay ltac:(lia))). assert (Fl : fin (l : f64) = true) by (rewrite Vl; exact (two_fin lm y 1 Ty Ay ltac:(lia))).
  pose proof (By 0%nat ltac:(lia)) as Bs. pose proof (By 1%nat ltac:(lia)) as Bl. assert (Us : fcoords y 0%nat = val (s : f64)) by (rewrite Vs; reflexivity). assert (Ul : fcoords y 1%nat = val (l : f64)) by (rewrite Vl; reflexivity).
  rewrite Us in Bs. rewrite Ul in Bl. repeat (split; [assumption|]). assumption.
Qed.
Lemma ex1_answer (y : Arr F) (x0 x1 : F) (ga ga' : f64) g (b : f64) sh : fin (x0 : f64) = true -> fin (x1 : f64) = true -> fcoords y 0%nat = val (x0 : f64) -> fcoords y 1%nat = val (x1 : f64) -> Rabs (val (x0 : f64)) <= X -> Rabs (val (x1 : f64)) <= X -> lin_level C ga ->
  picks (N := F) [(x0 +! x1 -! nZ 3, vec2 n1 n1); (-! x0 +! x1 +! n1, vec2 nm1 n1); ((ga : F) -! (x0 +! x1), vec2 nm1 nm1)] (x0 +! x1) (vec2 nm1 nm1) ga ga' g b sh ->
  lin_answer room1 goal1 C y ga ga' g b sh.
Proof.
  intros F0 F1 U0 U1 B0 B1 HL HP. pose proof (lin_facts X C HR) as (MU & UC & Us & Up & Es & Ep & UX & UU & UX0 & BG & HX1 & HXC & SX & SC & SE).
  destruct (s_val lm X C HR x0 x1 F0 F1 B0 B1) as [Fs Vs]. destruct (m1_val lm) as [Fm Vm].
  assert (TL := t_level lm X C HR y x0 x1 F0 F1 B0 B1 ga (fadd x0 x1) nm1 nm1 goal1 HL Fs). 
  assert (G : forall z : vec, val (nm1 (N := F) : f64) * (z 0%nat - fcoords y 0%nat) + val (nm1 (N := F) : f64) * (z 1%nat - fcoords y 1%nat) = goal1 (fcoords y) - goal1 z) by (intros z; rewrite Vm; unfold goal1; ring).
  apply Rabs_le_inv in B0, B1. destruct TL as [T1 T2]; auto.
  { unfold goal1. rewrite U0, U1. apply Rabs_le. lra. } { unfold goal1. rewrite U0, U1. lra. }
  apply Rabs_le in B0, B1.
  apply (answer_of lm C room1 goal1 [fun z => z 0%nat + z 1%nat - 3; fun z => - z 0%nat + z 1%nat + 1] y ga (fadd x0 x1) ga' [x0 +! x1 -! nZ 3; -! x0 +! x1 +! n1] (fsub ga (fadd x0 x1)) [vec2 n1 n1; vec2 nm1 n1] (vec2 nm1 nm1) g b sh); auto.
  - intros z. unfold room1. cbn [In]. split; [intros [A1 A2] A [<-|[<-|[]]]; lra|]. intros H. pose proof (H _ (or_introl eq_refl)) as H1. pose proof (H _ (or_intror (or_introl eq_refl))) as H2. cbn beta in H1, H2. lra.
  - unfold room1. cbn [In]. split; [intros [A1 A2] A [<-|[<-|[]]]; lra|]. intros H. pose proof (H _ (or_introl eq_refl)) as H1. pose proof (H _ (or_intror (or_introl eq_refl))) as H2. cbn beta in H1, H2. lra.
  - intros [|[|i]] Hi; [| |cbn in Hi; lia]; cbn [nth]; [apply (t_11_3 lm X C HR y x0 x1)|apply (t_m1 lm X C HR y x0 x1)]; auto.
  - apply Rabs_le_inv in Vs, B0, B1. apply Rabs_le. lra.
  - unfold goal1. rewrite U0, U1. lra.
  - intros z. rewrite <- G. unfold along, dot. cbn [Rsum]. change (fcoords (vec2 (N := F) nm1 nm1) 0%nat) with (val (nm1 (N := F) : f64)). change (fcoords (vec2 (N := F) nm1 nm1) 1%nat) with (val (nm1 (N := F) : f64)). lra.
Qed.
Lemma ex1_call (y : Arr F) (ga : f64) : in_square X y -> lin_level C ga ->
  exists (ga' : f64) g (b : f64) sh, ex1_assess tt y (ga : F) = Ok (tt, (ga' : F), ((g, mkSingle (N := F) b), sh)) /\ lin_answer room1 goal1 C y ga ga' g b sh.
Proof.
  intros Hy HL. destruct (point y Hy) as (x0 & x1 & E0 & E1 & F0 & F1 & U0 & U1 & B0 & B1). destruct (ex1_picks (N := F) y ga x0 x1 E0 E1) as (ga' & g & b & sh & R & P).
  exists ga', g, b, sh. split; [exact R|]. exact (ex1_answer y x0 x1 ga ga' g b sh F0 F1 U0 U1 B0 B1 HL P).
Qed.
Lemma ex1_call' (o : unit) (y : Arr F) (ga : f64) : True -> in_square X y -> lin_level C ga ->
  exists (o' : unit) (ga' : f64) g (b : f64) sh, ex1_assess o y (ga : F) = Ok (o', (ga' : F), ((g, mkSingle (N := F) b), sh)) /\ True /\ lin_answer room1 goal1 C y ga ga' g b sh.
Proof. intros _ Hy HL. destruct o. destruct (ex1_call y ga Hy HL) as (ga' & g & b & sh & R & A). exists tt, ga', g, b, sh. auto. Qed.
Lemma ex1rr_call idx (y : Arr F) (ga : f64) : (-1 <= idx < 3)%Z -> in_square X y -> lin_level C ga ->
  exists idx' (ga' : f64) g (b : f64) sh, ex1rr_assess idx y (ga : F) = Ok (idx', (ga' : F), ((g, mkSingle (N := F) b), sh)) /\ (-1 <= idx' < 3)%Z /\ lin_answer room1 goal1 C y ga ga' g b sh.
Proof.
  intros Hi Hy HL. destruct (point y Hy) as (x0 & x1 & E0 & E1 & F0 & F1 & U0 & U1 & B0 & B1). destruct (ex1rr_picks (N := F) idx y ga x0 x1 Hi E0 E1) as (idx' & ga' & g & b & sh & R & Hi' & P).
  exists idx', ga', g, b, sh. split; [exact R|]. split; [exact Hi'|]. exact (ex1_answer y x0 x1 ga ga' g b sh F0 F1 U0 U1 B0 B1 HL P).
Qed.
Lemma goal4_grad (y : Arr F) z : along 2 (fcoords (vec2 (N := F) (-! n2) (nZ 3))) z (fcoords y) = goal4 (fcoords y) - goal4 z.
Proof.
  destruct (copp lm n2 2 (c2 lm)) as [Fm2 Vm2]. destruct (c3 lm) as [Fc3 Vc3]. unfold along, dot. cbn [Rsum]. change (fcoords (vec2 (N := F) (-! n2) (nZ 3)) 0%nat) with (val (nopp (n := F) n2 : f64)). change (fcoords (vec2 (N := F) (-! n2) (nZ 3)) 1%nat) with (val (nZ (n := F) 3 : f64)).
  rewrite Vm2, Vc3. unfold goal4. ring.
Qed.
Notation As4 := [fun z : vec => - z 0%nat - 1; fun z : vec => - z 1%nat - 2; fun z : vec => z 0%nat + z 1%nat - 1].
Lemma room4_As m z : room4 m z <-> forall A, In A As4 -> A z + m <= 0.
Proof.
  unfold room4. cbn [In]. split; [intros (A1 & A2 & A3) A [<-|[<-|[<-|[]]]]; lra|]. intros H. pose proof (H _ (or_introl eq_refl)) as H1. pose proof (H _ (or_intror (or_introl eq_refl))) as H2. pose proof (H _ (or_intror (or_intror (or_introl eq_refl)))) as H3. cbn beta in H1, H2, H3. lra.
Qed.
Lemma tests4 (y : Arr F) (x0 x1 : F) g0 : fin (x0 : f64) = true -> fin (x1 : f64) = true -> fcoords y 0%nat = val (x0 : f64) -> fcoords y 1%nat = val (x1 : f64) -> Rabs (val (x0 : f64)) <= X -> Rabs (val (x1 : f64)) <= X ->
  forall i d, (i < 3)%nat -> ok_test lm C y (nth i [-! x0 -! n1; -! x1 -! n2; x0 +! x1 -! n1] d : f64) (nth i [vec2 nm1 n0; vec2 n0 nm1; vec2 n1 n1] g0) (nth i As4 (fun _ => 0)).
Proof.
  intros F0 F1 U0 U1 B0 B1 [|[|[|i]]] d Hi; [| | |lia]; cbn [nth]; [apply (t_x lm X C HR y x0 x1)|apply (t_y lm X C HR y x0 x1)|apply (t_11_1 lm X C HR y x0 x1)]; auto.
Qed.
Lemma ex4_call idx (y : Arr F) (ga : f64) : (-1 <= idx < 4)%Z -> in_square X y -> lin_level C ga ->
  exists idx' (ga' : f64) g (b : f64) sh, ex4_assess idx y (ga : F) = Ok (idx', (ga' : F), ((g, mkSingle (N := F) b), sh)) /\ (-1 <= idx' < 4)%Z /\ lin_answer room4 goal4 C y ga ga' g b sh.
Proof.
  intros Hi Hy HL. destruct (point y Hy) as (x0 & x1 & E0 & E1 & F0 & F1 & U0 & U1 & B0 & B1). destruct (ex4_picks (N := F) idx y ga x0 x1 Hi E0 E1) as (idx' & ga' & g & b & sh & R & Hi' & P).
  exists idx', ga', g, b, sh. split; [exact R|]. split; [exact Hi'|]. pose proof (lin_facts X C HR) as (MU & UC & Us & Up & Es & Ep & UX & UU & UX0 & BG & HX1 & HXC & SX & SC & SE).
  destruct (d_val lm X C HR x0 x1 F0 F1 B0 B1) as [Fs Vs]. destruct (copp lm n2 2 (c2 lm)) as [Fm2 Vm2]. destruct (c3 lm) as [Fc3 Vc3].
  assert (TL := t_level lm X C HR y x0 x1 F0 F1 B0 B1 ga (fsub (fmul (fofZ 2) x0) (fmul (fofZ 3) x1)) (-! n2) (nZ 3) goal4 HL Fs).
  apply Rabs_le_inv in B0, B1. destruct TL as [T1 T2]; auto.
  { unfold goal4. rewrite U0, U1. apply Rabs_le. lra. } { unfold goal4. rewrite U0, U1. lra. } { intros z. rewrite Vm2, Vc3. unfold goal4. ring. }
  apply Rabs_le in B0, B1.
  apply (answer_of lm C room4 goal4 As4 y ga (fsub (fmul (fofZ 2) x0) (fmul (fofZ 3) x1)) ga' [-! x0 -! n1; -! x1 -! n2; x0 +! x1 -! n1] (fsub ga (fsub (fmul (fofZ 2) x0) (fmul (fofZ 3) x1))) [vec2 nm1 n0; vec2 n0 nm1; vec2 n1 n1] (vec2 (-! n2) (nZ 3)) g b sh); auto.
  - intros z. apply room4_As.
  - rewrite room4_As. split; intros H A HA; specialize (H A HA); lra.
  - intros i Hi0. apply tests4; auto.
  - apply Rabs_le_inv in Vs, B0, B1. apply Rabs_le. lra.
  - unfold goal4. rewrite U0, U1. lra.
  - intros z. apply goal4_grad.
Qed.
(** Example 3: feasibility below a target. *)
Lemma ex3_call (o : Ex3 F) (y : Arr F) : (-1 <= ex3_idx o < 4)%Z -> in_square X y -> fin (ex3_target o : f64) = true -> Rabs (val (ex3_target o : f64)) <= C ->
  exists o' r, ex3_assess o y = Ok (o', r) /\ (-1 <= ex3_idx o' < 4)%Z /\ ex3_target o' = ex3_target o /\
    (r = None -> room4 (- mu) (fcoords y) /\ goal4 (fcoords y) <= val (ex3_target o : f64) + mu) /\
    (forall g c, r = Some (g, c) -> two g /\ all_finite g /\ fin (sc_beta c : f64) = true /\ 0 < val (sc_beta c : f64) /\
      forall z, room4 mu z -> goal4 z + mu <= val (ex3_target o : f64) -> along 2 (fcoords g) z (fcoords y) + val (sc_beta c : f64) <= 0).
Proof.
  intros Hi Hy Ft Bt. destruct (point y Hy) as (x0 & x1 & E0 & E1 & F0 & F1 & U0 & U1 & B0 & B1). destruct (ex3_picks (N := F) o y x0 x1 Hi E0 E1) as (o' & r & R & Hi' & Ht & P).
  exists o', r. split; [exact R|]. split; [exact Hi'|]. split; [exact Ht|]. pose proof (lin_facts X C HR) as (MU & UC & Us & Up & Es & Ep & UX & UU & UX0 & BG & HX1 & HXC & SX & SC & SE).
  destruct (d_val lm X C HR x0 x1 F0 F1 B0 B1) as [Fs Vs]. destruct (c2 lm) as [Fc2 Vc2]. destruct (copp lm (nZ 3) 3 (c3 lm)) as [Fm3 Vm3].
  set (t := ex3_target o : f64) in *. set (f0 := fsub (fmul (fofZ 2) x0) (fmul (fofZ 3) x1)) in *.
  assert (TL : ok_test lm C y (fsub f0 t) (vec2 (N := F) n2 (-! nZ 3)) (fun z => goal4 z - val t)).
  { apply Rabs_le_inv in B0, B1, Bt. destruct (sub_big f0 t _ _ _ 0 (2 * C) Fs Ft Vs (self0 _)) as (P1 & P2 & _); [|lra|].
    - assert (Rabs (2 * val (x0 : f64) - 3 * val (x1 : f64) - val t) <= 5 * X + C) by (apply Rabs_le; lra). lra.
    - apply near_test; auto; [intros z; rewrite Vc2, Vm3; unfold goal4; ring|unfold goal4; rewrite U0, U1; lra]. }
  pose proof (tests4 y x0 x1 (vec2 (N := F) n2 (-! nZ 3)) F0 F1 U0 U1 B0 B1) as T4.
  pose proof (T4 0%nat f0 ltac:(lia)) as Ta. pose proof (T4 1%nat f0 ltac:(lia)) as Tb. pose proof (T4 2%nat f0 ltac:(lia)) as Tc. cbn [nth] in Ta, Tb, Tc. clear T4.
  assert (OK : forall (f : F) g A, ok_test lm C y (f : f64) g A -> (n0 <?! f) = true -> two g /\ all_finite g /\ fin (f : f64) = true /\ 0 < val (f : f64) /\ forall z, A z + mu <= 0 -> along 2 (fcoords g) z (fcoords y) + val (f : f64) <= 0).
  { intros f g A (T1 & T2 & T3 & _) K. destruct (T3 K) as (T5 & T6 & T7). auto 6. }
  destruct P as [(g & b & -> & HI & K)|(-> & K)].
  - split; [discriminate|]. intros g' c E. inversion E; subst g' c. cbn [sc_beta]. cbn [In] in HI.
    assert (Q : exists A, (forall z, room4 mu z -> goal4 z + mu <= val t -> A z + mu <= 0) /\ ok_test lm C y (b : f64) g A).
    { destruct HI as [E'|[E'|[E'|[E'|[]]]]]; inversion E'; subst b g; clear E'.
      - exists (fun z => - z 0%nat - 1). split; [intros z (Q1 & Q2 & Q3) _; lra|exact Ta].
      - exists (fun z => - z 1%nat - 2). split; [intros z (Q1 & Q2 & Q3) _; lra|exact Tb].
      - exists (fun z => z 0%nat + z 1%nat - 1). split; [intros z (Q1 & Q2 & Q3) _; lra|exact Tc].
      - exists (fun z => goal4 z - val t). split; [intros z _ Q4; lra|exact TL]. }
    destruct Q as (A & Q1 & Q2). destruct (OK b g A Q2 K) as (W1 & W2 & W3 & W4 & W5). repeat (split; [assumption|]). intros z Z1 Z2. apply W5. now apply Q1.
  - split; [intros _|intros; discriminate]. cbn [In] in K.
    pose proof (K _ (or_introl eq_refl)) as K1. pose proof (K _ (or_intror (or_introl eq_refl))) as K2. pose proof (K _ (or_intror (or_intror (or_introl eq_refl)))) as K3. pose proof (K _ (or_intror (or_intror (or_intror (or_introl eq_refl))))) as K4. cbn [fst] in K1, K2, K3, K4. clear K.
    apply (proj2 (proj2 (proj2 Ta))) in K1. apply (proj2 (proj2 (proj2 Tb))) in K2. apply (proj2 (proj2 (proj2 Tc))) in K3. apply (proj2 (proj2 (proj2 TL))) in K4. cbn beta in K1, K2, K3, K4. unfold room4. lra.
Qed.

(** * Runs *)
Definition lwant (room : R -> vec -> Prop) (goal : vec -> R) (ga : F) (z : vec) : Prop := room mu z /\ above mu (ga : f64) (goal z).
Definition lgood (room : R -> vec -> Prop) (goal : vec -> R) (ga : F) (x : Arr F) : Prop := room (- mu) (fcoords x) /\ fin (ga : f64) = true /\ Rabs (val (ga : f64) - goal (fcoords x)) <= mu.
Section Opt.
Variables (O : Type) (ass : O -> Arr F -> F -> res (O * F * ((Arr F * SingleCut F) * bool))) (Sto : O -> Prop) (room : R -> vec -> Prop) (goal : vec -> R) (top : R).
Hypothesis Hcall : forall o (y : Arr F) (ga : f64), Sto o -> in_square X y -> lin_level C ga ->
  exists o' (ga' : f64) g (b : f64) sh, ass o y (ga : F) = Ok (o', (ga' : F), ((g, mkSingle (N := F) b), sh)) /\ Sto o' /\ lin_answer room goal C y ga ga' g b sh.
Hypothesis Htop : forall z, room (- mu) z -> goal z <= top + 7 * mu.
Lemma lin_hstep (ga0 : F) o1 (x : Arr F) (ga1 : F) o2 (ga2 : F) g b sh : (Sto o1 /\ lin_level C (ga1 : f64) /\ (fin (ga0 : f64) = true -> fin (ga1 : f64) = true /\ val (ga0 : f64) <= val (ga1 : f64))) -> in_square X x -> ass o1 x ga1 = Ok (o2, ga2, ((g, b), sh)) ->
    (Sto o2 /\ lin_level C (ga2 : f64) /\ (fin (ga0 : f64) = true -> fin (ga2 : f64) = true /\ val (ga0 : f64) <= val (ga2 : f64))) /\ (sh = true -> lgood room goal ga2 x) /\ (sh = false -> ga2 = ga1) /\ (forall z, lwant room goal ga2 z -> lwant room goal ga1 z) /\
    (forall z, lwant room goal ga2 z -> along 2 (fcoords g) z (fcoords x) + foff (cut_mode sh) b <= 0).
Proof.
  intros (A1 & A2 & A3) Hx A. destruct (Hcall o1 x ga1 A1 Hx A2) as (o3 & ga3 & g3 & b3 & sh3 & R & So & [L1 L2 L3 L4 L5 L6]).
  assert (E2 := eq_trans (eq_sym A) R). inversion E2; subst o3 ga3 g3 b sh3. clear R E2.
  split; [split; [exact So|split; [exact L2|intros Fg; destruct (A3 Fg) as [Q1 Q2]; destruct (L5 Q1) as [Q3 Q4]; split; [exact Q3|lra]]]|].
  split; [intros Hsh; destruct (L4 Hsh) as (Q1 & Q2 & Q3 & _); repeat split; auto; apply Q1|]. split; [intros Hsh; exact (proj1 (L3 Hsh))|].
  split; [intros z [Z1 Z2]; split; [exact Z1|]; intros Fg; destruct (L5 Fg) as [Q3 Q4]; specialize (Z2 Q3); lra|].
  intros z [Z1 Z2]. specialize (L6 z Z1 Z2). destruct sh; cbn [cut_mode foff sc_beta]; [destruct (L4 eq_refl) as (_ & _ & _ & Q); rewrite Q in L6|]; lra.
Qed.
Theorem lin_values opt o (e : Ell F) (ga : F) o' e' (ga' : F) ans k : Sto o -> lin_level C (ga : f64) ->
  (forall l o1 e1 (ga1 : F) xb1, asked_opt (single_cut (N := F)) (tolerance opt) ass o e ga None l o1 e1 ga1 xb1 -> (length l < max_iters opt)%nat -> in_square X (e_xc e1)) ->
  cutting_plane_optim ass (ell_space (single_cut (N := F))) opt o e ga = Ok (o', e', ga', (ans, k)) ->
  (fin (ga : f64) = true -> fin (ga' : f64) = true /\ val (ga : f64) <= val (ga' : f64)) /\ (ans = None -> ga' = ga) /\
  (fin (ga : f64) = true -> top + 8 * mu < val (ga : f64) -> ans = None) /\
  (forall x, ans = Some x -> lgood room goal ga' x).
Proof.
  intros Ho Hg HX E.
  destruct (mono_values lm 2 O ass (fun o1 ga1 => Sto o1 /\ lin_level C (ga1 : f64) /\ (fin (ga : f64) = true -> fin (ga1 : f64) = true /\ val (ga : f64) <= val (ga1 : f64))) (lgood room goal) (in_square X) (lwant room goal) (lin_hstep ga) ga opt o e ga o' e' ga' ans k eq_refl) as ((_ & _ & M1) & (M2 & M3)); [repeat split; auto; lra|exact HX|exact E|].
  split; [exact M1|]. split; [exact M3|]. split; [|exact M2].
  intros Fg Hh. destruct ans as [x|]; [exfalso|reflexivity]. destruct (M2 x eq_refl) as (Q1 & Q2 & Q3). pose proof (Htop _ Q1). apply Rabs_le_inv in Q3. pose proof (proj2 (M1 Fg)). lra.
Qed.
Theorem lin_run s G opt o (e : Ell F) (ga : F) o' e' (ga' : F) ans k : s <= 1 / 10 -> Sto o -> lin_level C (ga : f64) ->
  (forall l o1 e1 (ga1 : F) xb1, asked_opt (single_cut (N := F)) (tolerance opt) ass o e ga None l o1 e1 ga1 xb1 -> (length l <= max_iters opt)%nat ->
    tame_run 2 s G e l /\ ((length l < max_iters opt)%nat -> in_square X (e_xc e1))) ->
  cutting_plane_optim ass (ell_space (single_cut (N := F))) opt o e ga = Ok (o', e', ga', (ans, k)) ->
  (k = max_iters opt -> forall z, lwant room goal ga' z -> fpts 2 e 1 z -> fpts 2 e' (1 + excess s G k) z) /\
  (forall z r, 0 < r -> (forall x, ball 2 z r x -> lwant room goal ga' x /\ fpts 2 e 1 x) ->
    (r * r) ^ 2 <= ((1 + excess s G k) ^ 2 * ((1 + s) ^ 2 * exp (- / (INR 2 + 1))) ^ k) * fvol2 2 e).
Proof.
  intros Hs Ho Hg HT E.
  destruct (mono_run_at lm 2 O ass (fun o1 ga1 => Sto o1 /\ lin_level C (ga1 : f64) /\ (fin (ga : f64) = true -> fin (ga1 : f64) = true /\ val (ga : f64) <= val (ga1 : f64))) (lgood room goal) (in_square X) (lwant room goal) (lin_hstep ga) ga s G opt o e ga o' e' ga' ans k eq_refl Hs) as (_ & _ & M4 & M5); [repeat split; auto; lra|exact HT|exact E|].
  split; [exact M4|exact M5].
Qed.
End Opt.
Lemma top1 z : room1 (- mu) z -> goal1 z <= 3 + 7 * mu.
Proof. pose proof (lin_facts X C HR) as (MU & UC & _). unfold room1, goal1. lra. Qed.
Lemma top4 z : room4 (- mu) z -> goal4 z <= 12 + 7 * mu.
Proof. pose proof (lin_facts X C HR) as (MU & UC & _). unfold room4, goal4. lra. Qed.
Theorem ex3_run s G opt (o : Ex3 F) (e : Ell F) o' e' ans k : s <= 1 / 10 -> (-1 <= ex3_idx o < 4)%Z -> fin (ex3_target o : f64) = true -> Rabs (val (ex3_target o : f64)) <= C ->
  (forall l o1 e1, asked (single_cut (N := F)) (tolerance opt) ex3_oracle o e l o1 e1 -> (length l <= max_iters opt)%nat ->
    tame_run 2 s G e l /\ ((length l < max_iters opt)%nat -> in_square X (e_xc e1))) ->
  cutting_plane_feas ex3_oracle (ell_space (single_cut (N := F))) opt o e = Ok (o', e', (ans, k)) ->
  (forall x, ans = Some x -> room4 (- mu) (fcoords x) /\ goal4 (fcoords x) <= val (ex3_target o : f64) + mu) /\
  (ans <> None \/ k = max_iters opt -> forall z, room4 mu z /\ goal4 z + mu <= val (ex3_target o : f64) -> fpts 2 e 1 z -> fpts 2 e' (1 + excess s G k) z) /\
  (forall z r, 0 < r -> (forall x, ball 2 z r x -> (room4 mu x /\ goal4 x + mu <= val (ex3_target o : f64)) /\ fpts 2 e 1 x) ->
    (r * r) ^ 2 <= ((1 + excess s G k) ^ 2 * ((1 + s) ^ 2 * exp (- / (INR 2 + 1))) ^ k) * fvol2 2 e).
Proof.
  intros Hs Hi Ft Bt HT E.
  refine (feas_run_in lm 2 (Ex3 F) ex3_oracle (fun o1 => (-1 <= ex3_idx o1 < 4)%Z /\ ex3_target o1 = ex3_target o) (fun x => room4 (- mu) (fcoords x) /\ goal4 (fcoords x) <= val (ex3_target o : f64) + mu) (in_square X) (fun z => room4 mu z /\ goal4 z + mu <= val (ex3_target o : f64)) _ s G opt o e o' e' ans k Hs (conj Hi eq_refl) HT E).
  intros o1 x o2 r [A1 A2] Hx A. destruct (ex3_call o1 x A1 Hx) as (o3 & r3 & R & B1 & B2 & B3 & B4); [rewrite A2; exact Ft|rewrite A2; exact Bt|].
  cbn [ex3_oracle of_assess] in A. rewrite R in A. inversion A; subst o3 r3. rewrite A2 in *. split; [auto|]. split; [exact B3|].
  intros g b Er z [Z1 Z2]. destruct (B4 g b Er) as (_ & _ & _ & _ & Q). now apply Q.
Qed.
End V.
