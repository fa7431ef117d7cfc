(** What the drivers return on an Ell was accepted by the oracle, in a state the
    oracle can be in and at a point of the right dimension. *)
From Coq Require Import Reals List Bool Arith Lia Lra.
From Verif Require Import Num Res Arr CuttingPlane EllCalc Ell EllRun ArrLemmas EllLemmas Spec EllSpec EllReal EllCuts EllMore RunSpec RunProofs.
Open Scope R_scope.

Section Accept.
Context {C O : Type} (ct : CutType RNum C) (sat : mode -> C -> R -> Prop) (deep : C -> Prop).
Variables (n : nat) (Inv : O -> Prop) (InvL : O -> R -> Prop).

Lemma feas_accepts K (ora : OracleFeas RNum (Arr RNum) C O) (opt : Options RNum) o (e : Ell RNum) o' e' x k :
  feas_cuts sat deep n Inv K ora -> Inv o -> ell_wf n e -> vecn n (e_xc e) ->
  cutting_plane_feas ora (ell_space (N := RNum) ct) opt o e = Ok (o', e', (Some x, k)) ->
  vecn n x /\ exists o1, Inv o1 /\ of_assess ora o1 x = Ok (o', None).
Proof.
  intros Hc Ho V Hxc E. unfold cutting_plane_feas in E. apply bind_inv in E as (c & E & Ek).
  unfold loop_range in E. match type of E with loop_up ?k ?lo ?body ?st = _ =>
    pose proof (loop_part (fun _ '((o, s) : O * Ell RNum) => Inv o /\ ell_wf n s /\ vecn n (e_xc s))
      (fun '((o2, s, (an, _)) : O * Ell RNum * (option (Arr RNum) * nat)) =>
        match an with None => True | Some x => vecn n x /\ exists o1, Inv o1 /\ of_assess ora o1 x = Ok (o2, None) end) body k lo st) as L end.
  rewrite E in L. clear E. specialize (L (conj Ho (conj V Hxc))).
  match type of L with ?A -> ?B -> _ => assert (A1 : A); [|specialize (L A1); assert (B1 : B)] end.
  - intros i [o1 s1] [o2 s2] _ (HI & HV & HX) EB. apply bind_inv in EB as ([o3 an] & Ea & EB).
    destruct (Hc _ _ _ _ HI HX Ea) as [HI' Hans].
    destruct an as [[g c0]|]; [|discriminate]. destruct Hans as (Hg & Hd & Hsat).
    apply bind_inv in EB as ([s3 st] & Eu & EB).
    destruct (negb (is_success st) || _) eqn:B; [discriminate|]. inversion EB; subst o3 s3. clear EB. split; auto.
    destruct (apply_cut_ok (N := RNum) ct Bias n s1 g c0 HV Hg) as (s4 & st4 & E4 & W & _).
    change (sp_update_bias_cut (ell_space (N := RNum) ct) s1 (g, c0)) with (apply_cut (N := RNum) ct Bias s1 (g, c0)) in Eu.
    rewrite Eu in E4. inversion E4; subst. split; auto. split; [apply W|]. rewrite (cols_kept ct Bias n s1 g c0 s4 st4 HV Hg Eu). apply HX.
  - intros i [o1 s1] [[o2 s2] [an kk]] _ (HI & HV & HX) EB. apply bind_inv in EB as ([o3 an'] & Ea & EB).
    destruct an' as [[g c0]|].
    + apply bind_inv in EB as ([s3 st] & Eu & EB). destruct (negb (is_success st) || _) eqn:B; [|discriminate]. inversion EB; subst. auto.
    + inversion EB; subst. split; [exact HX|]. eauto.
  - specialize (L B1). destruct c as [[o1 s1]|[[o1 s1] [an kk]]]; inversion Ek; subst. exact L.
Qed.

Lemma optim_accepts beats (ora : OracleOptim RNum (Arr RNum) C O) (opt : Options RNum) o (e : Ell RNum) (gamma : R) o' e' (gamma' : R) x k :
  optim_cuts sat deep n InvL beats ora -> InvL o gamma -> ell_wf n e -> vecn n (e_xc e) ->
  cutting_plane_optim ora (ell_space (N := RNum) ct) opt o e gamma = Ok (o', e', gamma', (Some x, k)) ->
  vecn n x /\ exists o1 g1 o2 cut, InvL o1 g1 /\ ora o1 x g1 = Ok (o2, gamma', (cut, true)).
Proof.
  intros Hc Ho V Hxc E. unfold cutting_plane_optim in E. apply bind_inv in E as (c & E & Ek).
  set (link := fun (ga : num RNum) (xb : option (Arr RNum)) =>
    match xb with None => True | Some x => vecn n x /\ exists o1 g1 o2 cut, InvL o1 g1 /\ ora o1 x g1 = Ok (o2, ga, (cut, true)) end).
  unfold loop_range in E. match type of E with loop_up ?k ?lo ?body ?st = _ =>
    pose proof (loop_part (fun _ '((o, s, ga, xb) : O * Ell RNum * num RNum * option (Arr RNum)) => InvL o ga /\ (ell_wf n s /\ vecn n (e_xc s)) /\ link ga xb)
      (fun '((_, s, ga, (xb, _)) : O * Ell RNum * num RNum * (option (Arr RNum) * nat)) => link ga xb) body k lo st) as L end.
  rewrite E in L. clear E. specialize (L (conj Ho (conj (conj V Hxc) I))).
  assert (D : forall (sh : bool) s (xb : option (Arr RNum)) cut xb2 s2 st,
    (if sh then (let x_best := Some (sp_xc (ell_space (N := RNum) ct) s) in
                 r <- sp_update_central_cut (ell_space (N := RNum) ct) s cut ;; Ok (x_best, r))
            else r <- sp_update_bias_cut (ell_space (N := RNum) ct) s cut ;; Ok (xb, r)) = Ok (xb2, (s2, st)) ->
    apply_cut (N := RNum) ct (if sh then Central else Bias) s cut = Ok (s2, st) /\ xb2 = if sh then Some (e_xc s) else xb).
  { intros sh s xb cut xb2 s2 st E. destruct sh; cbv zeta in E; apply bind_inv in E as (r & E & E'); inversion E'; subst; split; auto; exact E. }
  assert (U : forall o1 s1 ga1 xb1 o3 ga3 g c0 (sh : bool), InvL o1 ga1 -> vecn n (e_xc s1) -> link ga1 xb1 -> ora o1 (e_xc s1) ga1 = Ok (o3, ga3, ((g, c0), sh)) ->
    InvL o3 ga3 /\ vecn n g /\ link ga3 (if sh then Some (e_xc s1) else xb1)).
  { intros o1 s1 ga1 xb1 o3 ga3 g c0 sh HI HV HL Ea. destruct (Hc _ _ _ _ _ _ _ _ HI HV Ea) as (HI' & Hg & Hd & Hs & _).
    split; auto. split; auto. destruct sh; [split; [exact HV|]; exists o1, ga1, o3, (g, c0); auto|]. rewrite (Hs eq_refl). exact HL. }
  match type of L with ?A -> ?B -> _ => assert (A1 : A); [|specialize (L A1); assert (B1 : B)] end.
  - intros i [[[o1 s1] ga1] xb1] [[[o2 s2] ga2] xb2] _ (HI & [HV HX] & HK) EB. apply bind_inv in EB as ([[o3 ga3] [[g c0] sh]] & Ea & EB).
    destruct (U _ _ _ _ _ _ _ _ _ HI HX HK Ea) as (HI' & Hg & HL).
    apply bind_inv in EB as ([xb3 [s3 st]] & Eu & EB). apply D in Eu as [Eu ->].
    destruct (negb (is_success st) || _) eqn:B; [discriminate|]. inversion EB; subst. split; auto. split; auto.
    destruct (apply_cut_ok (N := RNum) ct (if sh then Central else Bias) n s1 g c0 HV Hg) as (s4 & st4 & E4 & W & _).
    rewrite Eu in E4. inversion E4; subst. split; auto. split; [apply W|]. rewrite (cols_kept ct _ n s1 g c0 s4 st4 HV Hg Eu). apply HX.
  - intros i [[[o1 s1] ga1] xb1] [[[o2 s2] ga2] [an kk]] _ (HI & [HV HX] & HK) EB. apply bind_inv in EB as ([[o3 ga3] [[g c0] sh]] & Ea & EB).
    destruct (U _ _ _ _ _ _ _ _ _ HI HX HK Ea) as (HI' & Hg & HL).
    apply bind_inv in EB as ([xb3 [s3 st]] & Eu & EB). apply D in Eu as [Eu ->].
    destruct (negb (is_success st) || _) eqn:B; [|discriminate]. inversion EB; subst. auto.
  - specialize (L B1). destruct c as [[[[o1 s1] ga1] xb1]|[[[o1 s1] ga1] [an kk]]]; inversion Ek; subst; [apply L|exact L].
Qed.
End Accept.
