(** Property C82: the feasibility driver with the LMI oracles on an Ell, in exact
    arithmetic.  [pencil n k f b y] is B - y_0 F_0 - ... - y_{k-1} F_{k-1}. *)
From Coq Require Import Reals List Arith Lia Lra.
From Verif Require Import Num Res Arr CuttingPlane EllCalc Ell EllRun Spec EllSpec EllCuts EllMore Ldlt LdltSpec Lmi LmiSpec Det RunSpec ExConv LmiRun.
Open Scope R_scope.

(** ** C82: what the answer means *)
Theorem C82_answer : forall n k f b (opt : Options RNum) (e : Ell RNum) o' e' ans it,
  square n b -> Forall (square n) f -> sym n (entries n b) -> all_sym n f -> (2 <= k <= length f)%nat -> valid k e -> vecn k (e_xc e) -> 0 < tolerance opt ->
  cutting_plane_feas (lmi_oracle (N := RNum)) (ell_space (N := RNum) single) opt (lmi_new (N := RNum) f b) e = Ok (o', e', (ans, it)) ->
  match ans with
  | Some x => vecn k x /\ pd n (pencil n k f b (coords x))
  | None => (it < max_iters opt)%nat -> tolerance opt <= e_tsq e' -> forall y, pts k e y -> ~ psd n (pencil n k f b y)
  end.
Proof. exact (fun n k f b opt e o' e' ans it Hb Hf Sb Sf Hk => lmi_run n k f b Sb Sf (proj2 Hk) (lmi_oracle (N := RNum)) (fun _ _ _ _ => eq_refl) opt _ e o' e' ans it (proj1 Hk) (lmi_inv_new n f b Hb Hf)). Qed.
Print Assumptions C82_answer.
Theorem C82_answer_old : forall n k f b (opt : Options RNum) (e : Ell RNum) o' e' ans it,
  square n b -> Forall (square n) f -> sym n (entries n b) -> all_sym n f -> (2 <= k <= length f)%nat -> valid k e -> vecn k (e_xc e) -> 0 < tolerance opt ->
  cutting_plane_feas (lmi_old_oracle (N := RNum)) (ell_space (N := RNum) single) opt (lmi_new (N := RNum) f b) e = Ok (o', e', (ans, it)) ->
  match ans with
  | Some x => vecn k x /\ pd n (pencil n k f b (coords x))
  | None => (it < max_iters opt)%nat -> tolerance opt <= e_tsq e' -> forall y, pts k e y -> ~ psd n (pencil n k f b y)
  end.
Proof. exact (fun n k f b opt e o' e' ans it Hb Hf Sb Sf Hk => lmi_run n k f b Sb Sf (proj2 Hk) _ (old_same n k f b (proj2 Hk)) opt _ e o' e' ans it (proj1 Hk) (lmi_inv_new n f b Hb Hf)). Qed.
Print Assumptions C82_answer_old.

(** ** C82: if the inequality has room, a strictly feasible point is found, and how soon *)
Theorem C82_solves : forall n k f b (opt : Options RNum) (e : Ell RNum) z r rho,
  square n b -> Forall (square n) f -> sym n (entries n b) -> all_sym n f -> (2 <= k <= length f)%nat -> proper k e -> vecn k (e_xc e) -> 0 < r -> 0 < rho ->
  (forall y, ball k z r y -> psd n (pencil n k f b y) /\ pts k e y) -> (forall v, rho * dot n v v <= quad n (pencil n k f b z) v) ->
  tolerance opt <= rho * rho -> (INR k + 1) * ln (vol2 k e / (r * r) ^ k) < INR (max_iters opt) ->
  exists o' e' x it, cutting_plane_feas (lmi_oracle (N := RNum)) (ell_space (N := RNum) single) opt (lmi_new (N := RNum) f b) e = Ok (o', e', (Some x, it)) /\
    vecn k x /\ pd n (pencil n k f b (coords x)) /\ INR it <= (INR k + 1) * ln (vol2 k e / (r * r) ^ k).
Proof. exact (fun n k f b opt e z r rho Hb Hf Sb Sf Hk => lmi_solves n k f b Sb Sf (proj2 Hk) (lmi_oracle (N := RNum)) (fun _ _ _ _ => eq_refl) opt _ e z r rho (proj1 Hk) (lmi_inv_new n f b Hb Hf)). Qed.
Print Assumptions C82_solves.
Theorem C82_solves_old : forall n k f b (opt : Options RNum) (e : Ell RNum) z r rho,
  square n b -> Forall (square n) f -> sym n (entries n b) -> all_sym n f -> (2 <= k <= length f)%nat -> proper k e -> vecn k (e_xc e) -> 0 < r -> 0 < rho ->
  (forall y, ball k z r y -> psd n (pencil n k f b y) /\ pts k e y) -> (forall v, rho * dot n v v <= quad n (pencil n k f b z) v) ->
  tolerance opt <= rho * rho -> (INR k + 1) * ln (vol2 k e / (r * r) ^ k) < INR (max_iters opt) ->
  exists o' e' x it, cutting_plane_feas (lmi_old_oracle (N := RNum)) (ell_space (N := RNum) single) opt (lmi_new (N := RNum) f b) e = Ok (o', e', (Some x, it)) /\
    vecn k x /\ pd n (pencil n k f b (coords x)) /\ INR it <= (INR k + 1) * ln (vol2 k e / (r * r) ^ k).
Proof. exact (fun n k f b opt e z r rho Hb Hf Sb Sf Hk => lmi_solves n k f b Sb Sf (proj2 Hk) _ (old_same n k f b (proj2 Hk)) opt _ e z r rho (proj1 Hk) (lmi_inv_new n f b Hb Hf)). Qed.
Print Assumptions C82_solves_old.
(** I - x F0 - y F1, positive definite iff x^2 + y^2 < 1; the search starts from
    the infeasible centre (2, 0) *)
Example C82_case : (square 2 disc_b /\ Forall (square 2) disc_f /\ sym 2 (entries 2 disc_b) /\ all_sym 2 disc_f) /\
  (exists e, ell_new_with_scalar (N := RNum) 9 point20 = Ok e /\ proper 2 e /\ vecn 2 (e_xc e) /\ vol2 2 e = 81 /\
    ~ pd 2 (pencil 2 2 disc_f disc_b (coords point20)) /\
    (forall y, ball 2 (point2 0 0) (1 / 2) y -> psd 2 (pencil 2 2 disc_f disc_b y) /\ pts 2 e y) /\
    (forall v, 1 * dot 2 v v <= quad 2 (pencil 2 2 disc_f disc_b (point2 0 0)) v)) /\
  (INR 2 + 1) * ln (81 / (1 / 2 * (1 / 2)) ^ 2) < INR 100.
Proof. exact (conj disc_ok (conj disc_geometry disc_bound)). Qed.
