(** C01-C09: the generic drivers. *)
From Coq Require Import ZArith Reals Lra List Bool Arith.
From Flocq Require Import Core IEEE754.BinarySingleNaN.
From Verif Require Import Num Res Arr CuttingPlane Ell DriverSpec DriverProofs DriverProofs2
  BSearchReal BSearchFloat ToyDrivers.
Import ListNotations.

(** C01. *)
Theorem C01_feas_answer :
  forall (N : Num) (A C O S : Type) (ora : OracleFeas N A C O) (sp : SearchSpace N A C S)
    (opt : Options N) o s o' s' x k,
  cutting_plane_feas ora sp opt o s = Ok (o', s', (Some x, k)) <->
  k < max_iters opt /\
  exists os ss, os 0 = o /\ ss 0 = s /\
    feas_steps ora sp (tolerance opt) k os ss /\
    of_assess ora (os k) (sp_xc sp (ss k)) = Ok (o', None) /\
    s' = ss k /\ x = sp_xc sp s'.
Proof. exact @feas_some_iff. Qed.
Print Assumptions C01_feas_answer.
Example C01_case :
  cutting_plane_feas (toy_feas (Some false)) toy_space (toy_opt 10) 3 (0, []) =
  Ok (3, (3, [0; 0; 0]), (Some 3, 3)).
Proof. vm_compute. reflexivity. Qed.

(** C02. *)
Theorem C02_feas_gave_up :
  forall (N : Num) (A C O S : Type) (ora : OracleFeas N A C O) (sp : SearchSpace N A C S)
    (opt : Options N) o s o' s' k,
  cutting_plane_feas ora sp opt o s = Ok (o', s', (None, k)) <->
  exists os ss, os 0 = o /\ ss 0 = s /\
    feas_steps ora sp (tolerance opt) k os ss /\
    ((k < max_iters opt /\ exists cut st,
        of_assess ora (os k) (sp_xc sp (ss k)) = Ok (o', Some cut) /\
        sp_update_bias_cut sp (ss k) cut = Ok (s', st) /\
        (st <> Success \/ (sp_tsq sp s' <?! tolerance opt) = true)) \/
     (k = max_iters opt /\ o' = os k /\ s' = ss k)).
Proof. exact @feas_none_iff. Qed.
Print Assumptions C02_feas_gave_up.
Theorem C02_feas_panics :
  forall (N : Num) (A C O S : Type) (ora : OracleFeas N A C O) (sp : SearchSpace N A C S)
    (opt : Options N) o s,
  cutting_plane_feas ora sp opt o s = Panic <->
  exists k os ss, k < max_iters opt /\ os 0 = o /\ ss 0 = s /\
    feas_steps ora sp (tolerance opt) k os ss /\
    (of_assess ora (os k) (sp_xc sp (ss k)) = Panic \/
     exists o' cut, of_assess ora (os k) (sp_xc sp (ss k)) = Ok (o', Some cut) /\
       sp_update_bias_cut sp (ss k) cut = Panic).
Proof. exact @feas_panic_iff. Qed.
Print Assumptions C02_feas_panics.
(** The oracle is called min(k+1, max_iters) times: run it with a counter. *)
Theorem C02_feas_calls :
  forall (N : Num) (A C O S : Type) (ora : OracleFeas N A C O) (sp : SearchSpace N A C S)
    (opt : Options N) o s c0 o' s' r k,
  cutting_plane_feas ora sp opt o s = Ok (o', s', (r, k)) ->
  cutting_plane_feas (counting ora) sp opt (o, c0) s =
    Ok ((o', c0 + Nat.min (1 + k) (max_iters opt)), s', (r, k)).
Proof. exact @feas_counting. Qed.
Print Assumptions C02_feas_calls.
Example C02_case_cut :
  cutting_plane_feas (toy_feas None) toy_space (toy_opt 10) 3 (0, []) =
  Ok (3, (0, []), (None, 0)).
Proof. vm_compute. reflexivity. Qed.
Example C02_case_max :
  cutting_plane_feas (counting (toy_feas (Some false))) toy_space (toy_opt 2) (3, 7) (0, []) =
  Ok ((3, 9), (2, [0; 0]), (None, 2)).
Proof. vm_compute. reflexivity. Qed.

(** C03. *)
Theorem C03_optim_last_improvement :
  forall (N : Num) (A C O S : Type) (ora : OracleOptim N A C O) (sp : SearchSpace N A C S)
    (opt : Options N) o s g o' s' g' xb k,
  cutting_plane_optim ora sp opt o s g = Ok (o', s', g', (xb, k)) <->
  exists q os ss gs sh, os 0 = o /\ ss 0 = s /\ gs 0 = g /\
    optim_run ora sp opt os ss gs sh k q /\
    o' = os q /\ s' = ss q /\ g' = gs q /\
    last_flagged sh (fun i => sp_xc sp (ss i)) q xb.
Proof. exact @optim_iff. Qed.
Print Assumptions C03_optim_last_improvement.
Example C03_case :
  match cutting_plane_optim toy_optim toy_space (toy_opt 6) tt (0, []) (fofZ 0) with
  | Ok (_, s, g, r) => s = (6, [0; 1; 0; 0; 1; 0]) /\ ftrunc g = 40%Z /\ r = (Some 4, 6)
  | Panic => False
  end.
Proof. vm_compute. auto. Qed.

(** C04. *)
Theorem C04_gamma_paired :
  forall (N : Num) (A C O S : Type) (ora : OracleOptim N A C O) (sp : SearchSpace N A C S)
    (opt : Options N) (f : A -> N) (better : N -> N -> Prop),
  (forall a b c, better a b -> better b c -> better a c) ->
  (forall o x g o' g' cut sh, ora o x g = Ok (o', g', (cut, sh)) ->
     if sh : bool then g' = f x /\ better g' g else g' = g) ->
  forall o s g o' s' g' xb k,
  cutting_plane_optim ora sp opt o s g = Ok (o', s', g', (xb, k)) ->
  exists q os ss gs sh, os 0 = o /\ ss 0 = s /\ gs 0 = g /\
    optim_run ora sp opt os ss gs sh k q /\ g' = gs q /\
    (forall i j, i <= j <= q -> gs j = gs i \/ better (gs j) (gs i)) /\
    (forall i, i < q -> sh i = true -> gs (1 + i) = f (sp_xc sp (ss i))) /\
    match xb with
    | None => g' = g /\ (forall i, i < q -> sh i = false)
    | Some x => g' = f x /\ better g' g
    end.
Proof. exact @optim_paired. Qed.
Print Assumptions C04_gamma_paired.
(** [toy_optim] meets the hypothesis with f x = 10 x and the trivial order; a
    numerically ordered instance is [C61]'s example oracles. *)
Example C04_case : forall o x g o' g' cut sh, toy_optim o x g = Ok (o', g', (cut, sh)) ->
  if sh : bool then g' = fofZ (Z.of_nat (10 * x)) /\ True else g' = g.
Proof.
  intros o x g o' g' cut sh. unfold toy_optim. destruct ((x =? 1) || (x =? 4));
  intros E; inversion E; auto.
Qed.

(** C05. *)
Theorem C05_optim_q_retry :
  forall (N : Num) (A C O S : Type) (ora : OracleOptimQ N A C O) (sp : SearchSpace N A C S)
    (opt : Options N) o s g o' s' g' xb k,
  cutting_plane_optim_q ora sp opt o s g = Ok (o', s', g', (xb, k)) <->
  exists q os ss gs rs sh xq, os 0 = o /\ ss 0 = s /\ gs 0 = g /\
    optim_q_run ora sp opt os ss gs rs sh xq k q /\
    o' = os q /\ s' = ss q /\ g' = gs q /\ last_flagged sh xq q xb.
Proof. exact @optim_q_iff. Qed.
Print Assumptions C05_optim_q_retry.
Example C05_case :
  match cutting_plane_optim_q toy_q toy_space (toy_opt 20) [] (0, []) (fofZ 0) with
  | Ok (log, s, g, r) =>
      log = [false; false; false; true; false; false; false] /\
      s = (7, [2; 2; 2; 2; 2; 2; 2]) /\ r = (Some 103, 6)
  | Panic => False
  end.
Proof. vm_compute. auto. Qed.

(** C06. *)
Theorem C06_probe :
  forall (N : Num) (A C O S : Type) (ora : OracleFeas N A C O) (sp : SearchSpace N A C S)
    (b : BSearchAdaptor N O S) gamma b' ans,
  assess_bs ora sp b gamma = Ok (b', ans) <->
  exists s' r k,
    cutting_plane_feas ora sp (ba_options b) (of_update ora (ba_omega b) gamma) (ba_space b)
      = Ok (ba_omega b', s', (r, k)) /\
    ba_options b' = ba_options b /\
    match r with
    | Some x => ans = true /\ ba_space b' = sp_set_xc sp (ba_space b) x
    | None => ans = false /\ ba_space b' = ba_space b
    end.
Proof. exact @assess_bs_iff. Qed.
Print Assumptions C06_probe.
(** Any number of probes, on any space whose [set_xc] only stores the centre. *)
Theorem C06_probe_sequence :
  forall (N : Num) (A C O S : Type) (ora : OracleFeas N A C O) (sp : SearchSpace N A C S)
    k (bs : nat -> BSearchAdaptor N O S) gs ans,
  (forall s x y, sp_set_xc sp (sp_set_xc sp s x) y = sp_set_xc sp s y) ->
  (forall i, i < k -> assess_bs ora sp (bs i) (gs i) = Ok (bs (1 + i), ans i)) ->
  exists pts : nat -> A,
   (forall i, i < k -> ans i = true ->
      exists o' s' n, cutting_plane_feas ora sp (ba_options (bs 0))
        (of_update ora (ba_omega (bs i)) (gs i)) (ba_space (bs i)) = Ok (o', s', (Some (pts i), n))) /\
   ba_options (bs k) = ba_options (bs 0) /\
   exists last, last_flagged ans pts k last /\
     ba_space (bs k) = match last with
                       | None => ba_space (bs 0)
                       | Some x => sp_set_xc sp (ba_space (bs 0)) x
                       end.
Proof. exact @probes_space. Qed.
Print Assumptions C06_probe_sequence.
Example C06_case :
  match assess_bs (toy_feas (Some false)) toy_space (mkAdaptor 0 (0, []) (toy_opt 10)) (fofZ 4) with
  | Ok (b, ans) => ba_omega b = 4 /\ ba_space b = (4, []) /\ ans = true
  | Panic => False
  end.
Proof. vm_compute. auto. Qed.
Example C06_case_ell : forall (N : Num) C (ct : CutType N C) s x y,
  sp_set_xc (ell_space ct) (sp_set_xc (ell_space ct) s x) y = sp_set_xc (ell_space ct) s y.
Proof. reflexivity. Qed.

(** C07. *)
Theorem C07_bsearch_brackets :
  forall (B : Type) (ora : OracleBS RNum B) (opt : Options RNum) (t l u : R) (b : B),
  (forall b g, exists b', ora b g = Ok (b', Rle_bool t g)) -> (l < t <= u)%R ->
  exists b' flag k, bsearch ora opt b ((l, u) : RNum * RNum) = Ok (b', (l, u), (flag, k)) /\
  k <= max_iters opt /\
  (forall i, i < k -> (tolerance opt <= (u - l) / 2 ^ (1 + i))%R) /\
  (k = max_iters opt \/ ((u - l) / 2 ^ (1 + k) < tolerance opt)%R) /\
  exists bs lo hi ans,
    bs 0 = b /\ lo 0 = l /\ hi 0 = u /\ bs k = b' /\
    (forall i, i < k ->
       let gamma := ((lo i + hi i) / 2)%R in
       (l < gamma < u)%R /\ ora (bs i) gamma = Ok (bs (1 + i), ans i) /\
       (ans i = true <-> (t <= gamma)%R) /\
       (ans i = true -> lo (1 + i) = lo i /\ hi (1 + i) = gamma) /\
       (ans i = false -> lo (1 + i) = gamma /\ hi (1 + i) = hi i)) /\
    (forall i, i <= k -> (lo i < t <= hi i)%R /\ (hi i - lo i = (u - l) / 2 ^ i)%R) /\
    (flag = true <-> exists i, i < k /\ ans i = true).
Proof. exact @bsearch_real. Qed.
Print Assumptions C07_bsearch_brackets.
Example C07_case : forall b g, exists b' : unit,
  (fun (_ : unit) (g : R) => Ok (tt, Rle_bool 0 g)) b g = Ok (b', Rle_bool 0 g).
Proof. intros. eexists. reflexivity. Qed.

(** C08. *)
Theorem C08_bsearch_interval_untouched :
  forall (N : Num) (B : Type) (ora : OracleBS N B) (opt : Options N) b l u b' iv flag k,
  bsearch ora opt b (l, u) = Ok (b', iv, (flag, k)) <->
  (l <=?! u) = true /\ iv = (l, u) /\
  exists bs lo hi ans, bs 0 = b /\ lo 0 = l /\ hi 0 = u /\
    bs_steps ora (tolerance opt) k bs lo hi ans /\ b' = bs k /\
    flag = negb (hi k =?! u) /\
    ((k < max_iters opt /\ (bs_tau (lo k) (hi k) <?! tolerance opt) = true) \/ k = max_iters opt).
Proof. exact @bsearch_iff. Qed.
Print Assumptions C08_bsearch_interval_untouched.
Theorem C08_bsearch_panics :
  forall (N : Num) (B : Type) (ora : OracleBS N B) (opt : Options N) b l u,
  (forall b g, ora b g <> Panic) ->
  bsearch ora opt b (l, u) = Panic <-> (l <=?! u) = false.
Proof. exact @bsearch_panic_iff. Qed.
Print Assumptions C08_bsearch_panics.
(** Thirty probes narrow (-100, 100) down, the caller's interval is still (-100, 100). *)
Example C08_case :
  let ora : OracleBS F0 nat := fun n g => Ok (S n, Bltb (fofZ 0) g) in
  match bsearch ora (mkOptions (N := F0) 2000 (flit 1 (-7))) 0
    ((fofZ (-100), fofZ 100) : F0 * F0) with
  | Ok (n, (l, u), r) => n = 30 /\ ftrunc l = (-100)%Z /\ ftrunc u = 100%Z /\ r = (true, 30)
  | Panic => False
  end.
Proof. vm_compute. auto. Qed.
Example C08_case_nan :
  let ora : OracleBS F0 unit := fun n g => Ok (n, true) in
  bsearch ora (mkOptions (N := F0) 2000 (flit 1 (-7))) tt ((B754_nan, fofZ 100) : F0 * F0) = Panic.
Proof. vm_compute. reflexivity. Qed.

(** C09. *)
Theorem C09_bsearch_float_inside :
  forall (lm : Libm) (B : Type) (ora : OracleBS (FNum lm) B) opt b (l u : f64) b' iv flag k,
  is_finite l = true -> is_finite u = true -> is_finite (fsub u l) = true ->
  bsearch ora opt b ((l, u) : FNum lm * FNum lm) = Ok (b', iv, (flag, k)) ->
  exists bs (gammas : nat -> f64) ans, bs 0 = b /\ bs k = b' /\
    forall i, i < k ->
      ora (bs i) (gammas i) = Ok (bs (1 + i), ans i) /\
      is_finite (gammas i) = true /\ Bleb l (gammas i) = true /\ Bleb (gammas i) u = true.
Proof. exact @bsearch_float_inside. Qed.
Print Assumptions C09_bsearch_float_inside.
Theorem C09_bsearch_overflow_refuted :
  let ora : OracleBS (FNum lm0) (list f64) := fun log g => Ok (cons g log, true) in
  exists log iv r, bsearch ora (mkOptions (N := FNum lm0) 1 (fofZ 1)) nil
      ((Bopp fmax, fmax) : FNum lm0 * FNum lm0) = Ok (log, iv, r) /\
    log = cons (B754_infinity false) nil /\
    is_finite (Bopp fmax) = true /\ is_finite fmax = true /\ Bleb (Bopp fmax) fmax = true /\
    Bleb (B754_infinity false) fmax = false.
Proof. exact bsearch_overflow. Qed.
Print Assumptions C09_bsearch_overflow_refuted.
