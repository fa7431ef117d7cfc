(** Specification vocabulary for the drivers: histories.

    A history is a sequence of oracle states and space states (and gammas, ...)
    indexed by the iteration number; nothing here mentions loops. *)
From Coq Require Import ZArith List Bool Arith.
From Verif Require Import Num Res CuttingPlane.

Section Spec.
Context {N : Num} {A C O S : Type}.

(** [k] iterations in which a cut was delivered, applied successfully, and left
    the search space not yet small. *)
Definition feas_steps (ora : OracleFeas N A C O) (sp : SearchSpace N A C S) (tol : N)
    (k : nat) (os : nat -> O) (ss : nat -> S) : Prop :=
  forall i, i < k -> exists cut,
    of_assess ora (os i) (sp_xc sp (ss i)) = Ok (os (1 + i), Some cut) /\
    sp_update_bias_cut sp (ss i) cut = Ok (ss (1 + i), Success) /\
    (sp_tsq sp (ss (1 + i)) <?! tol) = false.

(** One iteration of the optimiser: the oracle is queried at the centre with the
    current gamma, and its cut is applied: the central cut if it reported an
    improvement, the bias cut otherwise. *)
Definition optim_step (ora : OracleOptim N A C O) (sp : SearchSpace N A C S)
    (os : nat -> O) (ss : nat -> S) (gs : nat -> N) (sh : nat -> bool) (i : nat)
    (st : CutStatus) : Prop :=
  exists cut,
    ora (os i) (sp_xc sp (ss i)) (gs i) = Ok (os (1 + i), gs (1 + i), (cut, sh i)) /\
    (if sh i then sp_update_central_cut sp (ss i) cut = Ok (ss (1 + i), st)
     else sp_update_bias_cut sp (ss i) cut = Ok (ss (1 + i), st)).

(** The value attached to the last of the first [m] indices with the flag set. *)
Definition last_flagged {B} (sh : nat -> bool) (val : nat -> B) (m : nat) (r : option B) : Prop :=
  (r = None /\ forall i, i < m -> sh i = false) \/
  (exists i, i < m /\ sh i = true /\ (forall j, i < j < m -> sh j = false) /\ r = Some (val i)).

(** A run of the optimiser that returned [(xb, k)]. *)
Definition optim_run (ora : OracleOptim N A C O) (sp : SearchSpace N A C S) (opt : Options N)
    (os : nat -> O) (ss : nat -> S) (gs : nat -> N) (sh : nat -> bool)
    (k queries : nat) : Prop :=
  (forall i, i < k -> optim_step ora sp os ss gs sh i Success /\
                      (sp_tsq sp (ss (1 + i)) <?! tolerance opt) = false) /\
  ((k < max_iters opt /\ queries = 1 + k /\
    exists st, optim_step ora sp os ss gs sh k st /\
      (st <> Success \/ (sp_tsq sp (ss (1 + k)) <?! tolerance opt) = true)) \/
   (k = max_iters opt /\ queries = k)).

(** One iteration of the quantised optimiser. *)
Definition optim_q_step (ora : OracleOptimQ N A C O) (sp : SearchSpace N A C S)
    (os : nat -> O) (ss : nat -> S) (gs : nat -> N) (rs sh : nat -> bool) (xq : nat -> A)
    (i : nat) (st : CutStatus) (more : bool) : Prop :=
  exists cut,
    ora (os i) (sp_xc sp (ss i)) (gs i) (rs i) =
      Ok (os (1 + i), gs (1 + i), (cut, sh i, xq i, more)) /\
    sp_update_q sp (ss i) cut = Ok (ss (1 + i), st).
(** the run goes on after iteration [i], with retry flag [r] for the next query *)
Definition q_continues (st : CutStatus) (more shrunk retry r : bool) : Prop :=
  (st = Success /\ r = false) \/
  (st = NoEffect /\ more = true /\ r = true) \/
  (st = Unknown /\ r = (if shrunk then false else retry)).
Definition q_stops (st : CutStatus) (more : bool) : Prop :=
  st = NoSoln \/ (st = NoEffect /\ more = false).

Definition optim_q_run (ora : OracleOptimQ N A C O) (sp : SearchSpace N A C S) (opt : Options N)
    (os : nat -> O) (ss : nat -> S) (gs : nat -> N) (rs sh : nat -> bool) (xq : nat -> A)
    (k queries : nat) : Prop :=
  rs 0 = false /\
  (forall i, i < k -> exists st more,
     optim_q_step ora sp os ss gs rs sh xq i st more /\
     q_continues st more (sh i) (rs i) (rs (1 + i)) /\
     (sp_tsq sp (ss (1 + i)) <?! tolerance opt) = false) /\
  ((k < max_iters opt /\ queries = 1 + k /\
    exists st more, optim_q_step ora sp os ss gs rs sh xq k st more /\
      (q_stops st more \/ (sp_tsq sp (ss (1 + k)) <?! tolerance opt) = true)) \/
   (k = max_iters opt /\ queries = k)).
End Spec.

(** An oracle with a call counter. *)
Definition counting {N A C O} (ora : OracleFeas N A C O) : OracleFeas N A C (O * nat) := {|
  of_assess := fun oc x =>
    match of_assess ora (fst oc) x with
    | Ok (o', r) => Ok ((o', 1 + snd oc), r)
    | Panic => Panic
    end;
  of_update := fun oc g => (of_update ora (fst oc) g, snd oc) |}.

(** The probes of a binary search: states of the oracle, brackets and answers.
    The midpoint is computed as the code computes it, in the number type. *)
Section BS.
Context {N : Num} {B : Type}.
Definition bs_tau (lo hi : N) : N := (hi -! lo) /! n2.
Definition bs_steps (ora : OracleBS N B) (tol : N) (k : nat)
    (bs : nat -> B) (lo hi : nat -> N) (ans : nat -> bool) : Prop :=
  forall i, i < k ->
    (bs_tau (lo i) (hi i) <?! tol) = false /\
    ora (bs i) (lo i +! bs_tau (lo i) (hi i)) = Ok (bs (1 + i), ans i) /\
    (if ans i then lo (1 + i) = lo i /\ hi (1 + i) = lo i +! bs_tau (lo i) (hi i)
     else lo (1 + i) = lo i +! bs_tau (lo i) (hi i) /\ hi (1 + i) = hi i).
End BS.
