(** Model of /repo/src/cutting_plane.rs: statuses, options, the traits as
    transition functions, and the four drivers. *)
From Coq Require Import ZArith List Bool Arith.
From Verif Require Import Num Res.

(** cutting_plane.rs 8-9 *)
Record SingleCut (N : Num) := mkSingle { sc_beta : N }.
(** cutting_plane.rs 17-18 *)
Record ParallelCut (N : Num) := mkParallel { pc_beta0 : N; pc_beta1 : option N }.
Arguments mkSingle {N}. Arguments sc_beta {N}.
Arguments mkParallel {N}. Arguments pc_beta0 {N}. Arguments pc_beta1 {N}.

(** cutting_plane.rs 31-37 *)
Inductive CutStatus := Success | NoSoln | NoEffect | Unknown.
Definition is_success (s : CutStatus) : bool :=
  match s with Success => true | _ => false end.

(** cutting_plane.rs 50-54; [verbose] is never read and is left out *)
Record Options (N : Num) := mkOptions { max_iters : nat; tolerance : N }.
Arguments mkOptions {N}. Arguments max_iters {N}. Arguments tolerance {N}.
(** cutting_plane.rs 97-99 *)
Definition options_default {N : Num} : Options N := mkOptions 2000 (nlit 1 (-20)).

(** cutting_plane.rs 154-182: trait SearchSpace, for one cut type [C], as a
    record of methods over a state type [S]; [&mut self] is a returned state. *)
Record SearchSpace (N : Num) (A C S : Type) := mkSpace {
  sp_xc : S -> A;
  sp_tsq : S -> N;
  sp_update_bias_cut : S -> A * C -> res (S * CutStatus);
  sp_update_central_cut : S -> A * C -> res (S * CutStatus);
  sp_update_q : S -> A * C -> res (S * CutStatus);
  sp_set_xc : S -> A -> S
}.
Arguments sp_xc {N A C S}. Arguments sp_tsq {N A C S}.
Arguments sp_update_bias_cut {N A C S}. Arguments sp_update_central_cut {N A C S}.
Arguments sp_update_q {N A C S}. Arguments sp_set_xc {N A C S}.

(** cutting_plane.rs 119-126: trait OracleFeas over a state type [O] *)
Record OracleFeas (N : Num) (A C O : Type) := mkOracleFeas {
  of_assess : O -> A -> res (O * option (A * C));
  of_update : O -> N -> O
}.
Arguments of_assess {N A C O}. Arguments of_update {N A C O}.
(** cutting_plane.rs 129-136: trait OracleOptim; [gamma] is passed and returned *)
Definition OracleOptim (N : Num) (A C O : Type) :=
  O -> A -> N -> res (O * N * ((A * C) * bool)).
(** cutting_plane.rs 139-147: trait OracleOptimQ *)
Definition OracleOptimQ (N : Num) (A C O : Type) :=
  O -> A -> N -> bool -> res (O * N * ((A * C) * bool * A * bool)).
(** cutting_plane.rs 150-152: trait OracleBS *)
Definition OracleBS (N : Num) (B : Type) := B -> N -> res (B * bool).

Section Drivers.
Context {N : Num} {A C O S : Type}.

(** cutting_plane.rs 205-227.  Returns the final oracle and space states next to
    the Rust result. *)
Definition cutting_plane_feas (ora : OracleFeas N A C O) (sp : SearchSpace N A C S)
    (opt : Options N) (o : O) (s : S) : res (O * S * (option A * nat)) :=
  c <- loop_range 0 (max_iters opt) (fun niter '(o, s) =>
        '(o, cut) <- of_assess ora o (sp_xc sp s) ;;
        match cut with
        | None => Ok (Done (o, s, (Some (sp_xc sp s), niter)))
        | Some cut =>
            '(s, status) <- sp_update_bias_cut sp s cut ;;
            if negb (is_success status) || (sp_tsq sp s <?! tolerance opt)
            then Ok (Done (o, s, (None, niter)))
            else Ok (Next (o, s))
        end) (o, s) ;;
  match c with
  | Done r => Ok r
  | Next (o, s) => Ok (o, s, (None, max_iters opt))
  end.

(** cutting_plane.rs 286-313 *)
Definition cutting_plane_optim (ora : OracleOptim N A C O) (sp : SearchSpace N A C S)
    (opt : Options N) (o : O) (s : S) (gamma : N) : res (O * S * N * (option A * nat)) :=
  c <- loop_range 0 (max_iters opt) (fun niter '(o, s, gamma, x_best) =>
        '(o, gamma, (cut, shrunk)) <- ora o (sp_xc sp s) gamma ;;
        '(x_best, (s, status)) <-
           (if shrunk : bool
            then let x_best := Some (sp_xc sp s) in
                 r <- sp_update_central_cut sp s cut ;; Ok (x_best, r)
            else r <- sp_update_bias_cut sp s cut ;; Ok (x_best, r)) ;;
        if negb (is_success status) || (sp_tsq sp s <?! tolerance opt)
        then Ok (Done (o, s, gamma, (x_best, niter)))
        else Ok (Next (o, s, gamma, x_best))) (o, s, gamma, None) ;;
  match c with
  | Done r => Ok r
  | Next (o, s, gamma, x_best) => Ok (o, s, gamma, (x_best, max_iters opt))
  end.

(** cutting_plane.rs 331-374 *)
Definition cutting_plane_optim_q (ora : OracleOptimQ N A C O) (sp : SearchSpace N A C S)
    (opt : Options N) (o : O) (s : S) (gamma : N) : res (O * S * N * (option A * nat)) :=
  c <- loop_range 0 (max_iters opt) (fun niter '(o, s, gamma, x_best, retry) =>
        '(o, gamma, (cut, shrunk, x_q, more_alt)) <- ora o (sp_xc sp s) gamma retry ;;
        let '(x_best, retry) := if shrunk : bool then (Some x_q, false) else (x_best, retry) in
        '(s, status) <- sp_update_q sp s cut ;;
        let fin (retry : bool) :=
          if sp_tsq sp s <?! tolerance opt
          then Ok (Done (o, s, gamma, (x_best, niter)))
          else Ok (Next (o, s, gamma, x_best, retry)) in
        match status with
        | Success => fin false
        | NoSoln => Ok (Done (o, s, gamma, (x_best, niter)))
        | NoEffect => if negb more_alt then Ok (Done (o, s, gamma, (x_best, niter))) else fin true
        | Unknown => fin retry
        end) (o, s, gamma, None, false) ;;
  match c with
  | Done r => Ok r
  | Next (o, s, gamma, x_best, retry) => Ok (o, s, gamma, (x_best, max_iters opt))
  end.

(** cutting_plane.rs 376-385: struct BSearchAdaptor; the options are constant *)
Record BSearchAdaptor := mkAdaptor { ba_omega : O; ba_space : S; ba_options : Options N }.

(** cutting_plane.rs 403-419 *)
Definition assess_bs (ora : OracleFeas N A C O) (sp : SearchSpace N A C S)
    (b : BSearchAdaptor) (gamma : N) : res (BSearchAdaptor * bool) :=
  let space := ba_space b in
  let omega := of_update ora (ba_omega b) gamma in
  '(omega, _, (x_feas, _)) <- cutting_plane_feas ora sp (ba_options b) omega space ;;
  match x_feas with
  | Some x => Ok (mkAdaptor omega (sp_set_xc sp (ba_space b) x) (ba_options b), true)
  | None => Ok (mkAdaptor omega (ba_space b) (ba_options b), false)
  end.
End Drivers.
Arguments BSearchAdaptor : clear implicits.

(** cutting_plane.rs 441-466.  [let &mut (mut lower, mut upper) = intrvl;] binds
    copies: the caller's interval is an input that is also returned, unchanged,
    as the first component (what the caller sees behind the [&mut]). *)
Definition bsearch {N : Num} {B : Type} (ora : OracleBS N B) (opt : Options N) (b : B)
    (intrvl : N * N) : res (B * (N * N) * (bool * nat)) :=
  let '(lower, upper) := intrvl in
  assert (lower <=?! upper)
    (let u_orig := upper in
     c <- loop_range 0 (max_iters opt) (fun niter '(b, lower, upper) =>
           let tau := (upper -! lower) /! n2 in
           if tau <?! tolerance opt
           then Ok (Done (b, (negb (upper =?! u_orig), niter)))
           else
             let gamma := lower +! tau in
             '(b, feas) <- ora b gamma ;;
             if feas : bool then Ok (Next (b, lower, gamma)) else Ok (Next (b, gamma, upper)))
           (b, lower, upper) ;;
     match c with
     | Done (b, r) => Ok (b, intrvl, r)
     | Next (b, lower, upper) => Ok (b, intrvl, (negb (upper =?! u_orig), max_iters opt))
     end).
