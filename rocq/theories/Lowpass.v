(** Model of /repo/src/oracles/lowpass_oracle.rs. *)
From Coq Require Import ZArith List Bool Arith.
From Verif Require Import Num Res Arr CuttingPlane.
Import ListNotations.

(** lowpass_oracle.rs 7-20 *)
Record Lowpass (N : Num) := mkLowpass {
  lw_more_alt : bool; lw_idx1 : Z; lw_spectrum : list (Arr N); lw_nwpass : Z; lw_nwstop : Z;
  lw_lp : N; lw_up : N; lw_sp : N; lw_idx2 : Z; lw_idx3 : Z; lw_fmax : N; lw_kmax : Z }.
Arguments mkLowpass {N}. Arguments lw_more_alt {N}. Arguments lw_idx1 {N}. Arguments lw_spectrum {N}. Arguments lw_nwpass {N}.
Arguments lw_nwstop {N}. Arguments lw_lp {N}. Arguments lw_up {N}. Arguments lw_sp {N}. Arguments lw_idx2 {N}. Arguments lw_idx3 {N}.
Arguments lw_fmax {N}. Arguments lw_kmax {N}.

Section Model.
Context {N : Num}.
Notation arr := (Arr N).
Notation cut := (arr * ParallelCut N)%type.

(** lowpass_oracle.rs 28-31: one row of the spectrum *)
Definition lowpass_row (omega_i : N) (ndim : nat) (row : arr) : res arr :=
  row <- a_setidx row 0 n1 ;;
  for_range 1 ndim (fun j row => a_setidx row j (n2 *! ncos (omega_i *! nN j))) row.
(** lowpass_oracle.rs 22-52.  For [ndim = 0] the subtraction [mdim - 1]
    overflows, which panics in a debug build; the wrap-around of a release build
    is not modelled.  The [+ 1] on the saturated i32 is taken not to overflow. *)
Definition lowpass_new (ndim : nat) (wpass wstop lp_sq up_sq sp_sq : N) : res (Lowpass N) :=
  let mdim := 15 * ndim in
  omega <- linspace n0 npi mdim ;;
  spectrum <- for_range 0 mdim (fun i sp =>
    w <- a_idx omega i ;; row <- rd sp i ;; row <- lowpass_row w ndim row ;; wr sp i row) (repeat (a_new ndim) mdim) ;;
  assert (0 <? mdim)
    (let nwpass := (as_i32 (nfloor (wpass *! nN (mdim - 1))) + 1)%Z in
     let nwstop := (as_i32 (nfloor (wstop *! nN (mdim - 1))) + 1)%Z in
     Ok (mkLowpass true (-1) spectrum nwpass nwstop lp_sq up_sq sp_sq (nwpass - 1) (nwstop - 1) nninf (-1))).

(** [v[z as usize]] for an [i32] [z]: a negative index becomes a huge one *)
Definition rdz {A} (l : list A) (z : Z) : res A := if (z <? 0)%Z then Panic else rd l (Z.to_nat z).
(** The loop shape of lowpass_oracle.rs 62-66, 85-89 and 107-111: [hi - lo] rounds
    (none if negative) with a counter that wraps from [hi] to [lo]. *)
Definition lowpass_round {S R : Type} (lo hi : Z) (step : Z -> S -> res (ctl S R)) (idx : Z) (s : S) : res (ctl (Z * S) (Z * S * R)) :=
  loop_range 0 (Z.to_nat (hi - lo)) (fun _ '(idx, s) =>
    let idx := (idx + 1)%Z in
    let idx := if (idx =? hi)%Z then lo else idx in
    c <- step idx s ;;
    match c with Next s' => Ok (Next (idx, s')) | Done r => Ok (Done (idx, s, r)) end) (idx, s).
(** [Arr::from(col_k.iter().map(|&a| -a).collect())] *)
Definition neg_row (a : arr) : arr := a_from (map nopp (adata a)).
(** lowpass_oracle.rs 67-79 *)
Definition pass_step (o : Lowpass N) (x : arr) (idx : Z) (s : unit) : res (ctl unit cut) :=
  col <- rdz (lw_spectrum o) idx ;; val <- a_dot col x ;;
  if val >?! lw_up o then Ok (Done (col, mkParallel (val -! lw_up o) (Some (val -! lw_lp o))))
  else if val <?! lw_lp o then Ok (Done (neg_row col, mkParallel (-! val +! lw_lp o) (Some (-! val +! lw_up o))))
  else Ok (Next tt).
(** lowpass_oracle.rs 90-104; the state is (fmax, kmax) *)
Definition stop_step (o : Lowpass N) (x : arr) (idx : Z) (s : N * Z) : res (ctl (N * Z) cut) :=
  col <- rdz (lw_spectrum o) idx ;; val <- a_dot col x ;;
  if val >?! lw_sp o then Ok (Done (col, mkParallel (val -! lw_sp o) (Some val)))
  else if val <?! n0 then Ok (Done (neg_row col, mkParallel (-! val) (Some (-! val +! lw_sp o))))
  else if val >?! fst s then Ok (Next (val, idx)) else Ok (Next s).
(** lowpass_oracle.rs 112-119 *)
Definition trans_step (o : Lowpass N) (x : arr) (idx : Z) (s : unit) : res (ctl unit cut) :=
  col <- rdz (lw_spectrum o) idx ;; val <- a_dot col x ;;
  if val <?! n0 then Ok (Done (neg_row col, mkParallel (-! val) None)) else Ok (Next tt).
Definition lw_set (o : Lowpass N) (more_alt : bool) (idx1 idx2 idx3 : Z) (fmax : N) (kmax : Z) : Lowpass N :=
  mkLowpass more_alt idx1 (lw_spectrum o) (lw_nwpass o) (lw_nwstop o) (lw_lp o) (lw_up o) (lw_sp o) idx2 idx3 fmax kmax.
(** lowpass_oracle.rs 57-131 *)
Definition lowpass_feas (o : Lowpass N) (x : arr) : res (Lowpass N * option cut) :=
  let mdim := Z.of_nat (length (lw_spectrum o)) in
  row0 <- rd (lw_spectrum o) 0 ;;
  let ndim := a_len row0 in
  c <- lowpass_round 0 (lw_nwpass o) (pass_step o x) (lw_idx1 o) tt ;;
  match c with
  | Done (idx1, _, cut) => Ok (lw_set o true idx1 (lw_idx2 o) (lw_idx3 o) (lw_fmax o) (lw_kmax o), Some cut)
  | Next (idx1, _) =>
  c <- lowpass_round (lw_nwstop o) mdim (stop_step o x) (lw_idx3 o) (nninf, (-1)%Z) ;;
  match c with
  | Done (idx3, (fmax, kmax), cut) => Ok (lw_set o true idx1 (lw_idx2 o) idx3 fmax kmax, Some cut)
  | Next (idx3, (fmax, kmax)) =>
  c <- lowpass_round (lw_nwpass o) (lw_nwstop o) (trans_step o x) (lw_idx2 o) tt ;;
  match c with
  | Done (idx2, _, cut) => Ok (lw_set o true idx1 idx2 idx3 fmax kmax, Some cut)
  | Next (idx2, _) =>
      let o' := lw_set o false idx1 idx2 idx3 fmax kmax in
      x0 <- a_idx x 0 ;;
      if x0 <?! n0 then (g <- a_setidx (a_new ndim) 0 (-! n1) ;; Ok (o', Some (g, mkParallel (-! x0) None)))
      else Ok (o', None)
  end end end.
(** lowpass_oracle.rs 134-151 *)
Definition lowpass_assess (o : Lowpass N) (x : arr) (sp_sq : N) : res (Lowpass N * N * (cut * bool)) :=
  let o := mkLowpass (lw_more_alt o) (lw_idx1 o) (lw_spectrum o) (lw_nwpass o) (lw_nwstop o) (lw_lp o) (lw_up o) sp_sq
             (lw_idx2 o) (lw_idx3 o) (lw_fmax o) (lw_kmax o) in
  '(o, r) <- lowpass_feas o x ;;
  match r with
  | Some cut => Ok (o, sp_sq, (cut, false))
  | None =>
      row <- rdz (lw_spectrum o) (lw_kmax o) ;;
      Ok (o, lw_fmax o, ((row, mkParallel n0 (Some (lw_fmax o))), true))
  end.
(** [f64::log10] and [10f64.powf]; written with [nln] and [nexp], which is the same
    function over the reals but not bit for bit in binary64 (it is only studied
    over the reals) *)
Definition nlog10 (v : N) : N := nln v /! nln (nZ 10).
Definition npow10 (v : N) : N := nexp (v *! nln (nZ 10)).
(** lowpass_oracle.rs 154-170 *)
Definition create_lowpass_case (ndim : nat) : res (Lowpass N) :=
  let delta0_wpass := nlit 25 (-3) in
  let delta0_wstop := nlit 125 (-3) in
  let delta1 := nZ 20 *! nlog10 (delta0_wpass *! npi) in
  let delta2 := nZ 20 *! nlog10 (delta0_wstop *! npi) in
  let low_pass := npow10 (-! delta1 /! nZ 20) in
  let up_pass := npow10 (delta1 /! nZ 20) in
  let stop_pass := npow10 (delta2 /! nZ 20) in
  lowpass_new ndim (nlit 12 (-2)) (nlit 20 (-2)) (low_pass *! low_pass) (up_pass *! up_pass) (stop_pass *! stop_pass).
End Model.
