(** Numbers: the record of operations every model function is generic in, and
    its three instances: exact reals, extended reals with an error value, and
    IEEE binary64.

    The Rust code works on [f64] (all files of /repo/src).  The record lists the
    primitive operations of [f64] the code uses. *)
From Coq Require Import ZArith Reals List Bool Lia.
From Flocq Require Import Core IEEE754.BinarySingleNaN.

Record Num := mkNum {
  num :> Type;
  nZ    : Z -> num;           (* integer literals and [i32 as f64], [usize as f64] *)
  nlit  : Z -> Z -> num;      (* decimal literal m e: m * 10^e, e.g. 1e150, 1e-20 *)
  nsum0 : num;                (* start value of [Iterator::sum::<f64>] *)
  npi   : num;                (* std::f64::consts::PI *)
  npinf : num;                (* f64::INFINITY *)
  nninf : num;                (* f64::NEG_INFINITY *)
  nadd  : num -> num -> num;
  nsub  : num -> num -> num;
  nmul  : num -> num -> num;
  ndiv  : num -> num -> num;
  nopp  : num -> num;
  nabs  : num -> num;
  nsqrt : num -> num;
  nexp  : num -> num;
  nln   : num -> num;
  ncos  : num -> num;
  nround : num -> num;        (* f64::round: half away from zero *)
  nfloor : num -> num;        (* f64::floor *)
  ntrunc : num -> Z;          (* truncation used by [as usize] / [as i32] before saturation *)
  nltb  : num -> num -> bool; (* < *)
  nleb  : num -> num -> bool; (* <= *)
  neqb  : num -> num -> bool  (* == *)
}.

Arguments nZ {_}. Arguments nlit {_}. Arguments nsum0 {_}. Arguments npi {_}.
Arguments npinf {_}. Arguments nninf {_}.
Arguments nadd {_}. Arguments nsub {_}. Arguments nmul {_}. Arguments ndiv {_}.
Arguments nopp {_}. Arguments nabs {_}. Arguments nsqrt {_}. Arguments nexp {_}.
Arguments nln {_}. Arguments ncos {_}. Arguments nround {_}. Arguments nfloor {_}.
Arguments ntrunc {_}. Arguments nltb {_}. Arguments nleb {_}. Arguments neqb {_}.

Declare Scope num_scope.
Delimit Scope num_scope with num.
Notation "x +! y" := (nadd x y) (at level 50, left associativity) : num_scope.
Notation "x -! y" := (nsub x y) (at level 50, left associativity) : num_scope.
Notation "x *! y" := (nmul x y) (at level 40, left associativity) : num_scope.
Notation "x /! y" := (ndiv x y) (at level 40, left associativity) : num_scope.
Notation "-! x" := (nopp x) (at level 35, right associativity) : num_scope.
Notation "x <?! y" := (nltb x y) (at level 70) : num_scope.
Notation "x <=?! y" := (nleb x y) (at level 70) : num_scope.
Notation "x >?! y" := (nltb y x) (at level 70, only parsing) : num_scope.
Notation "x >=?! y" := (nleb y x) (at level 70, only parsing) : num_scope.
Notation "x =?! y" := (neqb x y) (at level 70) : num_scope.
Open Scope num_scope.

Definition n0 {N : Num} : N := nZ 0.
Definition n1 {N : Num} : N := nZ 1.
Definition n2 {N : Num} : N := nZ 2.
(* the literal 0.5 *)
Definition nhalf {N : Num} : N := nlit 5 (-1).
(* [usize as f64] *)
Definition nN {N : Num} (k : nat) : N := nZ (Z.of_nat k).

(** [x as usize] / [x as i32]: saturating casts. *)
Definition as_usize {N : Num} (x : N) : nat :=
  Z.to_nat (Z.min (2 ^ 64 - 1) (Z.max 0 (ntrunc x))).
Definition as_i32 {N : Num} (x : N) : Z :=
  Z.min (2 ^ 31 - 1) (Z.max (- 2 ^ 31) (ntrunc x)).

(** * Exact reals.  There are no infinities in [R]; code that uses them
    (lowpass_oracle.rs, svm_oracle.rs) is not studied over this instance, and
    the two fields hold an arbitrary value. *)
Definition RNum : Num := {|
  num := R;
  nZ := IZR;
  nlit := fun m e => (IZR m * powerRZ 10 e)%R;
  nsum0 := 0%R;
  npi := PI;
  npinf := 0%R;
  nninf := 0%R;
  nadd := Rplus; nsub := Rminus; nmul := Rmult; ndiv := Rdiv;
  nopp := Ropp; nabs := Rabs; nsqrt := sqrt; nexp := exp; nln := ln; ncos := cos;
  nround := fun x => IZR (ZnearestA x);
  nfloor := fun x => IZR (Zfloor x);
  ntrunc := Ztrunc;
  nltb := Rlt_bool; nleb := Rle_bool; neqb := Req_bool
|}.

(** * Extended reals with an error value: exact arithmetic in which division by
    zero, square roots of negatives, logarithms of non-positive numbers and
    undefined operations on infinities give [Nan]; every comparison with [Nan]
    is false. *)
Inductive ext := Fin (r : R) | PInf | NInf | Nan.

Definition ext_add (x y : ext) : ext :=
  match x, y with
  | Fin a, Fin b => Fin (a + b)
  | Nan, _ | _, Nan => Nan
  | PInf, NInf | NInf, PInf => Nan
  | PInf, _ | _, PInf => PInf
  | NInf, _ | _, NInf => NInf
  end.
Definition ext_opp (x : ext) : ext :=
  match x with Fin a => Fin (- a) | PInf => NInf | NInf => PInf | Nan => Nan end.
Definition ext_sub x y := ext_add x (ext_opp y).
Definition ext_inf_sign (a : R) (x : ext) : ext :=
  if Rlt_bool 0 a then x else if Rlt_bool a 0 then ext_opp x else Nan.
Definition ext_mul (x y : ext) : ext :=
  match x, y with
  | Fin a, Fin b => Fin (a * b)
  | Nan, _ | _, Nan => Nan
  | Fin a, i | i, Fin a => ext_inf_sign a i
  | PInf, PInf | NInf, NInf => PInf
  | _, _ => NInf
  end.
Definition ext_div (x y : ext) : ext :=
  match x, y with
  | Fin a, Fin b => if Req_bool b 0 then Nan else Fin (a / b)
  | Nan, _ | _, Nan => Nan
  | Fin a, _ => Fin 0
  | i, Fin a => ext_inf_sign a i
  | _, _ => Nan
  end.
Definition ext_ltb (x y : ext) : bool :=
  match x, y with
  | Fin a, Fin b => Rlt_bool a b
  | NInf, Fin _ | NInf, PInf | Fin _, PInf => true
  | _, _ => false
  end.
Definition ext_eqb (x y : ext) : bool :=
  match x, y with
  | Fin a, Fin b => Req_bool a b
  | NInf, NInf | PInf, PInf => true
  | _, _ => false
  end.
Definition ext_leb (x y : ext) : bool :=
  match x, y with
  | Fin a, Fin b => Rle_bool a b
  | _, _ => ext_ltb x y || ext_eqb x y
  end.
Definition ext_map (f : R -> R) (pinf ninf : ext) (x : ext) : ext :=
  match x with Fin a => Fin (f a) | PInf => pinf | NInf => ninf | Nan => Nan end.

Definition ENum : Num := {|
  num := ext;
  nZ := fun z => Fin (IZR z);
  nlit := fun m e => Fin (IZR m * powerRZ 10 e)%R;
  nsum0 := Fin 0;
  npi := Fin PI;
  npinf := PInf;
  nninf := NInf;
  nadd := ext_add; nsub := ext_sub; nmul := ext_mul; ndiv := ext_div;
  nopp := ext_opp;
  nabs := ext_map Rabs PInf PInf;
  nsqrt := fun x => match x with
                    | Fin a => if Rlt_bool a 0 then Nan else Fin (sqrt a)
                    | PInf => PInf | _ => Nan end;
  nexp := ext_map exp PInf (Fin 0);
  nln := fun x => match x with
                  | Fin a => if Rle_bool a 0 then Nan else Fin (ln a)
                  | PInf => PInf | _ => Nan end;
  ncos := ext_map cos Nan Nan;
  nround := ext_map (fun x => IZR (ZnearestA x)) PInf NInf;
  nfloor := ext_map (fun x => IZR (Zfloor x)) PInf NInf;
  ntrunc := fun x => match x with
                     | Fin a => Ztrunc a
                     | PInf => (2 ^ 1024)%Z | NInf => (- 2 ^ 1024)%Z | Nan => 0%Z end;
  nltb := ext_ltb; nleb := ext_leb; neqb := ext_eqb
|}.

(** * IEEE binary64, round to nearest even, one NaN (Flocq). *)
Definition fprec := 53%Z.
Definition femax := 1024%Z.
Lemma fprec_gt_0 : Prec_gt_0 fprec. Proof. reflexivity. Qed.
Lemma fprec_lt_emax : Prec_lt_emax fprec femax. Proof. reflexivity. Qed.

Definition f64 := binary_float fprec femax.
Definition fadd : f64 -> f64 -> f64 := @Bplus fprec femax fprec_gt_0 fprec_lt_emax mode_NE.
Definition fsub : f64 -> f64 -> f64 := @Bminus fprec femax fprec_gt_0 fprec_lt_emax mode_NE.
Definition fmul : f64 -> f64 -> f64 := @Bmult fprec femax fprec_gt_0 fprec_lt_emax mode_NE.
Definition fdiv : f64 -> f64 -> f64 := @Bdiv fprec femax fprec_gt_0 fprec_lt_emax mode_NE.
Definition fsqrt : f64 -> f64 := @Bsqrt fprec femax fprec_gt_0 fprec_lt_emax mode_NE.
Definition fofZ (z : Z) : f64 :=
  binary_normalize fprec femax fprec_gt_0 fprec_lt_emax mode_NE z 0 false.
(** Decimal literals: correctly rounded when [m] and [10^|e|] are exact in
    binary64 (|e| <= 22), or when [e >= 0]; all literals used by the code that
    the model evaluates are of this form. *)
Definition flit (m e : Z) : f64 :=
  match e with
  | Zneg p => fdiv (fofZ m) (fofZ (Z.pow_pos 10 p))
  | _ => fofZ (m * 10 ^ e)
  end.
Definition fround (x : f64) : f64 := @Bnearbyint fprec femax fprec_lt_emax mode_NA x.
Definition ffloor (x : f64) : f64 := @Bnearbyint fprec femax fprec_lt_emax mode_DN x.
Definition ftrunc (x : f64) : Z :=
  match x with
  | B754_infinity false => (2 ^ 1024)%Z
  | B754_infinity true => (- 2 ^ 1024)%Z
  | _ => Btrunc x
  end.

(** The functions IEEE 754 / Rust leave unspecified. *)
Record Libm := mkLibm {
  lm_exp : f64 -> f64;
  lm_ln : f64 -> f64;
  lm_cos : f64 -> f64;
  lm_sum0 : bool;   (* sign of the zero [Iterator::sum] starts from (true: -0.0) *)
}.

(** PI as binary64: 7074237752028440 / 2^51 (std::f64::consts::PI). *)
Definition fpi : f64 := fdiv (fofZ 7074237752028440) (fofZ (2 ^ 51)).

Definition FNum (lm : Libm) : Num := {|
  num := f64;
  nZ := fofZ;
  nlit := flit;
  nsum0 := B754_zero (lm_sum0 lm);
  npi := fpi;
  npinf := B754_infinity false;
  nninf := B754_infinity true;
  nadd := fadd; nsub := fsub; nmul := fmul; ndiv := fdiv;
  nopp := @Bopp fprec femax; nabs := @Babs fprec femax; nsqrt := fsqrt;
  nexp := lm_exp lm; nln := lm_ln lm; ncos := lm_cos lm;
  nround := fround; nfloor := ffloor; ntrunc := ftrunc;
  nltb := @Bltb fprec femax; nleb := @Bleb fprec femax; neqb := @Beqb fprec femax
|}.

(** A libm for examples.  exp x is (1 + x / 2^27)^(2^27), good to the relative error
    10^-6 on [-5, 5], and ln x is 2^27 (x^(1/2^27) - 1), good to 10^-6 on
    [exp (-8), exp 8] (proved in FexpAcc.v).  The cosine is good to 1/1000 on [-4, 4] (proved in FcosAcc.v): with a = x/2 cut to a
    multiple of 2^-21, 2 c^2 - 1 for the Taylor polynomial c of degree 10 of cos a, cut
    to a multiple of 2^-40. *)
Definition fcos (x : f64) : f64 :=
  let v := (ftrunc (fmul x (fofZ (2 ^ 20))))%Z in
  let y := (v * v)%Z in
  let d := (2 ^ 42)%Z in
  let q := (3628800 * d ^ 5)%Z in
  let p := (q - 1814400 * y * d ^ 4 + 151200 * y ^ 2 * d ^ 3 - 5040 * y ^ 3 * d ^ 2 + 90 * y ^ 4 * d - y ^ 5)%Z in
  fdiv (fofZ ((2 * p * p - q * q) * 2 ^ 40 / (q * q))) (fofZ (2 ^ 40)).
Definition fexp (x : f64) : f64 := Nat.iter 27 (fun z => fmul z z) (fadd (fofZ 1) (fdiv x (fofZ (2 ^ 27)))).
Definition fln (x : f64) : f64 := fmul (fsub (Nat.iter 27 fsqrt x) (fofZ 1)) (fofZ (2 ^ 27)).
Definition lm0 : Libm := mkLibm fexp fln fcos false.
