(** IEEE 754 double precision numbers, the f64 of Rust.

    [f64] is Flocq's binary_float with one NaN: the code never looks at NaN
    payloads or signs.  Rounding is to nearest, ties to even, as in Rust. *)
From Coq Require Import Reals.
From Flocq Require Export Core BinarySingleNaN.
From Verif Require Export Base.
Open Scope Z_scope.

Global Instance prec_gt_0_53 : Prec_gt_0 53 := eq_refl.
Global Instance prec_lt_emax_53 : Prec_lt_emax 53 1024 := eq_refl.

Definition f64 := binary_float 53 1024.

(* the operators of f64 *)
Definition fadd (x y : f64) : f64 := Bplus mode_NE x y.
Definition fsub (x y : f64) : f64 := Bminus mode_NE x y.
Definition fmul (x y : f64) : f64 := Bmult mode_NE x y.
Definition fdiv (x y : f64) : f64 := Bdiv mode_NE x y.
Definition fsqrt (x : f64) : f64 := Bsqrt mode_NE x.
Definition fneg (x : f64) : f64 := Bopp x.
Definition fabs (x : f64) : f64 := Babs x.

(* comparisons: false when an operand is NaN, except != *)
Definition flt (x y : f64) : bool := Bltb x y.
Definition fle (x y : f64) : bool := Bleb x y.
Definition feq (x y : f64) : bool := Beqb x y.
Definition fgt (x y : f64) : bool := flt y x.
Definition fge (x y : f64) : bool := fle y x.
Definition fne (x y : f64) : bool := negb (feq x y).

(* f64::max, f64::min: the other operand if one is NaN.  Of two zeros of
   different sign Rust may return either; here it is the second. *)
Definition fmax (x y : f64) : f64 :=
  if is_nan x then y else if is_nan y then x else if fle x y then y else x.
Definition fmin (x y : f64) : f64 :=
  if is_nan x then y else if is_nan y then x else if fle y x then y else x.

(* the double nearest to m * 2^e *)
Definition lit (m e : Z) : f64 := binary_normalize 53 1024 _ _ mode_NE m e false.

(* `x as f64` from an integer *)
Definition of_int (n : Z) : f64 := lit n 0.

Definition f0 : f64 := lit 0 0.
Definition f1 : f64 := lit 1 0.
Definition f2 : f64 := lit 2 0.
Definition fhalf : f64 := lit 1 (-1).
Definition inf : f64 := B754_infinity false.

(* std::f64::consts::PI = 0x400921FB54442D18 *)
Definition PI64 : f64 := lit 7074237752028440 (-51).
(* consts.rs:8 EPSILON = 1e-14 = 0x3D06849B86A12B9B, consts.rs:11 DBL_EPSILON = 2^-52 *)
Definition EPSILON : f64 := lit 0x16849B86A12B9B (-99).
Definition DBL_EPSILON : f64 := lit 1 (-52).

(* `x as i64` / `x as i32`: truncation, saturating, 0 for NaN *)
Definition to_int (lo hi : Z) (x : f64) : Z :=
  match x with
  | B754_nan => 0
  | B754_infinity true => lo
  | B754_infinity false => hi
  | _ => Z.max lo (Z.min hi (Btrunc x))
  end.

(** ** A specification of the order

    Every finite double is an integer multiple of 2^-1074, and [rank] is that
    integer; infinities are placed outside. *)
Definition far : Z := 2 ^ 2100.
Definition rank (x : f64) : Z :=
  match x with
  | B754_finite s m e _ => cond_Zopp s (Zpos m) * 2 ^ (e + 1074)
  | B754_infinity s => if s then - far else far
  | _ => 0
  end.
