(** Model of src/s1/angle.rs, of the arithmetic of src/s2/latlng.rs, of
    [remainder] and [clamp] in src/consts.rs, and of the functions of
    src/s1/interval.rs and src/r1/interval.rs that use them.

    The functions that call sin, cos and atan2 are in TrigModel.v. *)
From Verif Require Import F64 R1Model S1Model.

(** ** Remainders

    Every finite double is [rank x * 2^-1074], so the remainder of two doubles
    is the remainder of two integers, on the same scale. *)

(* the double [r * 2^-1074]; a zero takes the sign of x *)
Definition with_rank (x : f64) (r : Z) : f64 :=
  if r =? 0 then B754_zero (Bsign x) else lit r (-1074).

(* X - n |Y|, where n is the integer nearest to X / |Y|, the even one of two *)
Definition rem_even (X Y : Z) : Z :=
  let Y := Z.abs Y in
  let q := X / Y in
  let r := X mod Y in
  match 2 * r ?= Y with
  | Lt => r
  | Gt => r - Y
  | Eq => if Z.even q then r else r - Y
  end.

(* consts.rs:44-46 remainder = libm::remquo(x, y).0, the IEEE remainder.  The
   loop of libm (binary long division) is not modelled: this is its contract. *)
Definition fremainder (x y : f64) : f64 :=
  if negb (is_finite x) || is_nan y || (rank y =? 0) then B754_nan
  else if negb (is_finite y) then x
  else with_rank x (rem_even (rank x) (rank y)).

(* the operator % of f64, which is C's fmod: the result has the sign of x *)
Definition fmod (x y : f64) : f64 :=
  if negb (is_finite x) || is_nan y || (rank y =? 0) then B754_nan
  else if negb (is_finite y) then x
  else with_rank x (Z.rem (rank x) (rank y)).

(* f64::round: nearest integer, halves away from zero *)
Definition fround (x : f64) : f64 := Bnearbyint mode_NA x.

(* consts.rs:48-59, at type f64 *)
Definition fclamp (val lo hi : f64) : f64 :=
  if flt val lo then lo else if fgt val hi then hi else val.

(** ** s1::Angle, src/s1/angle.rs *)

(* 2f64 * PI *)
Definition TWOPI : f64 := fmul f2 PI64.

(* angle.rs:104-111; an Angle is its number of radians *)
Definition angle_normalized (a : f64) : f64 :=
  let rem := fmod a TWOPI in
  if flt rem f0 then fadd rem TWOPI else rem.
(* angle.rs:113-119 *)
Definition angle_max (a b : f64) : f64 := if flt a b then b else a.
Definition angle_min (a b : f64) : f64 := if fgt a b then b else a.

(* angle.rs:342-343: PI / 180. *)
Definition DEG : f64 := fdiv PI64 (of_int 180).
(* angle.rs:345-351: the units of E5, E6, E7 in radians and in degrees *)
Inductive unit_e := UE5 | UE6 | UE7.
Definition scale_e (k : unit_e) : f64 :=
  of_int (match k with UE5 => 100000 | UE6 => 1000000 | UE7 => 10000000 end).
Definition rad_e (k : unit_e) : f64 := fdiv DEG (scale_e k).
Definition deg_e (k : unit_e) : f64 := fdiv f1 (scale_e k).

(* angle.rs:291-314 convert!, for (Deg, Angle); Angle::deg at 84-86 is the second *)
Definition angle_of_deg (d : f64) : f64 := fmul d DEG.
Definition deg_of_angle (a : f64) : f64 := fdiv a DEG.
(* angle.rs:316-339 convert_i32! *)
Definition i32_min : Z := - 2 ^ 31.
Definition i32_max : Z := 2 ^ 31 - 1.
Definition from_e (mul : f64) (n : Z) : f64 := fmul (of_int n) mul.
Definition to_e (mul : f64) (a : f64) : Z := to_int i32_min i32_max (fround (fdiv a mul)).

(** ** s2::LatLng, src/s2/latlng.rs *)

(* latlng.rs:11-16; both fields are Angles *)
Record latlng := LL { lat : f64; lng : f64 }.
(* latlng.rs:8-9; also PI / 2. *)
Definition FRAC_PI_2 : f64 := fdiv PI64 f2.
(* latlng.rs:28-33 *)
Definition ll_from_degrees (a b : f64) : latlng := LL (angle_of_deg a) (angle_of_deg b).
(* latlng.rs:42-44 *)
Definition ll_is_valid (p : latlng) : bool := fle (fabs (lat p)) FRAC_PI_2 && fle (fabs (lng p)) PI64.
(* latlng.rs:46-59 *)
Definition ll_normalized (p : latlng) : latlng :=
  LL (if fgt (lat p) FRAC_PI_2 then FRAC_PI_2
      else if flt (lat p) (fneg FRAC_PI_2) then fneg FRAC_PI_2 else lat p)
     (fremainder (lng p) (fmul PI64 f2)).

(** ** The rest of s1::Interval *)

(* s1/interval.rs:318-347 *)
Definition s1_expanded (i : s1) (m : f64) : s1 :=
  let wrap :=
    let r := s1_new (fremainder (fsub (slo i) m) TWOPI) (fremainder (fadd (shi i) m) TWOPI) in
    if fle (slo r) (fneg PI64) then S1 PI64 (shi r) else r in
  if fge m f0 then
    if s1_is_empty i then i
    else if fge (fadd (fadd (s1_len i) (fmul f2 m)) (fmul f2 DBL_EPSILON)) TWOPI then s1_FULL
    else wrap
  else
    if s1_is_full i then i
    else if fle (fsub (fadd (s1_len i) (fmul f2 m)) (fmul f2 DBL_EPSILON)) f0 then s1_EMPTY
    else wrap.

(* s1/interval.rs:382-406 *)
Definition s1_hausdorff (i y : s1) : f64 :=
  if s1_contains_interval y i then f0
  else if s1_is_empty y then PI64
  else
    let c := s1_complement_center y in
    if s1_contains i c then positive_distance (shi y) c
    else
      let hi_hi := if s1_contains (s1_new (shi y) c) (shi i) then positive_distance (shi y) (shi i) else f0 in
      let lo_lo := if s1_contains (s1_new c (slo y)) (slo i) then positive_distance (slo i) (slo y) else f0 in
      fmax hi_hi lo_lo.

(* s1/interval.rs:414-437 *)
Definition s1_approx_eq_by (i o : s1) (e : f64) : bool :=
  if s1_is_empty i then flt (s1_len o) (fmul f2 e)
  else if s1_is_empty o then flt (s1_len i) (fmul f2 e)
  else if s1_is_full i then fge (s1_len o) (fmul f2 (fsub PI64 e))
  else if s1_is_full o then fge (s1_len i) (fmul f2 (fsub PI64 e))
  else fle (fabs (fmod (fsub (slo o) (slo i)) TWOPI)) e
       && fle (fabs (fmod (fsub (shi o) (shi i)) TWOPI)) e
       && fle (fabs (fsub (s1_len i) (s1_len o))) (fmul f2 e).
Definition s1_approx_eq (i o : s1) : bool := s1_approx_eq_by i o EPSILON.

(** ** The rest of r1::Interval *)

(* r1/interval.rs:174-188 *)
Definition r1_approx_eq_by (i o : r1) (e : f64) : bool :=
  if r1_is_empty i then flt (r1_len o) (fmul f2 e)
  else if r1_is_empty o then flt (r1_len i) (fmul f2 e)
  else fle (fabs (fsub (lo1 i) (lo1 o))) e && fle (fabs (fsub (hi1 i) (hi1 o))) e.
Definition r1_approx_eq (i o : r1) : bool := r1_approx_eq_by i o EPSILON.
