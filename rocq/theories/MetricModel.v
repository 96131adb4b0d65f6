(** Model of src/s2/metric.rs. *)
From Coq Require Import List.
From Verif Require Import Base F64.
Import ListNotations.
Open Scope Z_scope.

(* libm::ilogb as documented: floor(log2 |x|), i32::MIN for 0 and NaN, i32::MAX for
   infinities (metric.rs:20) *)
Definition ilogb (x : f64) : Z :=
  match x with
  | B754_finite _ m e _ => Z.log2 (Zpos m) + e
  | B754_infinity _ => 2 ^ 31 - 1
  | _ => - 2 ^ 31
  end.
(* libm::ldexp as documented: x * 2^n (metric.rs:20) *)
Definition ldexp (x : f64) (n : Z) : f64 := Bldexp mode_NE x n.

(* metric.rs:33-38 Metric; dim is a u8 *)
Record metric := Metric { m_dim : Z; m_deriv : f64 }.

(* std::f64::consts::SQRT_2 = 0x3FF6A09E667F3BCD *)
Definition SQRT_2 : f64 := lit 0x16A09E667F3BCD (-52).

(* metric.rs:56-107 the metrics; decimal literals are given as the nearest double *)
Definition MIN_ANGLE_SPANMETRIC := Metric 1 (fdiv (of_int 4) (of_int 3)).
Definition AVG_ANGLE_SPANMETRIC := Metric 1 (fdiv PI64 f2).
Definition MAX_ANGLE_SPANMETRIC := Metric 1 (lit 0x1b474243bb40b2 (-52)).
Definition MIN_WIDTHMETRIC := Metric 1 (fdiv (fmul f2 SQRT_2) (of_int 3)).
Definition AVG_WIDTHMETRIC := Metric 1 (lit 0x16f3cf18462339 (-52)).
Definition MAX_WIDTHMETRIC := Metric 1 (m_deriv MAX_ANGLE_SPANMETRIC).
Definition MIN_EDGEMETRIC := Metric 1 (fdiv (fmul f2 SQRT_2) (of_int 3)).
Definition AVG_EDGEMETRIC := Metric 1 (lit 0x1758f08369a1a5 (-52)).
Definition MAX_EDGEMETRIC := Metric 1 (m_deriv MAX_ANGLE_SPANMETRIC).
Definition MIN_AREAMETRIC := Metric 2 (fdiv (fmul (of_int 8) SQRT_2) (of_int 9)).
Definition AVG_AREAMETRIC := Metric 2 (fdiv (fmul (of_int 4) PI64) (of_int 6)).
Definition MAX_AREAMETRIC := Metric 2 (lit 0x15161debbbd2b2 (-51)).
Definition MIN_DIAGMETRIC := Metric 1 (fdiv (fmul (of_int 8) SQRT_2) (of_int 9)).
Definition AVG_DIAGMETRIC := Metric 1 (lit 0x107bbeeabf7727 (-51)).
Definition MAX_DIAGMETRIC := Metric 1 (lit 0x13825d570aac93 (-51)).
Definition all_metrics : list metric :=
  [MIN_ANGLE_SPANMETRIC; AVG_ANGLE_SPANMETRIC; MAX_ANGLE_SPANMETRIC; MIN_WIDTHMETRIC; AVG_WIDTHMETRIC;
   MAX_WIDTHMETRIC; MIN_EDGEMETRIC; AVG_EDGEMETRIC; MAX_EDGEMETRIC; MIN_AREAMETRIC; AVG_AREAMETRIC;
   MAX_AREAMETRIC; MIN_DIAGMETRIC; AVG_DIAGMETRIC; MAX_DIAGMETRIC].

(* metric.rs:113-116 value *)
Definition value (m : metric) (level : Z) : f64 := ldexp (m_deriv m) (- m_dim m * level).

(* metric.rs:131-138 and 155-162, the clamping that ends both functions *)
Definition clamp_level (level : Z) : Z :=
  if level >? 30 then 30 else if level <? 0 then 0 else level.

(* a >> u64::from(dim - 1) on i32; dim - 1 underflows a u8 for dim = 0, and shifts of 32 or
   more overflow (metric.rs:130, 154) *)
Definition shift_dim (a dim : Z) : option Z :=
  if (1 <=? dim) && (dim <=? 32) then Some (Z.shiftr a (dim - 1)) else None.

(* metric.rs:125-139 min_level; the unary minus binds tighter than >> and overflows on i32::MIN *)
Definition min_level (m : metric) (val : f64) : option Z :=
  if flt val f0 then Some 30
  else
    let* n := chk_i32 (- ilogb (fdiv val (m_deriv m))) in
    let* level := shift_dim n (m_dim m) in
    Some (clamp_level level).

(* metric.rs:149-163 max_level *)
Definition max_level (m : metric) (val : f64) : option Z :=
  if fle val f0 then Some 30
  else
    let* level := shift_dim (ilogb (fdiv (m_deriv m) val)) (m_dim m) in
    Some (clamp_level level).

(* metric.rs:169-172 closest_level *)
Definition closest_level (m : metric) (val : f64) : option Z :=
  let x := if m_dim m =? 2 then f2 else SQRT_2 in
  min_level m (fmul x val).
