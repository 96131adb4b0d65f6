(** Machine integers and the panic monad used by all model files.

    Rust integers are [Z].  [None] is a panic: overflow in a debug build, an
    out-of-range shift amount, a failed assertion, an index out of bounds, or
    exhausted fuel (theorems always exclude the latter by concluding [Some]). *)
From Coq Require Export ZArith List Bool Lia.
From Coq Require Export ZifyBool ZifyNat ZifyN.
Export ListNotations.
Open Scope Z_scope.

Notation "'let*' x ':=' e 'in' k" :=
  (match e with Some x => k | None => None end)
  (at level 200, x pattern, e at level 200, k at level 200, right associativity).

(** ** u64 *)

(* Rust `a + b`, `a - b`, `a * b` on u64: panic on overflow (debug build). *)
Definition add64 (a b : Z) : option Z :=
  if a + b <? 2 ^ 64 then Some (a + b) else None.
Definition sub64 (a b : Z) : option Z :=
  if b <=? a then Some (a - b) else None.
Definition mul64 (a b : Z) : option Z :=
  if a * b <? 2 ^ 64 then Some (a * b) else None.

(* Rust `a << k`, `a >> k` on u64: panic if k >= 64; high bits are dropped. *)
Definition shl64 (a k : Z) : option Z :=
  if k <? 64 then Some (Z.shiftl a k mod 2 ^ 64) else None.
Definition shr64 (a k : Z) : option Z :=
  if k <? 64 then Some (Z.shiftr a k) else None.

(* Rust wrapping_add, wrapping_sub, `!a` on u64. *)
Definition wadd64 (a b : Z) : Z := (a + b) mod 2 ^ 64.
Definition wsub64 (a b : Z) : Z := (a - b) mod 2 ^ 64.
Definition not64 (a : Z) : Z := 2 ^ 64 - 1 - a.

(* Rust casts between u64 and i64. *)
Definition as_i64 (a : Z) : Z := if a <? 2 ^ 63 then a else a - 2 ^ 64.
Definition as_u64 (a : Z) : Z := a mod 2 ^ 64.

(* Rust unary minus on i64: panics on i64::MIN. *)
Definition neg_i64 (a : Z) : option Z :=
  if a =? - 2 ^ 63 then None else Some (- a).

(* A value fits in i64 (checked i64 arithmetic). *)
Definition chk_i64 (a : Z) : option Z :=
  if (- 2 ^ 63 <=? a) && (a <? 2 ^ 63) then Some a else None.

(* A value fits in i32 (checked i32 arithmetic). *)
Definition chk_i32 (a : Z) : option Z :=
  if (- 2 ^ 31 <=? a) && (a <? 2 ^ 31) then Some a else None.

(* `x as i32` from a 64-bit value. *)
Definition as_i32 (a : Z) : Z :=
  let b := a mod 2 ^ 32 in if b <? 2 ^ 31 then b else b - 2 ^ 32.

(* u64::trailing_zeros and u64::leading_zeros. *)
Fixpoint ctz_pos (p : positive) : Z :=
  match p with
  | xO q => 1 + ctz_pos q
  | _ => 0
  end.
Definition ctz64 (a : Z) : Z :=
  match a with
  | Zpos p => ctz_pos p
  | _ => 64
  end.
Definition clz64 (a : Z) : Z :=
  if a =? 0 then 64 else 63 - Z.log2 a.

Definition is_some {A} (o : option A) : bool :=
  match o with Some _ => true | None => false end.
