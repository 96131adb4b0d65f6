(** Model of CellID tokens, src/s2/cellid.rs:158-179.

    A Rust `&str` is modelled by the Coq [string] of its UTF-8 bytes, so
    [String.length] is Rust's `len()` (a byte count). *)
From Verif Require Import Base CellIdModel.
From Coq Require Export String Ascii.
Open Scope Z_scope.
Open Scope list_scope.

Definition code_of (c : ascii) : Z := Z.of_N (N_of_ascii c).

(* char::to_digit(16), used by u64::from_str_radix on each byte *)
Definition to_digit16 (c : ascii) : option Z :=
  let n := code_of c in
  if (48 <=? n) && (n <=? 57) then Some (n - 48)
  else if (97 <=? n) && (n <=? 102) then Some (n - 87)
  else if (65 <=? n) && (n <=? 70) then Some (n - 55)
  else None.

(* The digit loop of u64::from_str_radix: result.checked_mul(16) and then
   checked_add(digit).  [None] is `Err`. *)
Fixpoint radix16_loop (acc : Z) (s : string) : option Z :=
  match s with
  | EmptyString => Some acc
  | String c s' =>
      let* m := mul64 acc 16 in
      let* d := to_digit16 c in
      let* a := add64 m d in
      radix16_loop a s'
  end.

(* u64::from_str_radix(s, 16) from the Rust standard library: Err on the empty
   string and on a lone sign; a leading '+' is skipped; u64 is unsigned, so a
   leading '-' is just an invalid digit.  [None] is `Err`. *)
Definition from_str_radix16 (s : string) : option Z :=
  match s with
  | EmptyString => None
  | String c EmptyString =>
      if (c =? "+")%char || (c =? "-")%char then None else radix16_loop 0 s
  | String c s' =>
      if (c =? "+")%char then radix16_loop 0 s' else radix16_loop 0 s
  end.

(* cellid.rs:159-169 from_token; the outer option is a panic (of the shift or of
   the subtraction 16 - len) *)
Definition from_token (s : string) : option Z :=
  match from_str_radix16 s with
  | None => Some 0
  | Some v =>
      let len := Z.of_nat (String.length s) in
      if len <? 16 then
        let* k := sub64 16 len in
        shl64 v (4 * k)
      else Some v
  end.

(* the lower-case digit written by `{:x}` *)
Definition hex_char (d : Z) : ascii :=
  ascii_of_N (Z.to_N (if d <? 10 then 48 + d else 87 + d)).

(* format!("{:0nx}", x) for a value of at most n digits *)
Fixpoint format_hex (n : nat) (x : Z) : string :=
  match n with
  | O => EmptyString
  | S n' => (format_hex n' (x / 16) ++ String (hex_char (x mod 16)) EmptyString)%string
  end.

(* str::trim_end_matches('0') *)
Fixpoint trim_end_zeros (s : string) : string :=
  match s with
  | EmptyString => EmptyString
  | String c s' =>
      match trim_end_zeros s' with
      | EmptyString => if (c =? "0")%char then EmptyString else String c EmptyString
      | t => String c t
      end
  end.

(* cellid.rs:173-179 to_token *)
Definition to_token (x : Z) : string :=
  if x =? 0 then "X"%string
  else trim_end_zeros (format_hex 16 x).
