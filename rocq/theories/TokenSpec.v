(** Specification vocabulary for tokens, independent of the model. *)
From Coq Require Import ZArith List String Ascii.
Import ListNotations.
Open Scope Z_scope.

Definition byte_of (c : ascii) : Z := Z.of_N (N_of_ascii c).

(* c is a hexadecimal digit of value d, in either case *)
Definition hex_digit (c : ascii) (d : Z) : Prop :=
  (0 <= d < 10 /\ byte_of c = byte_of "0" + d) \/
  (10 <= d < 16 /\ byte_of c = byte_of "a" + (d - 10)) \/
  (10 <= d < 16 /\ byte_of c = byte_of "A" + (d - 10)).

(* the digits written in lower case *)
Definition lower_hex_digit (c : ascii) (d : Z) : Prop :=
  hex_digit c d /\ ~ (byte_of "A" <= byte_of c <= byte_of "F").

(* positional value of a digit list, most significant digit first *)
Fixpoint value16 (ds : list Z) : Z :=
  match ds with
  | [] => 0
  | d :: ds' => d * 16 ^ Z.of_nat (List.length ds') + value16 ds'
  end.

(* s spells the digits ds, with an optional sign '+' *)
Definition spells (s : string) (ds : list Z) : Prop :=
  ds <> [] /\
  exists cs, (s = string_of_list_ascii cs \/ s = String "+" (string_of_list_ascii cs)) /\
    Forall2 hex_digit cs ds.

(* byte-wise (dictionary) order on strings *)
Inductive dict_lt : string -> string -> Prop :=
| dict_nil c s : dict_lt EmptyString (String c s)
| dict_head c d s t : byte_of c < byte_of d -> dict_lt (String c s) (String d t)
| dict_tail c s t : dict_lt s t -> dict_lt (String c s) (String c t).
