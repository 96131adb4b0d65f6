(** Model of src/s2/cellid.rs: the 64-bit id algebra.
    Line numbers refer to /repo/src/s2/cellid.rs. *)
From Verif Require Import Base.

(* cellid.rs:57-62 *)
Definition FACE_BITS : Z := 3.
Definition NUM_FACES : Z := 6.
Definition MAX_LEVEL : Z := 30.
Definition POS_BITS : Z := 2 * MAX_LEVEL + 1.
Definition MAX_SIZE : Z := 2 ^ MAX_LEVEL.
Definition WRAP_OFFSET : Z := NUM_FACES * 2 ^ POS_BITS.

(* cellid.rs:70-72 lsb_for_level: `MAX_LEVEL - level` panics if level > 30 *)
Definition lsb_for_level (level : Z) : option Z :=
  let* d := sub64 MAX_LEVEL level in shl64 1 (2 * d).

(* cellid.rs:75-77 size_ij *)
Definition size_ij (level : Z) : option Z :=
  let* d := sub64 MAX_LEVEL level in shl64 1 d.

(* cellid.rs:236-238 lsb: `self.0 & (-(self.0 as i64) as u64)` *)
Definition lsb (x : Z) : option Z :=
  let* m := neg_i64 (as_i64 x) in Some (Z.land x (as_u64 m)).

(* cellid.rs:187-189 face: `(self.0 >> POS_BITS) as u8` *)
Definition face (x : Z) : Z := Z.shiftr x POS_BITS mod 256.

(* cellid.rs:192-194 pos *)
Definition pos (x : Z) : Z := Z.land x (Z.shiftr (not64 0) FACE_BITS).

(* cellid.rs:182-184 is_valid; `&&` is short-circuit so lsb is evaluated only
   when the face is in range *)
Definition is_valid (x : Z) : option bool :=
  if face x <? NUM_FACES then
    let* l := lsb x in
    Some (negb (Z.land l 0x1555555555555555 =? 0))
  else Some false.

(* cellid.rs:197-199 level *)
Definition level (x : Z) : option Z :=
  sub64 MAX_LEVEL (Z.shiftr (ctz64 x) 1).

(* cellid.rs:203-205 is_leaf *)
Definition is_leaf (x : Z) : bool := negb (Z.land x 1 =? 0).

(* cellid.rs:212-214 child_position *)
Definition child_position (x lvl : Z) : option Z :=
  let* d := sub64 MAX_LEVEL lvl in
  let* s := shr64 x (2 * d + 1) in
  Some (Z.land s 3).

(* cellid.rs:217-220 parent: `(self.0 & (-(lsb as i64)) as u64) | lsb` *)
Definition parent (x lvl : Z) : option Z :=
  let* l := lsb_for_level lvl in
  let* m := neg_i64 (as_i64 l) in
  Some (Z.lor (Z.land x (as_u64 m)) l).

(* cellid.rs:223-226 immediate_parent *)
Definition immediate_parent (x : Z) : option Z :=
  let* l := lsb x in
  let* nl := shl64 l 2 in
  let* m := neg_i64 (as_i64 nl) in
  Some (Z.lor (Z.land x (as_u64 m)) nl).

(* cellid.rs:230-232 is_face *)
Definition is_face (x : Z) : option bool :=
  let* l := lsb_for_level 0 in
  let* l1 := sub64 l 1 in
  Some (Z.land x l1 =? 0).

(* cellid.rs:91-93 from_face_pos_level; `face << 61` drops high bits *)
Definition from_face_pos_level (f p lvl : Z) : option Z :=
  let* a := shl64 f POS_BITS in
  let* b := add64 a (Z.lor p 1) in
  parent b lvl.

(* cellid.rs:96-98 from_face *)
Definition from_face (f : Z) : option Z :=
  let* a := shl64 f POS_BITS in
  let* l := lsb_for_level 0 in
  add64 a l.

(* cellid.rs:242-251 children *)
Definition children (x : Z) : option (Z * Z * Z * Z) :=
  let* l := lsb x in
  let* a := sub64 x l in
  let* ch0 := add64 a (Z.shiftr l 2) in
  let l' := Z.shiftr l 1 in
  let* ch1 := add64 ch0 l' in
  let* ch2 := add64 ch1 l' in
  let* ch3 := add64 ch2 l' in
  Some (ch0, ch1, ch2, ch3).

(* cellid.rs:393-395 range_min *)
Definition range_min (x : Z) : option Z :=
  let* l := lsb x in
  let* l1 := sub64 l 1 in
  sub64 x l1.

(* cellid.rs:398-400 range_max *)
Definition range_max (x : Z) : option Z :=
  let* l := lsb x in
  let* l1 := sub64 l 1 in
  add64 x l1.

(* cellid.rs:403-405 contains; `&&` is short-circuit *)
Definition contains (x y : Z) : option bool :=
  let* lo := range_min x in
  if lo <=? y then
    let* hi := range_max x in Some (y <=? hi)
  else Some false.

(* cellid.rs:408-410 intersects *)
Definition intersects (x y : Z) : option bool :=
  let* ylo := range_min y in
  let* xhi := range_max x in
  if ylo <=? xhi then
    let* yhi := range_max y in
    let* xlo := range_min x in
    Some (yhi >=? xlo)
  else Some false.

(* cellid.rs:436-439 child_begin *)
Definition child_begin (x : Z) : option Z :=
  let* l := lsb x in
  let* a := sub64 x l in
  add64 a (Z.shiftr l 2).

(* cellid.rs:444-448 child_begin_at_level, including the assertion *)
Definition child_begin_at_level (x lvl : Z) : option Z :=
  let* l0 := level x in
  if l0 <=? lvl then
    let* l := lsb x in
    let* a := sub64 x l in
    let* b := lsb_for_level lvl in
    add64 a b
  else None.

(* cellid.rs:452-455 child_end *)
Definition child_end (x : Z) : option Z :=
  let* l := lsb x in
  let* a := add64 x l in
  add64 a (Z.shiftr l 2).

(* cellid.rs:461-465 child_end_at_level *)
Definition child_end_at_level (x lvl : Z) : option Z :=
  let* l0 := level x in
  if l0 <=? lvl then
    let* l := lsb x in
    let* a := add64 x l in
    let* b := lsb_for_level lvl in
    add64 a b
  else None.

(* cellid.rs:470-472 next *)
Definition next (x : Z) : option Z :=
  let* l := lsb x in
  let* d := shl64 l 1 in
  Some (wadd64 x d).

(* cellid.rs:475-477 prev *)
Definition prev (x : Z) : option Z :=
  let* l := lsb x in
  let* d := shl64 l 1 in
  Some (wsub64 x d).

(* cellid.rs:481-488 next_wrap *)
Definition next_wrap (x : Z) : option Z :=
  let* n := next x in
  if n <? WRAP_OFFSET then Some n else Some (wsub64 n WRAP_OFFSET).

(* cellid.rs:492-499 prev_wrap *)
Definition prev_wrap (x : Z) : option Z :=
  let* p := prev x in
  if p <? WRAP_OFFSET then Some p else Some (wadd64 p WRAP_OFFSET).

(* cellid.rs:504-530 advance_wrap; `%` truncates towards zero (Z.rem) and
   panics if the divisor is 0 *)
Definition advance_wrap (x steps : Z) : option Z :=
  if steps =? 0 then Some x else
  let* lv := level x in
  let* d := sub64 MAX_LEVEL lv in
  let shift := 2 * d + 1 in
  let* steps' :=
    (if steps <? 0 then
      let* q := shr64 x shift in
      let* min := neg_i64 (as_i64 q) in
      if steps <? min then
        let* w := shr64 WRAP_OFFSET shift in
        let wrap := as_i64 w in
        if wrap =? 0 then None else
        let s := Z.rem steps wrap in
        if s <? min then chk_i64 (s + wrap) else Some s
      else Some steps
    else
      let* r := sub64 WRAP_OFFSET x in
      let* q := shr64 r shift in
      let max := as_i64 q in
      if max <? steps then
        let* w := shr64 WRAP_OFFSET shift in
        let wrap := as_i64 w in
        if wrap =? 0 then None else
        let s := Z.rem steps wrap in
        if max <? s then chk_i64 (s - wrap) else Some s
      else Some steps) in
  let* m := shl64 (as_u64 steps') shift in
  Some (wadd64 x m).

(* cellid.rs:539-541 distance_from_begin *)
Definition distance_from_begin (x : Z) : option Z :=
  let* lv := level x in
  let* d := sub64 MAX_LEVEL lv in
  let* q := shr64 x (2 * d + 1) in
  Some (as_i64 q).

(* cellid.rs:966-968 find_msb_set_nonzero64: `63 - leading_zeros` on u32 panics
   for 0 *)
Definition find_msb_set_nonzero64 (b : Z) : option Z := sub64 63 (clz64 b).

(* cellid.rs:544-560 common_ancestor_level; the outer option is the panic, the
   inner one is Rust's Option *)
Definition common_ancestor_level (x y : Z) : option (option Z) :=
  let* lx := lsb x in
  let* ly := lsb y in
  let bits := Z.lxor x y in
  let bits := if bits <? lx then lx else bits in
  let bits := if bits <? ly then ly else bits in
  let* msb := find_msb_set_nonzero64 bits in
  if 60 <? msb then Some None else Some (Some (Z.shiftr (60 - msb) 1)).

(* cellid.rs:565-583 advance; `steps << step_shift` is an i64 shift, dropping
   high bits *)
Definition advance (x steps : Z) : option Z :=
  if steps =? 0 then Some x else
  let* lv := level x in
  let* d := sub64 MAX_LEVEL lv in
  let shift := 2 * d + 1 in
  let* steps' :=
    (if steps <? 0 then
      let* q := shr64 x shift in
      let* min := neg_i64 (as_i64 q) in
      Some (if steps <? min then min else steps)
    else
      let* l := lsb x in
      let* a := add64 WRAP_OFFSET l in
      let* r := sub64 a x in
      let* q := shr64 r shift in
      let max := as_i64 q in
      Some (if max <? steps then max else steps)) in
  let* m := shl64 (as_u64 steps') shift in
  Some (wadd64 x m).

(* cellid.rs:636-666 max_tile.  The two loops run on fuel; None if exhausted. *)
Fixpoint max_tile_shrink (fuel : nat) (ci limit : Z) : option Z :=
  match fuel with
  | O => None
  | S fuel' =>
    let* (ch0, _, _, _) := children ci in
    let* hi := range_max ch0 in
    if hi <? limit then Some ch0 else max_tile_shrink fuel' ch0 limit
  end.

Fixpoint max_tile_grow (fuel : nat) (ci start limit : Z) : option Z :=
  match fuel with
  | O => None
  | S fuel' =>
    let* f := is_face ci in
    if f then Some ci else
    let* p := immediate_parent ci in
    let* plo := range_min p in
    if negb (plo =? start) then Some ci else
    let* phi := range_max p in
    if phi >=? limit then Some ci else
    max_tile_grow fuel' p start limit
  end.

Definition max_tile_fuel : nat := 64.

Definition max_tile (x limit : Z) : option Z :=
  let* start := range_min x in
  let* llo := range_min limit in
  if start >=? llo then Some limit else
  let* hi := range_max x in
  if hi >=? limit then max_tile_shrink max_tile_fuel x limit
  else max_tile_grow max_tile_fuel x start limit.

(* cellid.rs:832-844 Iter: collect the items of the iterator into a list. *)
Fixpoint iter_collect (fuel : nat) (cur stop : Z) : option (list Z) :=
  if cur =? stop then Some []
  else
    match fuel with
    | O => None
    | S fuel' =>
      let* n := next cur in
      let* rest := iter_collect fuel' n stop in
      Some (cur :: rest)
    end.

(* cellid.rs:847-852 child_iter, collected *)
Definition child_iter (fuel : nat) (x : Z) : option (list Z) :=
  let* b := child_begin x in
  let* e := child_end x in
  iter_collect fuel b e.

(* cellid.rs:854-859 child_iter_at_level, collected *)
Definition child_iter_at_level (fuel : nat) (x lvl : Z) : option (list Z) :=
  let* b := child_begin_at_level x lvl in
  let* e := child_end_at_level x lvl in
  iter_collect fuel b e.
