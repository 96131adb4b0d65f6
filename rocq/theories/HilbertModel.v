(** Model of the Hilbert-curve part of src/s2/cellid.rs: lookup tables,
    from_face_ij, face_ij_orientation, face_siti, center_face_siti.
    Line numbers refer to /repo/src/s2/cellid.rs. *)
From Verif Require Import Base CellIdModel.

(* cellid.rs:67-68, stuv.rs:241 *)
Definition LOOKUP_BITS : Z := 4.
Definition SWAP_MASK : Z := 1.
Definition INVERT_MASK : Z := 2.

(* cellid.rs:863-865 *)
Definition IJ_TO_POS : list (list Z) := [[0; 1; 3; 2]; [0; 3; 1; 2]; [2; 3; 1; 0]; [2; 1; 3; 0]].
Definition POS_TO_IJ : list (list Z) := [[0; 1; 3; 2]; [0; 2; 3; 1]; [3; 2; 0; 1]; [3; 1; 0; 2]].
Definition POS_TO_ORIENTATION : list Z := [SWAP_MASK; 0; 0; Z.lor INVERT_MASK SWAP_MASK].

(* indexing; every index used below is in range, as the theorems show for
   from_face_ij and face_ij_orientation, which return [None] otherwise *)
Definition at_ (l : list Z) (i : Z) : option Z :=
  if i <? 0 then None else nth_error l (Z.to_nat i).
Definition pos_to_ij (o k : Z) : Z :=
  nth (Z.to_nat k) (nth (Z.to_nat o) POS_TO_IJ []) 0.
Definition pos_to_orientation (k : Z) : Z := nth (Z.to_nat k) POS_TO_ORIENTATION 0.

Definition upd (l : list Z) (i v : Z) : list Z :=
  firstn (Z.to_nat i) l ++ v :: skipn (S (Z.to_nat i)) l.

(* cellid.rs:913-945 init_lookup_cell; [n] is LOOKUP_BITS - level, the two mutable
   slices are threaded as a pair *)
Fixpoint init_lookup_cell (n : nat) (i j orig pos orientation : Z)
    (t : list Z * list Z) : list Z * list Z :=
  match n with
  | O =>
      let ij := Z.shiftl i LOOKUP_BITS + j in
      (upd (fst t) (Z.shiftl ij 2 + orig) (Z.shiftl pos 2 + orientation),
       upd (snd t) (Z.shiftl pos 2 + orig) (Z.shiftl ij 2 + orientation))
  | S n' =>
      fold_left (fun t idx =>
        let r := pos_to_ij orientation idx in
        init_lookup_cell n'
          (Z.shiftl i 1 + Z.shiftr r 1) (Z.shiftl j 1 + Z.land r 1)
          orig (Z.shiftl pos 2 + idx)
          (Z.lxor orientation (pos_to_orientation idx)) t)
        [0; 1; 2; 3] t
  end.

(* cellid.rs:867-910 LOOKUP_TBL *)
Definition LOOKUP_TBL : list Z * list Z :=
  let size := Z.to_nat (Z.shiftl 1 (2 * LOOKUP_BITS + 2)) in
  let t := (repeat 0 size, repeat 0 size) in
  let n := Z.to_nat LOOKUP_BITS in
  let t := init_lookup_cell n 0 0 0 0 0 t in
  let t := init_lookup_cell n 0 0 SWAP_MASK 0 SWAP_MASK t in
  let t := init_lookup_cell n 0 0 INVERT_MASK 0 INVERT_MASK t in
  init_lookup_cell n 0 0 (Z.lor SWAP_MASK INVERT_MASK) 0 (Z.lor SWAP_MASK INVERT_MASK) t.
Definition LOOKUP_POS : list Z := fst LOOKUP_TBL.
Definition LOOKUP_IJ : list Z := snd LOOKUP_TBL.

(* cellid.rs:135-146 the loop of from_face_ij, iteration k down to 0 *)
Fixpoint from_face_ij_loop (k : nat) (i j n bits : Z) : option Z :=
  let kz := Z.of_nat k in
  let mask := Z.shiftl 1 LOOKUP_BITS - 1 in
  let bits := bits + Z.shiftl (Z.land (Z.shiftr i (kz * LOOKUP_BITS)) mask) (LOOKUP_BITS + 2) in
  let bits := bits + Z.shiftl (Z.land (Z.shiftr j (kz * LOOKUP_BITS)) mask) 2 in
  let* bits := at_ LOOKUP_POS bits in
  let* w := shl64 (Z.shiftr bits 2) (kz * 2 * LOOKUP_BITS) in
  let n := Z.lor n w in
  let bits := Z.land bits (Z.lor SWAP_MASK INVERT_MASK) in
  match k with
  | O => Some n
  | S k' => from_face_ij_loop k' i j n bits
  end.

(* cellid.rs:129-148 from_face_ij: f : u8, i j : i32 *)
Definition from_face_ij (f i j : Z) : option Z :=
  let* n := shl64 f (POS_BITS - 1) in
  let* n := from_face_ij_loop 7 i j n (Z.land f SWAP_MASK) in
  let* n2 := mul64 n 2 in
  add64 n2 1.

(* cellid.rs:262-277 the loop of face_ij_orientation; the additions to i and j are
   i32 additions *)
Fixpoint face_ij_loop (k : nat) (x i j orientation nbits : Z) : option (Z * Z * Z) :=
  let kz := Z.of_nat k in
  let* w := shr64 x (kz * 2 * LOOKUP_BITS + 1) in
  let orientation := orientation + Z.shiftl (Z.land w (Z.shiftl 1 (2 * nbits) - 1)) 2 in
  let* orientation := at_ LOOKUP_IJ orientation in
  let* i := chk_i32 (i + Z.shiftl (Z.shiftr orientation (LOOKUP_BITS + 2)) (kz * LOOKUP_BITS)) in
  let* j := chk_i32 (j + Z.shiftl (Z.land (Z.shiftr orientation 2) (Z.shiftl 1 LOOKUP_BITS - 1)) (kz * LOOKUP_BITS)) in
  let orientation := Z.land orientation (Z.lor SWAP_MASK INVERT_MASK) in
  match k with
  | O => Some (i, j, orientation)
  | S k' => face_ij_loop k' x i j orientation LOOKUP_BITS
  end.

(* cellid.rs:255-283 face_ij_orientation *)
Definition face_ij_orientation (x : Z) : option (Z * Z * Z * Z) :=
  let f := face x in
  let* (i, j, o) := face_ij_loop 7 x 0 0 (Z.land f SWAP_MASK) (MAX_LEVEL - 7 * LOOKUP_BITS) in
  let* l := lsb x in
  let o := if negb (Z.land l 0x1111111111111110 =? 0) then Z.lxor o SWAP_MASK else o in
  Some (f, i, j, o).

(* cellid.rs:413-423 face_siti *)
Definition face_siti (x : Z) : option (Z * Z * Z) :=
  let* (f, i, j, _) := face_ij_orientation x in
  let delta := if is_leaf x then 1
    else if negb (Z.land (Z.lxor i (Z.shiftr (as_i32 x) 2)) 1 =? 0) then 2 else 0 in
  let* si := chk_i32 (2 * i + delta) in
  let* ti := chk_i32 (2 * j + delta) in
  Some (f, si, ti).

(* cellid.rs:673-684 center_face_siti *)
Definition center_face_siti (x : Z) : option (Z * Z * Z) :=
  let* (f, i, j, _) := face_ij_orientation x in
  let delta := if is_leaf x then 1
    else if Z.land (Z.lxor i (Z.shiftr (as_i64 x) 2)) 1 =? 1 then 2 else 0 in
  let* si := chk_i32 (2 * i + delta) in
  let* ti := chk_i32 (2 * j + delta) in
  Some (f, si, ti).
