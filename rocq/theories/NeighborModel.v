(** Model of the neighbour functions of src/s2/cellid.rs and of
    CellUnion::expand_at_level.  Line numbers refer to cellid.rs unless a file is
    named. *)
From Verif Require Import Base F64 VectorModel StuvModel CellIdModel HilbertModel CellUnionModel.
Open Scope Z_scope.

(* consts.rs:44-55 clamp, at i32 and at f64 *)
Definition clampZ (v lo hi : Z) : Z := if v <? lo then lo else if hi <? v then hi else v.
Definition clampF (v lo hi : f64) : f64 := if flt v lo then lo else if fgt v hi then hi else v.

(* cellid.rs:61-65 *)
Definition MAX_SIZE_F64 : f64 := of_int MAX_SIZE.

(* cellid.rs:751-753 st_to_ij *)
Definition st_to_ij (s : f64) : Z :=
  clampZ (to_int (- 2 ^ 31) (2 ^ 31 - 1) (ffloor (fmul MAX_SIZE_F64 s))) 0 (MAX_SIZE - 1).

(* cellid.rs:108-109 *)
Definition SCALE : f64 := fdiv f1 MAX_SIZE_F64.
Definition LIMIT : f64 := fadd f1 DBL_EPSILON.

(* cellid.rs:111-120 the u (or v) coordinate of the centre of leaf column i *)
Definition wrap_coord (i : Z) : f64 :=
  clampF (fmul SCALE (fsub (fadd (fmul f2 (of_int i)) f1) MAX_SIZE_F64)) (fneg LIMIT) LIMIT.

(* cellid.rs:101-126 from_face_ij_wrap *)
Definition from_face_ij_wrap (f i j : Z) : option Z :=
  let i := clampZ i (-1) MAX_SIZE in
  let j := clampZ j (-1) MAX_SIZE in
  let u := wrap_coord i in
  let v := wrap_coord j in
  let* r := face_uv_to_xyz f u v in
  let* (f, u, v) := xyz_to_face_uv r in
  from_face_ij f (st_to_ij (fmul fhalf (fadd u f1))) (st_to_ij (fmul fhalf (fadd v f1))).

(* cellid.rs:150-156 from_face_ij_same *)
Definition from_face_ij_same (f i j : Z) (same_face : bool) : option Z :=
  if same_face then from_face_ij f i j else from_face_ij_wrap f i j.

(* size_ij(level) as i32 *)
Definition size_i32 (level : Z) : option Z := let* s := size_ij level in Some (as_i32 s).

(* cellid.rs:287-298 edge_neighbors *)
Definition edge_neighbors (x : Z) : option (list Z) :=
  let* lvl := level x in
  let* size := size_i32 lvl in
  let* (f, i, j, _) := face_ij_orientation x in
  let nb i j := let* y := from_face_ij_wrap f i j in parent y lvl in
  let* jm := chk_i32 (j - size) in
  let* a := nb i jm in
  let* ip := chk_i32 (i + size) in
  let* b := nb ip j in
  let* jp := chk_i32 (j + size) in
  let* c := nb i jp in
  let* im := chk_i32 (i - size) in
  let* d := nb im j in
  Some [a; b; c; d].

(* cellid.rs:308-317 (isame, ioffset) and (jsame, joffset) *)
Definition vertex_offset (i half_size size : Z) : option (bool * Z) :=
  if negb (Z.land i half_size =? 0) then
    let* s := chk_i32 (i + size) in Some (s <? MAX_SIZE, size)
  else
    let* s := chk_i32 (i - size) in
    let* o := chk_i32 (- size) in
    Some (0 <=? s, o).

(* cellid.rs:303-330 vertex_neighbors; `half_size << 1` drops overflowing bits *)
Definition vertex_neighbors (x lvl : Z) : option (list Z) :=
  let* l1 := add64 lvl 1 in
  let* half_size := size_i32 l1 in
  let size := as_i32 (Z.shiftl half_size 1) in
  let* (f, i, j, _) := face_ij_orientation x in
  let* (isame, ioffset) := vertex_offset i half_size size in
  let* (jsame, joffset) := vertex_offset j half_size size in
  let* p := parent x lvl in
  let nb i j same := let* y := from_face_ij_same f i j same in parent y lvl in
  let* io := chk_i32 (i + ioffset) in
  let* a := nb io j isame in
  let* jo := chk_i32 (j + joffset) in
  let* b := nb i jo jsame in
  if isame || jsame then
    let* c := nb io jo (isame && jsame) in Some [p; a; b; c]
  else Some [p; a; b].

(* cellid.rs:340-390 all_neighbors: one iteration of the loop, with its value of k *)
Definition all_neighbors_step (f i j size nbr_size lvl k : Z) : option (list Z) :=
  let nb i j same := let* y := from_face_ij_same f i j same in parent y lvl in
  let* jk := chk_i32 (j + k) in
  let* im := chk_i32 (i - nbr_size) in
  let* is_ := chk_i32 (i + size) in
  let* (same_face, pre) :=
    (if k <? 0 then Some (0 <=? jk, [])
     else if size <=? k then Some (jk <? MAX_SIZE, [])
     else
       let* ik := chk_i32 (i + k) in
       let* jm := chk_i32 (j - nbr_size) in
       let* js := chk_i32 (j + size) in
       let* a := nb ik jm (0 <=? j - size) in
       let* b := nb ik js (js <? MAX_SIZE) in
       Some (true, [a; b])) in
  let* c := nb im jk (same_face && (0 <=? i - size)) in
  let* d := nb is_ jk (same_face && (is_ <? MAX_SIZE)) in
  Some (pre ++ [c; d]).

(* cellid.rs:354-387 the loop; [n] bounds the iterations, [None] when it runs out *)
Fixpoint all_neighbors_loop (n : nat) (f i j size nbr_size lvl k : Z) : option (list Z) :=
  match n with
  | O => None
  | S n =>
      let* here := all_neighbors_step f i j size nbr_size lvl k in
      if size <=? k then Some here
      else
        let* k' := chk_i32 (k + nbr_size) in
        let* rest := all_neighbors_loop n f i j size nbr_size lvl k' in
        Some (here ++ rest)
  end.

(* cellid.rs:340-390 all_neighbors; the loop makes at most size / nbr_size + 3 iterations *)
Definition all_neighbors (x lvl : Z) : option (list Z) :=
  let* (f, i, j, _) := face_ij_orientation x in
  let* l := level x in
  let* size := size_i32 l in
  let i := Z.land i (- size) in
  let j := Z.land j (- size) in
  let* nbr_size := size_i32 lvl in
  all_neighbors_loop (Z.to_nat (size / nbr_size + 3)) f i j size nbr_size lvl (- nbr_size).

(* cellunion.rs:363-380 the loop of expand_at_level: [rest] is self.0[..i] in reverse
   order, so that its head is self.0[i - 1]; the inner while loop drops the cells
   contained in [id] *)
Fixpoint drop_contained (id : Z) (rest : list Z) : option (list Z) :=
  match rest with
  | [] => Some []
  | y :: tl => let* b := contains id y in if b : bool then drop_contained id tl else Some rest
  end.
Fixpoint expand_loop (n : nat) (lvl level_lsb : Z) (rest : list Z) : option (list Z) :=
  match rest with
  | [] => Some []
  | x :: tl =>
      match n with
      | O => None
      | S n =>
          let* l := lsb x in
          let* (id, tl) :=
            (if l <? level_lsb then
               let* id := parent x lvl in
               let* tl := drop_contained id tl in Some (id, tl)
             else Some (x, tl)) in
          let* nb := all_neighbors id lvl in
          let* out := expand_loop n lvl level_lsb tl in
          Some ((id :: nb) ++ out)
      end
  end.
(* cellunion.rs:363-381 expand_at_level *)
Definition expand_at_level (u : list Z) (lvl : Z) : option (list Z) :=
  let* level_lsb := lsb_for_level lvl in
  let* out := expand_loop (length u) lvl level_lsb (rev u) in
  normalize out.
