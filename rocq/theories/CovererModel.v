(** Model of the region coverer, src/s2/region.rs.

    A region is given by the answers of its trait methods.  A `Cell` is modelled by
    its id: the coverer only reads `cell.id` and `cell.level()`, and passes the cell
    to the region.  Vectors that are pushed at the end are kept with the last
    element first where only membership, length or the last element matters. *)
From Verif Require Import Base CellIdModel CellUnionModel.

(* region.rs:34-61 trait Region, the methods the coverer calls *)
Record region := Region {
  intersects_cell : Z -> bool;
  contains_cell : Z -> bool;
  cell_union_bound : list Z
}.

(* region.rs:124-133 RegionCoverer: u8, u8, u8, usize *)
Record params := Params { min_level : Z; max_level : Z; level_mod : Z; max_cells : Z }.

(* u8 arithmetic *)
Definition add8 (a b : Z) : option Z := if a + b <? 256 then Some (a + b) else None.
Definition mul8 (a b : Z) : option Z := if a * b <? 256 then Some (a * b) else None.

Definition len {A} (l : list A) : Z := Z.of_nat (length l).

Fixpoint fold_opt {A B} (f : A -> B -> option A) (a : A) (l : list B) : option A :=
  match l with
  | [] => Some a
  | b :: l' => let* a' := f a b in fold_opt f a' l'
  end.

(* region.rs:488-494 adjust_level *)
Definition adjust_level (p : params) (l : Z) : Z :=
  if (1 <? level_mod p) && (min_level p <? l) then
    l - (l - min_level p) mod level_mod p
  else l.

(* region.rs:506-514 normalize_covering: first pass *)
Definition pre_adjust1 (p : params) (ci : Z) : option Z :=
  let* l := level ci in
  let nl := adjust_level p (Z.min l (max_level p)) in
  if nl =? l then Some ci else parent ci nl.
Fixpoint pre_adjust (p : params) (v : list Z) : option (list Z) :=
  match v with
  | [] => Some []
  | ci :: v' =>
    let* c := pre_adjust1 p ci in
    let* r := pre_adjust p v' in
    Some (c :: r)
  end.

(* region.rs:521-534 the pair of neighbours with the deepest common ancestor *)
Fixpoint best_pair (p : params) (i : Z) (v : list Z) (best_index best_level : Z) : option (Z * Z) :=
  match v with
  | a :: ((b :: _) as v') =>
    let* r := common_ancestor_level a b in
    match r with
    | Some l =>
      let l := adjust_level p l in
      if best_level <? l then best_pair p (i + 1) v' i l
      else best_pair p (i + 1) v' best_index best_level
    | None => best_pair p (i + 1) v' best_index best_level
    end
  | _ => Some (best_index, best_level)
  end.

Definition set_nth (i : nat) (x : Z) (v : list Z) : list Z :=
  firstn i v ++ x :: skipn (S i) v.

(* region.rs:519-541 normalize_covering: merging while there are too many cells *)
Fixpoint merge_loop (fuel : nat) (p : params) (v : list Z) : option (list Z) :=
  if len v <=? max_cells p then Some v
  else
    match fuel with
    | O => None
    | S fuel' =>
      let* (bi, bl) := best_pair p 0 v (-1) (-1) in
      if bl <? min_level p then Some v
      else
        let* x := nth_error v (Z.to_nat bi) in
        let* y := parent x bl in
        let* v' := normalize (set_nth (Z.to_nat bi) y v) in
        merge_loop fuel' p v'
    end.

(* region.rs:504-548 normalize_covering *)
Definition normalize_covering (fuel : nat) (p : params) (v : list Z) : option (list Z) :=
  let* v := (if (max_level p <? MAX_LEVEL) || (1 <? level_mod p) then pre_adjust p v else Some v) in
  let* v := normalize v in
  let* v := merge_loop fuel p v in
  if (0 <? min_level p) || (1 <? level_mod p) then
    denormalize fuel v (min_level p) (level_mod p)
  else Some v.

(* region.rs:475-482 fast_covering *)
Definition fast_covering (fuel : nat) (p : params) (r : region) : option (list Z) :=
  normalize_covering fuel p (cell_union_bound r).

(* region.rs:148-153 Candidate *)
Inductive cand := Cand (id : Z) (terminal : bool) (children : list cand) (priority : Z).
Definition cid (c : cand) := let (x, _, _, _) := c in x.
Definition cterm (c : cand) := let (_, t, _, _) := c in t.
Definition cchildren (c : cand) := let (_, _, l, _) := c in l.
Definition cprio (c : cand) := let (_, _, _, q) := c in q.

(* region.rs:135-145 Coverer: constraint, region, interior_covering; the mutable
   fields result and pq are the state *)
Record env := Env { prm : params; reg : region; interior : bool }.
Record state := State { result : list Z; pq : list cand }.

(* region.rs:178-206 new_candidate *)
Definition new_candidate (e : env) (x : Z) : option (option cand) :=
  if negb (intersects_cell (reg e) x) then Some None
  else
    let* l := level x in
    let plain := Cand x false [] 0 in
    let term := Cand x true [] 0 in
    if min_level (prm e) <=? l then
      if interior e then
        if contains_cell (reg e) x then Some (Some term)
        else
          let* s := add8 l (level_mod (prm e)) in
          if max_level (prm e) <? s then Some None else Some (Some plain)
      else
        let* s := add8 l (level_mod (prm e)) in
        if (max_level (prm e) <? s) || contains_cell (reg e) x then Some (Some term)
        else Some (Some plain)
    else Some (Some plain).

(* region.rs:210-230 expand_children.  [n] is num_levels after the decrement (0 if
   negative); the accumulator is (cand.children, num_terminals).  child_iter runs on
   fuel 4: a cell that is not a leaf has four children. *)
Fixpoint expand_children (n : nat) (e : env) (x : Z) (acc : list cand * Z) : option (list cand * Z) :=
  let* cs := child_iter 4 x in
  match n with
  | O =>
    fold_opt (fun acc ci =>
      let* r := new_candidate e ci in
      match r with
      | Some c => Some (fst acc ++ [c], snd acc + (if cterm c then 1 else 0))
      | None => Some acc
      end) acc cs
  | S n' =>
    fold_opt (fun acc ci =>
      if intersects_cell (reg e) ci then expand_children n' e ci acc else Some acc) acc cs
  end.

(* region.rs:235-279 add_candidate; the recursive call adds a terminal candidate,
   which pushes its id *)
Definition add_candidate (e : env) (st : state) (c : cand) : option state :=
  let p := prm e in
  if cterm c then Some (State (cid c :: result st) (pq st))
  else
    let* l := level (cid c) in
    let num_levels := if l <? min_level p then 1 else level_mod p in
    let* (chs, nt) := expand_children (Z.to_nat (num_levels - 1)) e (cid c) (cchildren c, 0) in
    let* shift := mul8 (level_mod p) 2 in
    if len chs =? 0 then Some st
    else
      let* full :=
        (if interior e then Some false
         else
           let* one := shl64 1 shift in
           Some ((nt =? one) && (min_level p <=? l))) in
      if full then Some (State (cid c :: result st) (pq st))
      else
        let* a := shl64 l shift in
        let* b := add64 a (len chs) in
        let* d := shl64 b shift in
        let* f := add64 d nt in
        let* q := neg_i64 (as_i64 f) in
        Some (State (result st) (Cand (cid c) false chs q :: pq st)).

(* region.rs:285-316 adjust_cell_levels; [out] has its last element first *)
Fixpoint adjust_loop (p : params) (v out : list Z) : option (list Z) :=
  match v with
  | [] => Some out
  | ci :: v' =>
    let* l := level ci in
    let nl := adjust_level p l in
    let* cur := (if nl =? l then Some ci else parent ci nl) in
    match out with
    | [] => adjust_loop p v' [cur]
    | last :: rest =>
      let* b := contains last cur in
      if b then adjust_loop p v' out
      else
        let* b2 := contains cur last in
        if b2 then adjust_loop p v' (cur :: rest) else adjust_loop p v' (cur :: out)
    end
  end.
Definition adjust_cell_levels (p : params) (v : list Z) : option (list Z) :=
  if level_mod p =? 1 then Some v
  else
    let* out := adjust_loop p v [] in Some (rev out).

(* region.rs:319-336 initial_candidates *)
Definition initial_candidates (fuel : nat) (e : env) (st : state) : option state :=
  let p := prm e in
  let temp := Params 0 (max_level p) 1 (Z.min (max_cells p) 4) in
  let* cells := fast_covering fuel temp (reg e) in
  let* v := adjust_cell_levels p cells in
  fold_opt (fun st ci =>
    let* r := new_candidate e ci in
    match r with
    | Some c => add_candidate e st c
    | None => Some st
    end) st v.

(* std::collections::BinaryHeap::pop: removes one element of greatest priority.
   Which one, among equals, is up to the heap: [tie] makes that choice. *)
Definition is_max (l : list cand) (i : nat) : bool :=
  match nth_error l i with
  | Some c => forallb (fun d => cprio d <=? cprio c) l
  | None => false
  end.
Definition pick (tie : list cand -> nat) (l : list cand) : nat :=
  if is_max l (tie l) then tie l
  else match find (is_max l) (seq 0 (length l)) with Some i => i | None => 0%nat end.
Definition heap_pop (tie : list cand -> nat) (l : list cand) : option (cand * list cand) :=
  let i := pick tie l in
  match nth_error l i with
  | Some c => Some (c, firstn i l ++ skipn (S i) l)
  | None => None
  end.

(* region.rs:355-383 the main loop of covering_internal *)
Fixpoint main_loop (fuel : nat) (tie : list cand -> nat) (e : env) (st : state) : option (list Z) :=
  let p := prm e in
  match heap_pop tie (pq st) with
  | None => Some (result st)
  | Some (c, rest) =>
    if interior e && negb (len (result st) <? max_cells p) then Some (result st)
    else
      match fuel with
      | O => None
      | S fuel' =>
        let st1 := State (result st) rest in
        let* l := level (cid c) in
        let* st2 :=
          (if interior e || (l <? min_level p) || (len (cchildren c) =? 1)
              || (len (result st) + len rest + len (cchildren c) <=? max_cells p)
           then
             fold_opt (fun st ch =>
               if negb (interior e) || (len (result st) <? max_cells p)
               then add_candidate e st ch else Some st) st1 (cchildren c)
           else Some (State (cid c :: result st) rest)) in
        main_loop fuel' tie e st2
      end
  end.

(* region.rs:352-386 covering_internal *)
Definition covering_internal (fuel : nat) (tie : list cand -> nat) (e : env) : option (list Z) :=
  let* st := initial_candidates fuel e (State [] []) in
  main_loop fuel tie e st.

(* region.rs:438-447 cellunion, 455-465 interior_cellunion *)
Definition cellunion (fuel : nat) (tie : list cand -> nat) (p : params) (r : region) : option (list Z) :=
  let* v := covering_internal fuel tie (Env p r false) in normalize (rev v).
Definition interior_cellunion (fuel : nat) (tie : list cand -> nat) (p : params) (r : region) : option (list Z) :=
  let* v := covering_internal fuel tie (Env p r true) in normalize (rev v).

(* consts.rs:44-55 clamp *)
Definition clampZ (x lo hi : Z) : Z := if x <? lo then lo else if hi <? x then hi else x.

(* region.rs:406-415 covering, 420-429 interior_covering *)
Definition covering (fuel : nat) (tie : list cand -> nat) (p : params) (r : region) : option (list Z) :=
  let* v := cellunion fuel tie p r in
  denormalize fuel v (clampZ (min_level p) 0 MAX_LEVEL) (clampZ (level_mod p) 1 3).
Definition interior_covering (fuel : nat) (tie : list cand -> nat) (p : params) (r : region) : option (list Z) :=
  let* v := interior_cellunion fuel tie p r in
  denormalize fuel v (clampZ (min_level p) 0 MAX_LEVEL) (clampZ (level_mod p) 1 3).
