(** Model of src/s2/cellunion.rs and of search_lower_by in src/consts.rs.
    A CellUnion is the list of its ids.  Line numbers refer to
    /repo/src/s2/cellunion.rs unless a file is named. *)
From Verif Require Import Base CellIdModel.

(* consts.rs:57-73 search_lower_by; [f] may panic.  usize arithmetic cannot
   overflow because every intermediate value is at most [len]. *)
Fixpoint search_loop (fuel : nat) (f : nat -> option bool) (i j : nat) : option nat :=
  if (i <? j)%nat then
    match fuel with
    | O => None
    | S fuel' =>
      let h := (i + (j - i) / 2)%nat in
      let* b := f h in
      if b then search_loop fuel' f i h else search_loop fuel' f (h + 1)%nat j
    end
  else Some i.
Definition search_lower_by (len : nat) (f : nat -> option bool) : option nat :=
  search_loop len f 0 len.

(* cellunion.rs:46-54 from_range: the loop after the first max_tile *)
Fixpoint from_range_loop (fuel : nat) (cur stop : Z) : option (list Z) :=
  if cur =? stop then Some []
  else
    match fuel with
    | O => None
    | S fuel' =>
      let* n := next cur in
      let* t := max_tile n stop in
      let* rest := from_range_loop fuel' t stop in
      Some (cur :: rest)
    end.
Definition from_range (fuel : nat) (b e : Z) : option (list Z) :=
  let* cur := max_tile b e in from_range_loop fuel cur e.

(* cellunion.rs:57-66 whole_sphere *)
Definition whole_sphere : option (list Z) :=
  let* f0 := from_face 0 in let* f1 := from_face 1 in let* f2 := from_face 2 in
  let* f3 := from_face 3 in let* f4 := from_face 4 in let* f5 := from_face 5 in
  Some [f0; f1; f2; f3; f4; f5].

(* `v.sort()` on CellID (derived Ord on the u64): insertion sort gives the same
   vector as any correct sort, since equal keys are identical. *)
Fixpoint insert (x : Z) (l : list Z) : list Z :=
  match l with
  | [] => [x]
  | y :: l' => if x <=? y then x :: l else y :: insert x l'
  end.
Fixpoint sort (l : list Z) : list Z :=
  match l with
  | [] => []
  | x :: l' => insert x (sort l')
  end.

(* cellunion.rs:93-95: discard accepted cells contained by ci.  The vector
   `output` is modelled with its last element first. *)
Fixpoint pop_contained (ci : Z) (out : list Z) : option (list Z) :=
  match out with
  | [] => Some []
  | last :: rest =>
    let* b := contains ci last in
    if b then pop_contained ci rest else Some out
  end.

(* cellunion.rs:105-120, 488-500: the two sibling tests, in the order the
   comparisons are evaluated; `||`/`&&` short-circuit and only is_face/lsb can panic *)
Definition sibling_mask (x : Z) : option Z :=
  let* l := lsb x in
  let* m := shl64 l 1 in
  let* m2 := shl64 m 1 in
  let* s := add64 m m2 in
  Some (not64 s).

(* cellunion.rs:101-127: collapse loop *)
Fixpoint collapse (ci : Z) (out : list Z) : option (Z * list Z) :=
  match out with
  | f2 :: f1 :: f0 :: rest =>
    if negb (Z.lxor (Z.lxor (Z.lxor f0 f1) f2) ci =? 0) then Some (ci, out) else
    let* mask := sibling_mask ci in
    let should := Z.land ci mask in
    if negb (Z.land f0 mask =? should) then Some (ci, out) else
    if negb (Z.land f1 mask =? should) then Some (ci, out) else
    if negb (Z.land f2 mask =? should) then Some (ci, out) else
    let* fc := is_face ci in
    if fc then Some (ci, out) else
    let* p := immediate_parent ci in
    collapse p rest
  | _ => Some (ci, out)
  end.

(* cellunion.rs:74-129: body of the for loop over the sorted vector *)
Definition normalize_step (ci : Z) (out : list Z) : option (list Z) :=
  let* skip :=
    match out with
    | [] => Some false
    | last :: _ => contains last ci
    end in
  if skip then Some out
  else
    let* out1 := pop_contained ci out in
    let* (ci', out2) := collapse ci out1 in
    Some (ci' :: out2).

Fixpoint normalize_loop (v out : list Z) : option (list Z) :=
  match v with
  | [] => Some out
  | ci :: v' =>
    let* out' := normalize_step ci out in
    normalize_loop v' out'
  end.

(* cellunion.rs:69-135 normalize *)
Definition normalize (v : list Z) : option (list Z) :=
  let* out := normalize_loop (sort v) [] in
  Some (rev out).

(* cellunion.rs:139-147 intersects_cellid *)
Definition intersects_cellid (v : list Z) (id : Z) : option bool :=
  let* i := search_lower_by (length v) (fun i => let* c := nth_error v i in Some (id <? c)) in
  let* first :=
    (if (i =? length v)%nat then Some false
     else
       let* c := nth_error v i in
       let* lo := range_min c in
       let* hi := range_max id in
       Some (lo <=? hi)) in
  if first then Some true
  else if (i =? 0)%nat then Some false
  else
    let* c := nth_error v (i - 1) in
    let* hi := range_max c in
    let* lo := range_min id in
    Some (hi >=? lo).

(* cellunion.rs:153-161 contains_cellid *)
Definition contains_cellid (v : list Z) (id : Z) : option bool :=
  let* i := search_lower_by (length v) (fun i => let* c := nth_error v i in Some (id <? c)) in
  let* first :=
    (if (i =? length v)%nat then Some false
     else
       let* c := nth_error v i in
       let* lo := range_min c in
       Some (lo <=? id)) in
  if first then Some true
  else if (i =? 0)%nat then Some false
  else
    let* c := nth_error v (i - 1) in
    let* hi := range_max c in
    Some (hi >=? id).

(* cellunion.rs:168-192 denormalize: the level an input cell is expanded to *)
Definition denorm_level (lv min_level level_mod : Z) : option Z :=
  let new_level := if lv <? min_level then min_level else lv in
  if 1 <? level_mod then
    let* a := sub64 new_level min_level in
    let* b := sub64 MAX_LEVEL a in
    let nl := new_level + b mod level_mod in
    Some (if MAX_LEVEL <? nl then MAX_LEVEL else nl)
  else Some new_level.

Fixpoint denormalize (fuel : nat) (v : list Z) (min_level level_mod : Z) : option (list Z) :=
  match v with
  | [] => Some []
  | id :: v' =>
    let* lv := level id in
    let* nl := denorm_level lv min_level level_mod in
    let* here := (if nl =? lv then Some [id] else child_iter_at_level fuel id nl) in
    let* rest := denormalize fuel v' min_level level_mod in
    Some (here ++ rest)
  end.

(* cellunion.rs:196-202 leaf_cell_covered *)
Fixpoint leaf_cell_covered_from (acc : Z) (v : list Z) : option Z :=
  match v with
  | [] => Some acc
  | c :: v' =>
    let* lv := level c in
    let* d := sub64 MAX_LEVEL lv in
    let* n := shl64 1 (2 * d) in
    let* acc' := add64 acc n in
    leaf_cell_covered_from acc' v'
  end.
Definition leaf_cell_covered (v : list Z) : option Z := leaf_cell_covered_from 0 v.

(* cellunion.rs:483-501 are_siblings *)
Definition are_siblings (a b c d : Z) : option bool :=
  if negb (Z.lxor (Z.lxor a b) c =? d) then Some false else
  let* mask := sibling_mask d in
  let m := Z.land d mask in
  if negb (Z.land a mask =? m) then Some false else
  if negb (Z.land b mask =? m) then Some false else
  if negb (Z.land c mask =? m) then Some false else
  let* fc := is_face d in
  Some (negb fc).

(* cellunion.rs:205-231 is_valid and is_normalized: the loop over i, with the
   already visited ids (last first) in [before] *)
Fixpoint check_loop (norm : bool) (before v : list Z) : option bool :=
  match v with
  | [] => Some true
  | c :: v' =>
    let* ok := is_valid c in
    if negb ok then Some false else
    let* overlap :=
      match before with
      | [] => Some false
      | p :: _ =>
        let* hi := range_max p in
        let* lo := range_min c in
        Some (hi >=? lo)
      end in
    if (overlap : bool) then Some false else
    let* sib :=
      (if norm then
         match before with
         | p1 :: p2 :: p3 :: _ => are_siblings p3 p2 p1 c
         | _ => Some false
         end
       else Some false) in
    if (sib : bool) then Some false else
    check_loop norm (c :: before) v'
  end.
Definition union_is_valid (v : list Z) : option bool := check_loop false [] v.
Definition is_normalized (v : list Z) : option bool := check_loop true [] v.

(* cellunion.rs:234-248 merge and union *)
Definition merge (us : list (list Z)) : option (list Z) := normalize (concat us).
Definition union (a b : list Z) : option (list Z) := merge [a; b].

(* slice::is_sorted *)
Fixpoint is_sorted (v : list Z) : bool :=
  match v with
  | a :: ((b :: _) as v') => (a <=? b) && is_sorted v'
  | _ => true
  end.

(* cellunion.rs:474-481 lower_bound_cellids; end is always len here *)
Fixpoint lower_bound_from (v : list Z) (i : nat) (id : Z) : nat :=
  match v with
  | [] => i
  | c :: v' => if c >=? id then i else lower_bound_from v' (S i) id
  end.
Definition lower_bound_cellids (v : list Z) (start : nat) (id : Z) : nat :=
  lower_bound_from (skipn start v) start id.

(* cellunion.rs:265-299: the while loop; results are accumulated last first *)
Fixpoint intersection_loop (fuel : nat) (x y : list Z) (i j : nat) (cu : list Z)
  : option (list Z) :=
  if (i <? length x)%nat && (j <? length y)%nat then
    match fuel with
    | O => None
    | S fuel' =>
      let* xi := nth_error x i in
      let* yj := nth_error y j in
      let* imin := range_min xi in
      let* jmin := range_min yj in
      if imin >? jmin then
        let* yhi := range_max yj in
        if xi <=? yhi then intersection_loop fuel' x y (S i) j (xi :: cu)
        else
          let j' := lower_bound_cellids y (S j) imin in
          let* yp := nth_error y (j' - 1) in
          let* yphi := range_max yp in
          intersection_loop fuel' x y i (if xi <=? yphi then (j' - 1)%nat else j') cu
      else if jmin >? imin then
        let* xhi := range_max xi in
        if yj <=? xhi then intersection_loop fuel' x y i (S j) (yj :: cu)
        else
          let i' := lower_bound_cellids x (S i) jmin in
          let* xp := nth_error x (i' - 1) in
          let* xphi := range_max xp in
          intersection_loop fuel' x y (if yj <=? xphi then (i' - 1)%nat else i') j cu
      else if xi <? yj then intersection_loop fuel' x y (S i) j (xi :: cu)
      else intersection_loop fuel' x y i (S j) (yj :: cu)
    end
  else Some cu.

(* `a || b` and `!a` on possibly panicking booleans *)
Definition oror (a b : option bool) : option bool :=
  let* x := a in if x then Some true else b.
Definition onot (a : option bool) : option bool := let* x := a in Some (negb x).

(* cellunion.rs:258-304 intersection with its debug assertions *)
Definition intersection (x y : list Z) : option (list Z) :=
  if negb (is_sorted x) then None else
  if negb (is_sorted y) then None else
  let* r := intersection_loop (length x + length y) x y 0 0 [] in
  let cu := rev r in
  if negb (is_sorted cu) then None else
  let* ok := oror (is_normalized cu) (oror (onot (is_normalized x)) (onot (is_normalized y))) in
  if ok then Some cu else None.

(* cellunion.rs:318-323: the while loop *)
Fixpoint take_le (v : list Z) (hi : Z) : list Z :=
  match v with
  | [] => []
  | c :: v' => if c <=? hi then c :: take_le v' hi else []
  end.

(* cellunion.rs:310-328 intersection_with_cell_id with its debug assertions *)
Definition intersection_with_cell_id (x : list Z) (id : Z) : option (list Z) :=
  let* ok := is_valid id in
  if negb ok then None else
  let* c := contains_cellid x id in
  let* out :=
    (if (c : bool) then Some [id]
     else
       let* hi := range_max id in
       let* lo := range_min id in
       let start := lower_bound_cellids x 0 lo in
       Some (take_le (skipn start x) hi)) in
  let* ok := oror (is_normalized out) (onot (is_normalized x)) in
  if ok then Some out else None.

(* cellunion.rs:503-523 cell_union_difference_internal; out last first *)
Fixpoint difference_internal (fuel : nat) (out : list Z) (id : Z) (other : list Z)
  : option (list Z) :=
  match fuel with
  | O => None
  | S fuel' =>
    let* i := intersects_cellid other id in
    if negb i then Some (id :: out) else
    let* c := contains_cellid other id in
    if (c : bool) then Some out else
    let* c0 := child_begin id in
    let* out := difference_internal fuel' out c0 other in
    let* c1 := next c0 in
    let* out := difference_internal fuel' out c1 other in
    let* c2 := next c1 in
    let* out := difference_internal fuel' out c2 other in
    let* c3 := next c2 in
    difference_internal fuel' out c3 other
  end.

Fixpoint difference_loop (out x other : list Z) : option (list Z) :=
  match x with
  | [] => Some out
  | id :: x' =>
    let* out' := difference_internal 32 out id other in
    difference_loop out' x' other
  end.

(* cellunion.rs:335-345 difference with its debug assertion *)
Definition difference (x y : list Z) : option (list Z) :=
  let* r := difference_loop [] x y in
  let cu := rev r in
  let* ok := oror (is_normalized cu) (onot (is_normalized x)) in
  if ok then Some cu else None.

(* cellunion.rs:348-355; Iterator::all and any stop at the first decisive item *)
Fixpoint contains_cell_union (v other : list Z) : option bool :=
  match other with
  | [] => Some true
  | id :: o' =>
    let* b := contains_cellid v id in
    if (b : bool) then contains_cell_union v o' else Some false
  end.
Fixpoint intersects_cell_union (v other : list Z) : option bool :=
  match v with
  | [] => Some false
  | id :: v' =>
    let* b := intersects_cellid other id in
    if (b : bool) then Some true else intersects_cell_union v' other
  end.
