(** Model of src/s1/interval.rs. *)
From Verif Require Import F64.

(* s1/interval.rs:34-39 *)
Record s1 := S1 { slo : f64; shi : f64 }.
(* s1/interval.rs:47-50 *)
Definition s1_EMPTY := S1 PI64 (fneg PI64).
Definition s1_FULL := S1 (fneg PI64) PI64.
(* s1/interval.rs:53-56 *)
Definition positive_distance (a b : f64) : f64 :=
  let d := fsub b a in
  if fge d f0 then d else fsub (fadd b PI64) (fsub a PI64).
(* s1/interval.rs:62-71 *)
Definition s1_new (lo hi : f64) : s1 :=
  S1 (if feq lo (fneg PI64) && fne hi PI64 then PI64 else lo)
     (if feq hi (fneg PI64) && fne lo PI64 then PI64 else hi).
(* s1/interval.rs:75-87; also :166-168: -PI is replaced by PI *)
Definition norm_pi (p : f64) : f64 := if feq p (fneg PI64) then PI64 else p.
Definition s1_from_point_pair (a b : f64) : s1 :=
  let a := norm_pi a in
  let b := norm_pi b in
  if fle (positive_distance a b) PI64 then S1 a b else S1 b a.
(* s1/interval.rs:90-95 *)
Definition s1_is_valid (i : s1) : bool :=
  fle (fabs (slo i)) PI64 && fle (fabs (shi i)) PI64
  && negb (feq (slo i) (fneg PI64) && fne (shi i) PI64)
  && negb (feq (shi i) (fneg PI64) && fne (slo i) PI64).
(* s1/interval.rs:34 derived PartialEq *)
Definition s1_eq (i o : s1) : bool := feq (slo i) (slo o) && feq (shi i) (shi o).
(* s1/interval.rs:98-110 *)
Definition s1_is_full (i : s1) : bool := s1_eq i s1_FULL.
Definition s1_is_empty (i : s1) : bool := s1_eq i s1_EMPTY.
Definition s1_is_inverted (i : s1) : bool := fgt (slo i) (shi i).
(* s1/interval.rs:113-118 *)
Definition s1_invert (i : s1) : s1 := S1 (shi i) (slo i).
(* s1/interval.rs:122-131 *)
Definition s1_center (i : s1) : f64 :=
  let c := fmul fhalf (fadd (slo i) (shi i)) in
  if negb (s1_is_inverted i) then c
  else if fle c f0 then fadd c PI64
  else fsub c PI64.
(* s1/interval.rs:135-145 *)
Definition s1_len (i : s1) : f64 :=
  let l := fsub (shi i) (slo i) in
  if fge l f0 then l
  else let l := fadd l (fmul f2 PI64) in
       if fgt l f0 then l else lit (-1) 0.
(* s1/interval.rs:149-155 *)
Definition s1_fast_contains (i : s1) (p : f64) : bool :=
  if s1_is_inverted i then (fge p (slo i) || fle p (shi i)) && negb (s1_is_empty i)
  else fge p (slo i) && fle p (shi i).
(* s1/interval.rs:159-164 *)
Definition s1_contains (i : s1) (p : f64) : bool := s1_fast_contains i (norm_pi p).
(* s1/interval.rs:167-179 *)
Definition s1_contains_interval (i o : s1) : bool :=
  if s1_is_inverted i then
    if s1_is_inverted o then fge (slo o) (slo i) && fle (shi o) (shi i)
    else (fge (slo o) (slo i) || fle (shi o) (shi i)) && negb (s1_is_empty i)
  else if s1_is_inverted o then s1_is_full i || s1_is_empty o
  else fge (slo o) (slo i) && fle (shi o) (shi i).
(* s1/interval.rs:183-192 *)
Definition s1_interior_contains (i : s1) (p : f64) : bool :=
  let p := norm_pi p in
  if s1_is_inverted i then fgt p (slo i) || flt p (shi i)
  else (fgt p (slo i) && flt p (shi i)) || s1_is_full i.
(* s1/interval.rs:195-207 *)
Definition s1_interior_contains_interval (i o : s1) : bool :=
  if s1_is_inverted i then
    if s1_is_inverted o then (fgt (slo o) (slo i) && flt (shi o) (shi i)) || s1_is_empty o
    else fgt (slo o) (slo i) || flt (shi o) (shi i)
  else if s1_is_inverted o then s1_is_full i || s1_is_empty o
  else (fgt (slo o) (slo i) && flt (shi o) (shi i)) || s1_is_full i.
(* s1/interval.rs:210-220 *)
Definition s1_intersects (i o : s1) : bool :=
  if s1_is_empty i || s1_is_empty o then false
  else if s1_is_inverted i then s1_is_inverted o || fle (slo o) (shi i) || fge (shi o) (slo i)
  else if s1_is_inverted o then fle (slo o) (shi i) || fge (shi o) (slo i)
  else fle (slo o) (shi i) && fge (shi o) (slo i).
(* s1/interval.rs:224-234 *)
Definition s1_interior_intersects (i o : s1) : bool :=
  if s1_is_empty i || s1_is_empty o || feq (slo i) (shi i) then false
  else if s1_is_inverted i then s1_is_inverted o || flt (slo o) (shi i) || fgt (shi o) (slo i)
  else if s1_is_inverted o then flt (slo o) (shi i) || fgt (shi o) (slo i)
  else (flt (slo o) (shi i) && fgt (shi o) (slo i)) || s1_is_full i.
(* s1/interval.rs:237-276 *)
Definition s1_union (i o : s1) : s1 :=
  if s1_is_empty o then i
  else if s1_fast_contains i (slo o) then
    if s1_fast_contains i (shi o) then
      if s1_contains_interval i o then i else s1_FULL
    else S1 (slo i) (shi o)
  else if s1_fast_contains i (shi o) then S1 (slo o) (shi i)
  else if s1_is_empty i || s1_fast_contains o (slo i) then o
  else if flt (positive_distance (shi o) (slo i)) (positive_distance (shi i) (slo o))
  then S1 (slo o) (shi i)
  else S1 (slo i) (shi o).
(* s1/interval.rs:277-310 *)
Definition s1_intersection (i o : s1) : s1 :=
  if s1_is_empty o then s1_EMPTY
  else if s1_fast_contains i (slo o) then
    if s1_fast_contains i (shi o) then
      if flt (s1_len o) (s1_len i) then o else i
    else S1 (slo o) (shi i)
  else if s1_fast_contains i (shi o) then S1 (slo i) (shi o)
  else if s1_fast_contains o (slo i) then i
  else s1_EMPTY.
(* s1/interval.rs:353-363 *)
Definition s1_complement (i : s1) : s1 :=
  if feq (slo i) (shi i) then s1_FULL else S1 (shi i) (slo i).
(* s1/interval.rs:368-376 *)
Definition s1_complement_center (i : s1) : f64 :=
  if fne (slo i) (shi i) then s1_center (s1_complement i)
  else if fle (shi i) f0 then fadd (shi i) PI64
  else fsub (shi i) PI64.
(* s1/interval.rs:440-469 Add<f64> *)
Definition s1_add (i : s1) (p : f64) : s1 :=
  if fgt (fabs p) PI64 then i
  else
    let p := norm_pi p in
    if s1_fast_contains i p then i
    else if s1_is_empty i then S1 p p
    else if flt (positive_distance p (slo i)) (positive_distance (shi i) p)
    then S1 p (shi i)
    else S1 (slo i) p.
