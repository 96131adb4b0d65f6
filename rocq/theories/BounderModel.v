(** Model of the bounder of a chain of edges, src/s2/rect_bounder.rs.  The library's atan2,
    asin and sin are the parameters [fatan2], [fasin] and [fsin]. *)
From Verif Require Import Base F64 AngleModel VectorModel R1Model S1Model RectModel TrigModel.

(* rect_bounder.rs:43-66 Vertex, RectBounder: the last vertex and its latitude and longitude,
   and the bound so far *)
Record bounder := Bounder { bprev : option (vec * latlng); bbound : rect }.
(* rect_bounder.rs:75-80 new *)
Definition bounder_new : bounder := Bounder None rect_empty.

(* rect_bounder.rs:110 1.91346e-15 *)
Definition NORM_LIMIT : f64 := lit 0x113c236bd99808 (-101).
(* rect_bounder.rs:157 m_error *)
Definition side_error (n_norm : f64) : f64 := fadd (fmul (lit 0x15db3f7aae0025 (-103)) n_norm) (lit 0x1bb67c037a49eb (-153)).
(* rect_bounder.rs:95 n, twice the cross product of the ends *)
Definition edge_normal (a b : vec) : vec := cross (vsub a b) (vadd a b).
(* rect_bounder.rs:126-134 the longitudes of an edge *)
Definition edge_lng (p q : latlng) : s1 :=
  let i := s1_from_point_pair (lng p) (lng q) in
  if fge (s1_len i) (fsub PI64 (fmul f2 DBL_EPSILON)) then s1_FULL else i.
(* rect_bounder.rs:178-180 max_lat *)
Definition edge_max_lat (fatan2 : f64 -> f64 -> f64) (n : vec) : f64 :=
  fmin (fadd (fatan2 (fsqrt (fadd (fmul (vx n) (vx n)) (fmul (vy n) (vy n)))) (fabs (vz n))) (fmul (lit 3 0) DBL_EPSILON)) FRAC_PI_2.
(* rect_bounder.rs:191-195 max_delta, where [len] is the length of the latitudes of the ends *)
Definition edge_max_delta (fsin fasin : f64 -> f64) (a b : vec) (max_lat len : f64) : f64 :=
  let z := fmul (fmul fhalf (norm (vsub a b))) (fsin max_lat) in
  let budget := fmul f2 (fasin (fmin (fmul (fadd f1 (fmul (lit 4 0) DBL_EPSILON)) z) f1)) in
  fadd (fmul fhalf (fsub budget len)) DBL_EPSILON.
(* rect_bounder.rs:136-206 the latitudes of an edge *)
Definition edge_lat (fsin fasin : f64 -> f64) (fatan2 : f64 -> f64 -> f64) (a b n : vec) (n_norm : f64) (p q : latlng) : r1 :=
  let i := r1_from_point_pair (lat p) (lat q) in
  let m := cross n (Vec f0 f0 f1) in
  let m_a := dot m a in
  let m_b := dot m b in
  let m_error := side_error n_norm in
  if flt (fmul m_a m_b) f0 || fle (fabs m_a) m_error || fle (fabs m_b) m_error then
    let max_lat := edge_max_lat fatan2 n in
    let max_delta := edge_max_delta fsin fasin a b max_lat (r1_len i) in
    let hi := if fle m_a m_error && fge m_b (fneg m_error) then fmin max_lat (fadd (hi1 i) max_delta) else hi1 i in
    let lo := if fle m_b m_error && fge m_a (fneg m_error) then fmax (fneg max_lat) (fsub (lo1 i) max_delta) else lo1 i in
    R1 lo hi
  else i.
(* rect_bounder.rs:90-213 the bound after an edge from [a], whose latitude and longitude is [p],
   to [b], whose is [q] *)
Definition edge_bound (fsin fasin : f64 -> f64) (fatan2 : f64 -> f64 -> f64) (bound : rect) (a : vec) (p : latlng) (b : vec) (q : latlng) : rect :=
  let n := edge_normal a b in
  let n_norm := norm n in
  if flt n_norm NORM_LIMIT then
    if flt (dot a b) f0 then rect_full else rect_union bound (rect_from_point_pair p q)
  else rect_union bound (Rect (edge_lat fsin fasin fatan2 a b n n_norm p q) (edge_lng p q)).
(* rect_bounder.rs:83-223 add_point *)
Definition bounder_add (fsin fasin : f64 -> f64) (fatan2 : f64 -> f64 -> f64) (s : bounder) (b : vec) : bounder :=
  let q := ll_of_point fatan2 b in
  let bound := match bprev s with
               | None => rect_add (bbound s) q
               | Some (a, p) => edge_bound fsin fasin fatan2 (bbound s) a p b q
               end in
  Bounder (Some (b, q)) bound.
(* the points of a chain, one after the other *)
Definition bounder_chain (fsin fasin : f64 -> f64) (fatan2 : f64 -> f64 -> f64) (ps : list vec) : bounder :=
  List.fold_left (bounder_add fsin fasin fatan2) ps bounder_new.
(* rect_bounder.rs:226-250 get_bound *)
Definition bounder_get (s : bounder) : rect := rect_polar_closure (rect_expanded (bbound s) (LL (fmul f2 DBL_EPSILON) f0)).
