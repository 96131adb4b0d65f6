(** Model of src/s2/stuv.rs: the maps between points of the sphere, faces of the
    cube and the (s,t) and (u,v) coordinates.  Line numbers refer to that file.

    A face is a u8; `unimplemented!()` for a face above 5 is [None]. *)
From Verif Require Import F64 VectorModel.
Open Scope Z_scope.

(* f64::floor *)
Definition ffloor (x : f64) : f64 := Bnearbyint mode_DN x.

(* stuv.rs:5, cellid.rs:61 *)
Definition MAX_SITI : Z := 2 ^ 31.

(* stuv.rs:7-13 siti_to_st *)
Definition siti_to_st (si : Z) : f64 :=
  if MAX_SITI <? si then f1 else fdiv (of_int si) (of_int MAX_SITI).

(* stuv.rs:24-30 st_to_uv *)
Definition third : f64 := fdiv f1 (of_int 3).
Definition f4 : f64 := of_int 4.
Definition st_to_uv (s : f64) : f64 :=
  if fge s fhalf then fmul third (fsub (fmul (fmul f4 s) s) f1)
  else fmul third (fsub f1 (fmul (fmul f4 (fsub f1 s)) (fsub f1 s))).

(* stuv.rs:32-38 uv_to_st *)
Definition f3 : f64 := of_int 3.
Definition uv_to_st (u : f64) : f64 :=
  if fge u f0 then fmul fhalf (fsqrt (fadd f1 (fmul f3 u)))
  else fsub f1 (fmul fhalf (fsqrt (fsub f1 (fmul f3 u)))).

(* stuv.rs:40-56 face *)
Definition face (r : vec) : Z :=
  let a := vabs r in
  let '(id, value) := if fgt (vy a) (vx a) then (1, vy r) else (0, vx r) in
  let '(id, value) := if fgt (vz a) (fabs value) then (2, vz r) else (id, value) in
  if flt value f0 then id + 3 else id.

(* stuv.rs:58-68 valid_face_xyz_to_uv *)
Definition valid_face_xyz_to_uv (f : Z) (r : vec) : option (f64 * f64) :=
  if f =? 0 then Some (fdiv (vy r) (vx r), fdiv (vz r) (vx r))
  else if f =? 1 then Some (fdiv (fneg (vx r)) (vy r), fdiv (vz r) (vy r))
  else if f =? 2 then Some (fdiv (fneg (vx r)) (vz r), fdiv (fneg (vy r)) (vz r))
  else if f =? 3 then Some (fdiv (vz r) (vx r), fdiv (vy r) (vx r))
  else if f =? 4 then Some (fdiv (vz r) (vy r), fdiv (fneg (vx r)) (vy r))
  else if f =? 5 then Some (fdiv (fneg (vy r)) (vz r), fdiv (fneg (vx r)) (vz r))
  else None.

(* stuv.rs:70-74 xyz_to_face_uv *)
Definition xyz_to_face_uv (r : vec) : option (Z * f64 * f64) :=
  let f := face r in
  let* (u, v) := valid_face_xyz_to_uv f r in
  Some (f, u, v).

(* stuv.rs:76-86 face_uv_to_xyz *)
Definition face_uv_to_xyz (f : Z) (u v : f64) : option vec :=
  let m1 := fneg f1 in
  if f =? 0 then Some (Vec f1 u v)
  else if f =? 1 then Some (Vec (fneg u) f1 v)
  else if f =? 2 then Some (Vec (fneg u) (fneg v) f1)
  else if f =? 3 then Some (Vec m1 (fneg v) (fneg u))
  else if f =? 4 then Some (Vec v m1 (fneg u))
  else if f =? 5 then Some (Vec v u m1)
  else None.

(* stuv.rs:88-103 face_xyz_to_uv; the outer option is the panic, the inner one the
   value returned *)
Definition face_xyz_to_uv (f : Z) (p : vec) : option (option (f64 * f64)) :=
  let* invalid :=
    (if f =? 0 then Some (fle (vx p) f0)
     else if f =? 1 then Some (fle (vy p) f0)
     else if f =? 2 then Some (fle (vz p) f0)
     else if f =? 3 then Some (fge (vx p) f0)
     else if f =? 4 then Some (fge (vy p) f0)
     else if f =? 5 then Some (fge (vz p) f0)
     else None) in
  if invalid : bool then Some None
  else let* uv := valid_face_xyz_to_uv f p in Some (Some uv).

(* stuv.rs:106-117 face_xyz_to_uvw *)
Definition face_xyz_to_uvw (f : Z) (v : vec) : option vec :=
  if f =? 0 then Some (Vec (vy v) (vz v) (vx v))
  else if f =? 1 then Some (Vec (fneg (vx v)) (vz v) (vy v))
  else if f =? 2 then Some (Vec (fneg (vx v)) (fneg (vy v)) (vz v))
  else if f =? 3 then Some (Vec (fneg (vz v)) (fneg (vy v)) (fneg (vx v)))
  else if f =? 4 then Some (Vec (fneg (vz v)) (vx v) (fneg (vy v)))
  else if f =? 5 then Some (Vec (vy v) (vx v) (fneg (vz v)))
  else None.

(* stuv.rs:163-173 unorm *)
Definition unorm (f : Z) (u : f64) : option vec :=
  let m1 := fneg f1 in
  if f =? 0 then Some (Vec u m1 f0)
  else if f =? 1 then Some (Vec f1 u f0)
  else if f =? 2 then Some (Vec f1 f0 u)
  else if f =? 3 then Some (Vec (fneg u) f0 f1)
  else if f =? 4 then Some (Vec f0 (fneg u) f1)
  else if f =? 5 then Some (Vec f0 m1 (fneg u))
  else None.

(* stuv.rs:175-185 vnorm *)
Definition vnorm (f : Z) (v : f64) : option vec :=
  let m1 := fneg f1 in
  if f =? 0 then Some (Vec (fneg v) f0 f1)
  else if f =? 1 then Some (Vec f0 (fneg v) f1)
  else if f =? 2 then Some (Vec f0 m1 (fneg v))
  else if f =? 3 then Some (Vec v m1 f0)
  else if f =? 4 then Some (Vec f1 v f0)
  else if f =? 5 then Some (Vec f1 f0 v)
  else None.

(* stuv.rs:202-209 FACE_UVW_AXES; an axis is given by its three integer coordinates *)
Definition FACE_UVW_AXES : list (list (Z * Z * Z)) :=
  [[(0, 1, 0); (0, 0, 1); (1, 0, 0)];
   [(-1, 0, 0); (0, 0, 1); (0, 1, 0)];
   [(-1, 0, 0); (0, -1, 0); (0, 0, 1)];
   [(0, 0, -1); (0, -1, 0); (-1, 0, 0)];
   [(0, 0, -1); (1, 0, 0); (0, -1, 0)];
   [(0, 1, 0); (1, 0, 0); (0, 0, -1)]].
(* stuv.rs:211-218 FACE_UVW_FACES *)
Definition FACE_UVW_FACES : list (list (list Z)) :=
  [[[4; 1]; [5; 2]; [3; 0]];
   [[0; 3]; [5; 2]; [4; 1]];
   [[0; 3]; [1; 4]; [5; 2]];
   [[2; 5]; [1; 4]; [0; 3]];
   [[2; 5]; [3; 0]; [1; 4]];
   [[4; 1]; [3; 0]; [2; 5]]].
Definition index {A} (l : list A) (i : Z) : option A :=
  if i <? 0 then None else nth_error l (Z.to_nat i).
(* stuv.rs:220-222 uvw_axis, the V! macro converting the literals to f64 *)
Definition uvw_axis (f a : Z) : option vec :=
  let* row := index FACE_UVW_AXES f in
  let* p := index row a in
  let '(x, y, z) := p in
  Some (Vec (of_int x) (of_int y) (of_int z)).
(* stuv.rs:224-226 uvw_face *)
Definition uvw_face (f a d : Z) : option Z :=
  let* row := index FACE_UVW_FACES f in
  let* r := index row a in
  index r d.
(* stuv.rs:228-234 u_axis, v_axis; 237-239 unit_norm *)
Definition u_axis (f : Z) : option vec := uvw_axis f 0.
Definition v_axis (f : Z) : option vec := uvw_axis f 1.
Definition unit_norm (f : Z) : option vec := uvw_axis f 2.
