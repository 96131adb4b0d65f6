(** C110-C111: the frames of the faces; the larger and the smaller of two. *)
From Coq Require Import ZArith Reals Lra Lia Psatz Bool List.
From Flocq Require Import Core.
From Verif Require Import Base Spec F64 F64Facts IntervalSpec F64Arith F64Error S1Proofs R1Model S1Model VectorModel StuvModel AngleModel AngleProofs CellModel StuvError CellPoint
  CapSpec CapModel CapCell R1Proofs.
Import ListNotations.
Open Scope R_scope.
Local Notation Z := BinInt.Z.

(** ** C110: the frame of a face *)
Definition RVec (v : vec) : pos := Pos (B2R (vx v)) (B2R (vy v)) (B2R (vz v)).
Definition inner (a b : pos) : R := px3 a * px3 b + py3 a * py3 b + pz3 a * pz3 b.
Definition outer (a b : pos) : pos := Pos (py3 a * pz3 b - pz3 a * py3 b) (pz3 a * px3 b - px3 a * pz3 b) (px3 a * py3 b - py3 a * px3 b).
(* n + u a + v b *)
Definition combo (n a b : pos) (u v : R) : pos := Pos (px3 n + u * px3 a + v * px3 b) (py3 n + u * py3 a + v * py3 b) (pz3 n + u * pz3 a + v * pz3 b).

Lemma face6 f : (0 <= f < 6)%Z -> f = 0%Z \/ f = 1%Z \/ f = 2%Z \/ f = 3%Z \/ f = 4%Z \/ f = 5%Z. Proof. lia. Qed.
Lemma ints : B2R (of_int 0) = 0 /\ B2R (of_int 1) = 1 /\ B2R (of_int (-1)) = -1.
Proof. destruct (of_int_val 0 ltac:(lia)) as [_ A]. destruct (of_int_val 1 ltac:(lia)) as [_ B]. destruct (of_int_val (-1) ltac:(lia)) as [_ C]. auto. Qed.
Theorem C110_frame : forall f, (0 <= f < 6)%Z -> exists U V N, u_axis f = Some U /\ v_axis f = Some V /\ unit_norm f = Some N /\
  inner (RVec U) (RVec U) = 1 /\ inner (RVec V) (RVec V) = 1 /\ inner (RVec U) (RVec V) = 0 /\ outer (RVec U) (RVec V) = RVec N /\
  (forall u v, face_pos f u v = combo (RVec N) (RVec U) (RVec V) u v) /\
  (forall u v : f64, finite u -> finite v -> exists p, face_uv_to_xyz f u v = Some p /\ RVec p = combo (RVec N) (RVec U) (RVec V) (B2R u) (B2R v)) /\
  (forall p, finite (vx p) -> finite (vy p) -> finite (vz p) -> exists w, face_xyz_to_uvw f p = Some w /\
     RVec w = Pos (inner (RVec p) (RVec U)) (inner (RVec p) (RVec V)) (inner (RVec p) (RVec N))).
Proof.
  intros f Hf. destruct ints as (I0 & I1 & I2). destruct f1_val as [F1 V1]. destruct (fneg_val f1 F1) as [_ Vn].
  destruct (face6 f Hf) as [-> | [-> | [-> | [-> | [-> | ->]]]]]; eexists _, _, _; (split; [reflexivity|]); (split; [reflexivity|]); (split; [reflexivity|]);
    unfold inner, outer, combo, RVec; cbn [vx vy vz px3 py3 pz3]; rewrite ?I0, ?I1, ?I2;
    (split; [lra|]); (split; [lra|]); (split; [lra|]); (split; [f_equal; lra|]); (split; [intros u v; unfold face_pos; cbn [Z.eqb Pos.eqb]; f_equal; lra|]); split.
  all: try (intros u v Fu Fv; destruct (fneg_val u Fu) as [_ Nu]; destruct (fneg_val v Fv) as [_ Nv]; unfold face_uv_to_xyz; cbn [Z.eqb Pos.eqb]; eexists; (split; [reflexivity|]); cbn [vx vy vz]; rewrite ?Nu, ?Nv, ?Vn, ?V1; f_equal; lra).
  all: intros p Fx Fy Fz; destruct (fneg_val _ Fx) as [_ Nx]; destruct (fneg_val _ Fy) as [_ Ny]; destruct (fneg_val _ Fz) as [_ Nz]; unfold face_xyz_to_uvw; cbn [Z.eqb Pos.eqb]; eexists; (split; [reflexivity|]); cbn [vx vy vz]; rewrite ?Nx, ?Ny, ?Nz; f_equal; lra.
Qed.
Print Assumptions C110_frame.
(* the face that lies in the direction of an axis (direction 1) or against it (direction 0) *)
Theorem C110_uvw_face : forall f a d, (0 <= f < 6)%Z -> (0 <= a < 3)%Z -> (0 <= d < 2)%Z ->
  exists g A N, uvw_face f a d = Some g /\ (0 <= g < 6)%Z /\ uvw_axis f a = Some A /\ unit_norm g = Some N /\
    RVec N = (if (d =? 1)%Z then RVec A else Pos (- px3 (RVec A)) (- py3 (RVec A)) (- pz3 (RVec A))).
Proof.
  intros f a d Hf Ha Hd. destruct ints as (I0 & I1 & I2). assert (Ha' : a = 0%Z \/ a = 1%Z \/ a = 2%Z) by lia. assert (Hd' : d = 0%Z \/ d = 1%Z) by lia.
  destruct (face6 f Hf) as [-> | [-> | [-> | [-> | [-> | ->]]]]]; destruct Ha' as [-> | [-> | ->]]; destruct Hd' as [-> | ->]; eexists _, _, _;
    (split; [reflexivity|]); (split; [lia|]); (split; [reflexivity|]); (split; [reflexivity|]); unfold RVec; cbn [vx vy vz px3 py3 pz3 Z.eqb Pos.eqb]; rewrite ?I0, ?I1, ?I2; f_equal; lra.
Qed.
Print Assumptions C110_uvw_face.
Example C110_example : uvw_face 4 0 1 = Some 5%Z /\ uvw_face 4 0 0 = Some 2%Z. Proof. split; reflexivity. Qed.

(** ** C111: the larger and the smaller of two *)
Theorem C111_max_min : forall a b : f64, number a -> number b ->
  let big m := (m = a \/ m = b) /\ ele (ev a) (ev m) /\ ele (ev b) (ev m) in
  let small m := (m = a \/ m = b) /\ ele (ev m) (ev a) /\ ele (ev m) (ev b) in
  big (angle_max a b) /\ small (angle_min a b) /\ big (chord_max a b).
Proof.
  intros a b Na Nb. cbv zeta. unfold angle_max, angle_min, chord_max, fgt. rewrite !flt_rank by auto.
  assert (R : forall x y, number x -> number y -> (rank x <= rank y)%Z -> ele (ev x) (ev y)) by (intros x y X Y H; apply ev_rank; auto).
  repeat split; destruct (Z.ltb_spec (rank a) (rank b)); destruct (Z.ltb_spec (rank b) (rank a)); auto; try apply R; auto; lia.
Qed.
Print Assumptions C111_max_min.
Example C111_example : number f1 /\ number f2 /\ angle_max f1 f2 = f2 /\ angle_min f1 f2 = f1 /\ chord_max f1 f2 = f2.
Proof. repeat split. Qed.

