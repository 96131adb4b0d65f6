(** C79: caps and cells. *)
From Coq Require Import Reals Lra Lia Psatz Bool List.
From Flocq Require Import Core Sterbenz Mult_error.
From Verif Require Import Base Spec F64 F64Facts IntervalSpec F64Arith F64Error F64Neg S1Proofs VectorModel StuvModel R1Model
  CellIdModel CellIdArith CellIdProofs HilbertSpec HilbertGeom CellModel StuvError CellLattice CellProofs CellPoint CellVertex
  PredicatesFloat CapSpec CapModel ChordProofs CapProofs CapError PropsCap NormProofs CapCell CapEdge CapEdgeFloat CapEdgeMain.
Import ListNotations.
Open Scope R_scope.

(* the part of the sphere below the (u,v) rectangle of a cell *)
Definition cell_patch (s : s2cell) (d : pos) : Prop :=
  in_patch (c_face s) (B2R (lo1 (rx (c_uv s)))) (B2R (hi1 (rx (c_uv s)))) (B2R (lo1 (ry (c_uv s)))) (B2R (hi1 (ry (c_uv s)))) d.

(* the predicates return, and a cap that contains a cell contains its vertices and meets it *)
Theorem C79_answers : forall c s cp, wf c -> cell_from_cellid (code c) = Some s ->
  (exists b, cap_contains_cell cp s = Some b) /\ (exists b, cap_intersects_cell cp s = Some b) /\
  (cap_contains_cell cp s = Some true -> cap_intersects_cell cp s = Some true /\
     forall k p, (0 <= k < 4)%Z -> cell_vertex s k = Some p -> cap_contains_point cp p = true).
Proof.
  intros c s cp W E. rewrite (cell_from_ok c W) in E. apply Some_inj in E. subst s.
  destruct (cell_vertices_ok c W) as (p0 & p1 & p2 & p3 & E & V0 & V1 & V2 & V3).
  unfold cap_contains_cell, cap_intersects_cell. rewrite E.
  destruct (icv_ans cp c p0 p1 p2 p3 W) as [b1 I1]. destruct (icv_ans (cap_complement cp) c p0 p1 p2 p3 W) as [b2 I2]. rewrite I1, I2.
  split; [destruct (forallb _ _); eauto|]. split; [destruct (existsb _ _); eauto|].
  destruct (forallb (cap_contains_point cp) [p0; p1; p2; p3]) eqn:A; [|discriminate]. intros _.
  cbn [forallb] in A. rewrite !andb_true_iff in A. destruct A as (A0 & A1 & A2 & A3 & _). split; [cbn [existsb]; rewrite A0; reflexivity|].
  intros k p Hk Ek. assert (K : (k = 0 \/ k = 1 \/ k = 2 \/ k = 3)%Z) by lia.
  destruct K as [-> | [-> | [-> | ->]]]; rewrite Ek in *; [apply Some_inj in V0|apply Some_inj in V1|apply Some_inj in V2|apply Some_inj in V3]; subst p; assumption.
Qed.
Print Assumptions C79_answers.

(* the exact corner of a vertex is in the patch, close to the vertex *)
Lemma corner_in_patch c k p : wf c -> (0 <= k < 4)%Z -> cell_vertex (cell_of c) k = Some p ->
  is_unit p = true /\ exists d, cell_patch (cell_of c) d /\ forall x, on_sphere x -> Rabs (dist2 x d - dist2 x (direction p)) <= 4 / 100000000000000.
Proof.
  intros W Hk E. destruct (vertex_dot c k p W Hk E) as (UU & BL & ND). split; [exact UU|].
  pose proof W as WW. destruct (sq_aligned c WW) as ((_ & P & _ & _ & B1 & B2 & B3 & B4) & F & S).
  assert (Mono : forall a b, (0 <= a)%Z -> (a <= b)%Z -> (b <= 2 ^ 31)%Z -> B2R (uvl a) <= B2R (uvl b)).
  { intros a b Ha Hb Hc. destruct (uvl_val a ltac:(lia)) as (Fa & _). destruct (uvl_val b ltac:(lia)) as (Fb & _).
    pose proof (uvl_le a b ltac:(lia) ltac:(lia)) as L'. destruct (fle_R _ _ Fa Fb) as [|]; [assumption|]. symmetry in L'. apply Z.leb_gt in L'. lia. }
  assert (Ri : (sq_i (sq c) <= cor_i (sq c) k <= sq_i (sq c) + sq_side (sq c))%Z) by (unfold cor_i; destruct ((k =? 1) || (k =? 2))%Z; lia).
  assert (Rj : (sq_j (sq c) <= cor_j (sq c) k <= sq_j (sq c) + sq_side (sq c))%Z) by (unfold cor_j; destruct (2 <=? k)%Z; lia).
  pose proof (Mono (2 * sq_i (sq c))%Z (2 * cor_i (sq c) k)%Z ltac:(lia) ltac:(lia) ltac:(lia)) as M1.
  pose proof (Mono (2 * cor_i (sq c) k)%Z (2 * (sq_i (sq c) + sq_side (sq c)))%Z ltac:(lia) ltac:(lia) ltac:(lia)) as M2.
  pose proof (Mono (2 * sq_j (sq c))%Z (2 * cor_j (sq c) k)%Z ltac:(lia) ltac:(lia) ltac:(lia)) as M3.
  pose proof (Mono (2 * cor_j (sq c) k)%Z (2 * (sq_j (sq c) + sq_side (sq c)))%Z ltac:(lia) ltac:(lia) ltac:(lia)) as M4.
  set (U := B2R (uvl (2 * cor_i (sq c) k))) in *. set (V := B2R (uvl (2 * cor_j (sq c) k))) in *.
  set (w := face_pos (face_of c) U V) in *. set (l := L U V) in *. pose proof (L_sq U V) as LS. fold l in LS.
  assert (Q : 0 < / l) by (apply Rinv_0_lt_compat; lra).
  set (d := Pos (/ l * px3 w) (/ l * py3 w) (/ l * pz3 w)).
  assert (Sd : on_sphere d).
  { unfold on_sphere, d. cbn [px3 py3 pz3]. replace (/ l * px3 w * (/ l * px3 w) + / l * py3 w * (/ l * py3 w) + / l * pz3 w * (/ l * pz3 w)) with
      (/ l * / l * (px3 w * px3 w + py3 w * py3 w + pz3 w * pz3 w)) by ring. unfold w. rewrite face_pos_len, <- LS. field. lra. }
  exists d. split.
  - split; [exact Sd|]. exists U, V, (/ l). split; [split; assumption|]. split; [split; assumption|]. split; [exact Q|]. repeat split.
  - intros x Sx. specialize (ND x Sx). pose proof (unit_sphere _ UU) as Sp. rewrite !dist2_dot by auto.
    assert (ED : rdot x d = / l * rdot x w) by (unfold rdot, d; cbn [px3 py3 pz3]; ring). rewrite ED.
    replace (2 - 2 * (/ l * rdot x w) - (2 - 2 * rdot x (direction p))) with (2 * (/ l * (l * rdot x (direction p) - rdot x w))) by (field; lra).
    rewrite Rabs_mult, (Rabs_pos_eq 2) by lra. rewrite Rabs_mult, (Rabs_pos_eq (/ l)) by lra.
    assert (/ l <= 1) by (rewrite <- Rinv_1; apply Rinv_le_contravar; lra).
    pose proof (Rabs_pos (l * rdot x (direction p) - rdot x w)). nra.
Qed.

(* contains_cell for a cap up to a hemisphere *)
Lemma contains_small : forall c s cp, wf c -> cell_from_cellid (code c) = Some s -> valid_cap cp -> 0 <= B2R (radius cp) <= 2 ->
  (cap_contains_cell cp s = Some true -> forall d, cell_patch s d -> in_disc (center cp) (B2R (radius cp) + 1 / 2 ^ 39) d) /\
  (cap_contains_cell cp s = Some false -> exists d, cell_patch s d /\ ~ in_disc (center cp) (B2R (radius cp) - 1 / 2 ^ 39) d).
Proof.
  intros c s cp W E VC HR. rewrite (cell_from_ok c W) in E. apply Some_inj in E. subst s.
  destruct (cell_vertices_ok c W) as (p0 & p1 & p2 & p3 & E & V0 & V1 & V2 & V3).
  destruct (valid_cap_facts cp VC) as (Uc & Fv & Fr & Br). pose proof (unit_sphere _ Uc) as Sc.
  unfold cap_contains_cell. rewrite E. destruct (forallb (cap_contains_point cp) [p0; p1; p2; p3]) eqn:A.
  - assert (NI : intersects_cell_vertices (cap_complement cp) (cell_of c) [p0; p1; p2; p3] = Some false).
    { unfold intersects_cell_vertices, cap_complement. destruct (full_R cp Fr) as [|_]; [lra|]. destruct (empty_R cp Fr) as [|_]; [lra|]. cbn [radius].
      rewrite right_complement by auto. reflexivity. }
    rewrite NI. split; [|discriminate]. intros _ d PD. rewrite forallb_forall in A. split; [apply PD|].
    assert (T : 1 - B2R (radius cp) / 2 - 2 * (1 / 2 ^ 42) - 2 / 100000000000000 <= rdot (direction (center cp)) d).
    { apply (vertices_patch c _ _ (1 / 2 ^ 42) p0 p1 p2 p3 W Sc); auto; try lra. intros p I Up.
      destruct (C78_contains_point cp p VC Up) as [C _]. specialize (C (A p I)). rewrite dist2_dot in C by (auto; apply unit_sphere; auto). lra. }
    rewrite dist2_dot by (auto; apply PD). lra.
  - split; [discriminate|]. intros _.
    assert (X : exists k p, (0 <= k < 4)%Z /\ cell_vertex (cell_of c) k = Some p /\ cap_contains_point cp p = false).
    { cbn [forallb] in A. destruct (cap_contains_point cp p0) eqn:A0; [|exists 0%Z, p0; auto with zarith]. destruct (cap_contains_point cp p1) eqn:A1; [|exists 1%Z, p1; auto with zarith].
      destruct (cap_contains_point cp p2) eqn:A2; [|exists 2%Z, p2; auto with zarith]. destruct (cap_contains_point cp p3) eqn:A3; [discriminate|exists 3%Z, p3; auto with zarith]. }
    destruct X as (k & p & Hk & Ek & N). destruct (corner_in_patch c k p W Hk Ek) as (Up & d & PD & CL). exists d. split; [exact PD|]. intros [_ D].
    destruct (C78_contains_point cp p VC Up) as [_ C]. specialize (C N). specialize (CL _ Sc). apply Rabs_le_inv in CL. lra.
Qed.

(* intersects_cell for a cap from a hemisphere on *)
Lemma intersects_large : forall c s cp, wf c -> cell_from_cellid (code c) = Some s -> valid_cap cp -> 2 <= B2R (radius cp) ->
  (cap_intersects_cell cp s = Some true -> exists d, cell_patch s d /\ in_disc (center cp) (B2R (radius cp) + 1 / 2 ^ 39) d) /\
  (cap_intersects_cell cp s = Some false -> forall d, cell_patch s d -> ~ in_disc (center cp) (B2R (radius cp) - 1 / 2 ^ 39) d).
Proof.
  intros c s cp W E VC HR. rewrite (cell_from_ok c W) in E. apply Some_inj in E. subst s.
  destruct (cell_vertices_ok c W) as (p0 & p1 & p2 & p3 & E & V0 & V1 & V2 & V3).
  destruct (valid_cap_facts cp VC) as (Uc & Fv & Fr & Br). pose proof (unit_sphere _ Uc) as Sc. destruct f2_val as [F2 Vf2].
  unfold cap_intersects_cell. rewrite E. destruct (existsb (cap_contains_point cp) [p0; p1; p2; p3]) eqn:A.
  - split; [|discriminate]. intros _.
    assert (X : exists k p, (0 <= k < 4)%Z /\ cell_vertex (cell_of c) k = Some p /\ cap_contains_point cp p = true).
    { cbn [existsb] in A. destruct (cap_contains_point cp p0) eqn:A0; [exists 0%Z, p0; auto with zarith|]. destruct (cap_contains_point cp p1) eqn:A1; [exists 1%Z, p1; auto with zarith|].
      destruct (cap_contains_point cp p2) eqn:A2; [exists 2%Z, p2; auto with zarith|]. destruct (cap_contains_point cp p3) eqn:A3; [exists 3%Z, p3; auto with zarith|discriminate]. }
    destruct X as (k & p & Hk & Ek & N). destruct (corner_in_patch c k p W Hk Ek) as (Up & d & PD & CL). exists d. split; [exact PD|]. split; [apply PD|].
    destruct (C78_contains_point cp p VC Up) as [C _]. specialize (C N). specialize (CL _ Sc). apply Rabs_le_inv in CL. lra.
  - assert (NI : intersects_cell_vertices cp (cell_of c) [p0; p1; p2; p3] = Some false).
    { unfold intersects_cell_vertices, RIGHT, fge. destruct (fle_R _ _ F2 Fr); [reflexivity|lra]. }
    rewrite NI. split; [discriminate|]. intros _ d PD [_ D].
    assert (Sn : on_sphere (Pos (- px3 (direction (center cp))) (- py3 (direction (center cp))) (- pz3 (direction (center cp))))).
    { unfold on_sphere in *. cbn [px3 py3 pz3]. rewrite <- Sc. ring. }
    assert (ND : forall x, rdot (Pos (- px3 (direction (center cp))) (- py3 (direction (center cp))) (- pz3 (direction (center cp)))) x = - rdot (direction (center cp)) x).
    { intros x. unfold rdot. cbn [px3 py3 pz3]. ring. }
    assert (T : B2R (radius cp) / 2 - 1 - 2 * (1 / 2 ^ 42) - 2 / 100000000000000 <= rdot (Pos (- px3 (direction (center cp))) (- py3 (direction (center cp))) (- pz3 (direction (center cp)))) d).
    { apply (vertices_patch c _ _ (1 / 2 ^ 42) p0 p1 p2 p3 W Sn); auto; try lra. intros p I Up. rewrite ND.
      assert (N : cap_contains_point cp p = false).
      { destruct (cap_contains_point cp p) eqn:N; [|reflexivity]. exfalso. assert (existsb (cap_contains_point cp) [p0; p1; p2; p3] = true) by (apply existsb_exists; eauto). congruence. }
      destruct (C78_contains_point cp p VC Up) as [_ C]. specialize (C N). rewrite dist2_dot in C by (auto; apply unit_sphere; auto). lra. }
    rewrite ND in T. rewrite dist2_dot in D by (auto; apply PD). lra.
Qed.

Lemma vertex_where (f : vec -> bool) p0 p1 p2 p3 c : cell_vertex (cell_of c) 0 = Some p0 -> cell_vertex (cell_of c) 1 = Some p1 -> cell_vertex (cell_of c) 2 = Some p2 -> cell_vertex (cell_of c) 3 = Some p3 ->
  (existsb f [p0; p1; p2; p3] = true -> exists k p, (0 <= k < 4)%Z /\ cell_vertex (cell_of c) k = Some p /\ f p = true) /\
  (forall b, forallb (fun p => Bool.eqb (f p) b) [p0; p1; p2; p3] = true -> forall k, (0 <= k < 4)%Z -> exists p, cell_vertex (cell_of c) k = Some p /\ f p = b).
Proof.
  intros V0 V1 V2 V3. split.
  - cbn [existsb]. intros A. destruct (f p0) eqn:A0; [exists 0%Z, p0; auto with zarith|]. destruct (f p1) eqn:A1; [exists 1%Z, p1; auto with zarith|].
    destruct (f p2) eqn:A2; [exists 2%Z, p2; auto with zarith|]. destruct (f p3) eqn:A3; [exists 3%Z, p3; auto with zarith|discriminate].
  - intros b A k Hk. cbn [forallb] in A. rewrite !andb_true_iff, !Bool.eqb_true_iff in A. destruct A as (A0 & A1 & A2 & A3 & _). assert (K : (k = 0 \/ k = 1 \/ k = 2 \/ k = 3)%Z) by lia.
    destruct K as [-> | [-> | [-> | ->]]]; eauto.
Qed.
Lemma existsb_none (f : vec -> bool) l : existsb f l = false -> forallb (fun p => Bool.eqb (f p) false) l = true.
Proof. induction l as [|p t IH]; [reflexivity|]. cbn [existsb forallb]. intros H. apply orb_false_iff in H. destruct H as [-> H]. apply IH, H. Qed.
Lemma forallb_all (f : vec -> bool) l : forallb f l = true -> forallb (fun p => Bool.eqb (f p) true) l = true.
Proof. induction l as [|p t IH]; [reflexivity|]. cbn [forallb]. intros H. apply andb_true_iff in H. destruct H as [-> H]. apply IH, H. Qed.

(** intersects_cell is right about every cap and the whole cell: if it answers true some
    point of the cell is in the cap, if false no point is, up to a slack in the distance.
    The slack is 2^-38 (24 micrometres on the Earth) except for caps just short of a
    hemisphere, where the sine the code compares hardly changes with the radius. *)
Definition slack (r w : R) : R := if Rlt_dec (15 / 8) r then (if Rlt_dec r 2 then w else 1 / 2 ^ 38) else 1 / 2 ^ 38.
Theorem C79_intersects_cell : forall c s cp, wf c -> cell_from_cellid (code c) = Some s -> valid_cap cp -> 0 <= B2R (radius cp) ->
  let r := B2R (radius cp) in
  (cap_intersects_cell cp s = Some true -> exists d, cell_patch s d /\ sqrt (dist2 (direction (center cp)) d) <= sqrt r + slack r (1 / 2 ^ 11)) /\
  (cap_intersects_cell cp s = Some false -> forall d, cell_patch s d -> sqrt r - slack r (1 / 2 ^ 20) <= sqrt (dist2 (direction (center cp)) d)).
Proof.
  intros c s [v rr] W E VC HR. destruct (valid_cap_facts _ VC) as (Uc & Fv & Fr & Br). cbn [center radius] in *. cbv zeta. set (r := B2R rr) in *. unfold slack. destruct (sqrt_nonneg r HR) as [R0 RR].
  destruct (Rlt_dec r 2) as [L|L].
  - rewrite (cell_from_ok c W) in E. apply Some_inj in E. subst s. destruct (cell_vertices_ok c W) as (p0 & p1 & p2 & p3 & E & V0 & V1 & V2 & V3).
    unfold cap_intersects_cell. rewrite E. destruct (vertex_where (cap_contains_point (Cap v rr)) p0 p1 p2 p3 c V0 V1 V2 V3) as [VT VF].
    destruct (existsb (cap_contains_point (Cap v rr)) [p0; p1; p2; p3]) eqn:A.
    + split; [|discriminate]. intros _. destruct (VT eq_refl) as (k & p & Hk & Ek & N). destruct (corner_dist c k p v rr W Hk Ek Uc Fr ltac:(fold r; lra)) as (d & PD & _ & _ & I).
      exists d. split; [exact PD|]. specialize (I N). unfold chd in I. fold r in I. destruct (Rlt_dec _ _); lra.
    + split; intros H.
      * destruct (hit_dist c v rr p0 p1 p2 p3 W Uc Fr Br V0 V1 V2 V3 H) as (_ & x & PX & Q). exists x. split; [exact PX|]. unfold chd in Q. fold r in Q.
        destruct (Rle_dec r (15 / 8)); destruct (Rlt_dec (15 / 8) r); lra.
      * intros x PX. pose proof (VF false (existsb_none _ _ A)) as NV.
        pose proof (miss_dist c v rr p0 p1 p2 p3 W Uc Fr (conj HR L) V0 V1 V2 V3 H x (/ 4398046511104) PX ltac:(lra)) as M. unfold chd in M at 2. fold r in M.
        assert (M' : sqrt r - (if Rle_dec r (15 / 8) then / 549755813888 else / 2097152) - / 4398046511104 <= sqrt (dist2 (direction v) x)).
        { apply M. intros k Hk. destruct (NV k Hk) as (p & Ek & N). destruct (corner_dist c k p v rr W Hk Ek Uc Fr ltac:(fold r; lra)) as (d & PD & LD & O & _). exists d. split; [split; assumption|]. apply O, N. }
        destruct (Rle_dec r (15 / 8)); destruct (Rlt_dec (15 / 8) r); lra.
  - destruct (intersects_large c s (Cap v rr) W E VC ltac:(cbn [radius]; fold r; lra)) as [T F]. cbn [center radius] in T, F. fold r in T, F.
    assert (SQ : forall D, 0 <= D -> (D <= r + 1 / 2 ^ 39 -> sqrt D <= sqrt r + 1 / 2 ^ 38) /\ (r - 1 / 2 ^ 39 < D -> sqrt r - 1 / 2 ^ 38 <= sqrt D)).
    { intros D D0. destruct (sqrt_nonneg D D0) as [S0 SS]. assert (1 <= sqrt r) by (apply Rnot_lt_le; intros Q; assert (sqrt r * sqrt r <= 1 * 1) by (apply Rmult_le_compat; lra); lra).
      split; intros H0; apply Rnot_lt_le; intros Q.
      - assert ((sqrt r + 1 / 2 ^ 38) * (sqrt r + 1 / 2 ^ 38) < sqrt D * sqrt D) by (apply Rmult_le_0_lt_compat; lra). lra.
      - assert (sqrt D * sqrt D <= (sqrt r - 1 / 2 ^ 38) * (sqrt r - 1 / 2 ^ 38)) by (apply Rmult_le_compat; lra). lra. }
    assert (POS : forall a b, 0 <= dist2 a b) by (intros a b; unfold dist2; pose proof (Rle_0_sqr (px3 a - px3 b)); pose proof (Rle_0_sqr (py3 a - py3 b)); pose proof (Rle_0_sqr (pz3 a - pz3 b)); unfold Rsqr in *; lra).
    assert (IF : (if Rlt_dec (15 / 8) r then 1 / 2 ^ 38 else 1 / 2 ^ 38) = 1 / 2 ^ 38) by (destruct (Rlt_dec _ _); reflexivity). rewrite IF.
    split; intros H.
    + destruct (T H) as (d & PD & _ & D). exists d. split; [exact PD|]. apply SQ; auto.
    + intros d PD. apply SQ; [auto|]. apply Rnot_le_lt. intros Q. apply (F H d PD). split; [apply PD|exact Q].
Qed.
Print Assumptions C79_intersects_cell.

(** ** contains_cell of a cap larger than a hemisphere goes through the complement *)
Lemma complement_exact (r : f64) : finite r -> 2 <= B2R r <= 4 -> finite (chord_sub STRAIGHT r) /\ B2R (chord_sub STRAIGHT r) = 4 - B2R r.
Proof.
  intros F B. destruct c4_val as [F4 V4]. destruct f1_val as [F1 V1]. destruct f2_val as [F2 V2]. destruct quarter_val as [Fq Vq].
  unfold chord_sub, STRAIGHT. destruct (feq_R r f0 F eq_refl) as [E|E]; [change (B2R f0) with 0 in E; lra|].
  destruct (fle_R c4 r F4 F) as [L|L]; [split; [reflexivity|]; change (B2R f0) with 0; lra|].
  assert (GF : forall x : f64, finite x -> generic_format radix2 (FLT_exp (-1074) 53) (B2R x)) by (intros x Fx; apply (generic_format_B2R 53 1024)).
  assert (EX : forall (z : f64) x, result z x -> Rabs x <= 8 -> generic_format radix2 (FLT_exp (-1074) 53) x -> finite z /\ B2R z = x).
  { intros z x R Bx G. destruct (result_val _ _ 3 ltac:(lia) R) as (Fz & Vz & _); [change (bpow radix2 3) with 8; exact Bx|]. split; [exact Fz|]. rewrite Vz. apply round_generic; [apply valid_rnd_N|exact G]. }
  assert (G0 : generic_format radix2 (FLT_exp (-1074) 53) (B2R r * bpow radix2 (-2))).
  { apply mult_bpow_exact_FLT; [apply GF; auto|]. assert ((1 <= mag radix2 (B2R r))%Z) by (apply mag_ge_bpow; rewrite Rabs_pos_eq by lra; change (bpow radix2 (1 - 1)) with 1; lra). lia. }
  change (bpow radix2 (-2)) with (/ 4) in G0.
  pose proof (fmul_result quarter r Fq F) as R1. rewrite Vq in R1. destruct (EX _ _ R1) as [Fq1 Vq1]; [apply Rabs_le; lra|rewrite Rmult_comm; exact G0|].
  assert (SB : generic_format radix2 (FLT_exp (-1074) 53) (4 - B2R r)).
  { apply sterbenz; [apply FLT_exp_valid; reflexivity|apply FLT_exp_monotone|rewrite <- V4; apply GF; auto|apply GF; auto|lra]. }
  pose proof (fsub_result f1 _ F1 Fq1) as R2. rewrite V1, Vq1 in R2.
  destruct (EX _ _ R2) as [Fs Vs]; [apply Rabs_le; lra| |].
  { apply sterbenz; [apply FLT_exp_valid; reflexivity|apply FLT_exp_monotone|rewrite <- V1; apply GF; auto|rewrite <- Vq1; apply GF; auto|lra]. }
  pose proof (fmul_result c4 _ F4 Fs) as R3. rewrite V4, Vs in R3. replace (4 * (1 - / 4 * B2R r)) with (4 - B2R r) in R3 by field.
  destruct (EX _ _ R3) as [Fx Vx]; [apply Rabs_le; lra|exact SB|]. set (x := fmul c4 (fsub f1 (fmul quarter r))) in *.
  pose proof (fmul_result quarter c4 Fq F4) as R4. rewrite Vq, V4 in R4. replace (/ 4 * 4) with (B2R f1) in R4 by (rewrite V1; field).
  destruct (result_exact _ _ f1 R4 eq_refl) as [Fa Va]. rewrite V1 in Va.
  pose proof (fsub_result f1 _ F1 Fa) as R5. rewrite V1, Va in R5. replace (1 - 1) with (B2R f0) in R5 by (change (B2R f0) with 0; ring).
  destruct (result_exact _ _ f0 R5 eq_refl) as [Fb Vb]. change (B2R f0) with 0 in Vb.
  pose proof (fmul_result r _ F Fb) as R6. rewrite Vb in R6. replace (B2R r * 0) with (B2R f0) in R6 by (change (B2R f0) with 0; ring).
  destruct (result_exact _ _ f0 R6 eq_refl) as [Fy Vy]. change (B2R f0) with 0 in Vy. set (y := fmul r (fsub f1 (fmul quarter c4))) in *.
  pose proof (fadd_result x y Fx Fy) as R7. rewrite Vy, Rplus_0_r in R7. destruct (result_exact _ _ x R7 eq_refl) as [Fxy Vxy].
  pose proof (fmul_result x y Fx Fy) as R8. rewrite Vy, Rmult_0_r in R8. destruct (result_exact _ _ f0 R8 eq_refl) as [Fp Vp]. change (B2R f0) with 0 in Vp.
  destruct (fsqrt_val _ Fp ltac:(lra)) as [Fr Vr]. rewrite Vp, sqrt_0, rnd_0 in Vr.
  pose proof (fmul_result f2 _ F2 Fr) as R9. rewrite Vr, Rmult_0_r in R9. destruct (result_exact _ _ f0 R9 eq_refl) as [Fr2 Vr2]. change (B2R f0) with 0 in Vr2.
  pose proof (fsub_result _ _ Fxy Fr2) as R10. rewrite Vxy, Vr2, Rminus_0_r in R10. destruct (result_exact _ _ x R10 eq_refl) as [Fd Vd].
  destruct (fmax_R f0 _ eq_refl Fd) as [Fm Vm]. rewrite Vd, Vx in Vm. change (B2R f0) with 0 in Vm. rewrite Rmax_right in Vm by lra. auto.
Qed.
Lemma unit_neg v : is_unit v = true -> fvec v -> is_unit (vscale v (fneg f1)) = true.
Proof.
  intros U (F1 & F2 & F3). destruct (vscale_neg v (conj F1 (conj F2 F3))) as ((G1 & G2 & G3) & X1 & X2 & X3). unfold vscale in *. cbn [vx vy vz] in *.
  assert (OP : forall x y : f64, finite x -> finite y -> B2R y = - B2R x -> opposite y x).
  { intros x y Fx Fy E. apply same_val; auto; destruct (fneg_val x Fx) as [A B]; [exact A|]. rewrite B. exact E. }
  rewrite <- U. unfold is_unit, norm2, dot. cbn [vx vy vz]. apply flt_same; [|apply same_refl].
  assert (AB : forall x y, same x y -> same (fabs x) (fabs y)). { intros x y [->|[A B]]; [left; reflexivity|]. destruct x, y; try discriminate; left; reflexivity. }
  apply AB, fsub_same; [|apply same_refl]. repeat apply fadd_same; apply fmul_opp_opp; auto.
Qed.

(** contains_cell is right about every cap and the whole cell: if it answers true the
    whole cell is in the cap, if false some point is not, up to a slack in the squared
    distance, 2^-36 except for caps just over a hemisphere. *)
Definition slack2 (r w : R) : R := if Rlt_dec 2 r then (if Rlt_dec r (17 / 8) then w else 1 / 2 ^ 36) else 1 / 2 ^ 36.
Theorem C79_contains_cell : forall c s cp, wf c -> cell_from_cellid (code c) = Some s -> valid_cap cp -> 0 <= B2R (radius cp) ->
  let r := B2R (radius cp) in
  (cap_contains_cell cp s = Some true -> forall d, cell_patch s d -> in_disc (center cp) (r + slack2 r (1 / 2 ^ 18)) d) /\
  (cap_contains_cell cp s = Some false -> exists d, cell_patch s d /\ ~ in_disc (center cp) (r - slack2 r (1 / 2 ^ 8)) d).
Proof.
  intros c s cp W E VC HR. destruct (valid_cap_facts _ VC) as (Uc & Fv & Fr & Br). cbv zeta. set (r := B2R (radius cp)) in *. unfold slack2.
  destruct (Rlt_dec 2 r) as [L|L].
  - rewrite (cell_from_ok c W) in E. apply Some_inj in E. subst s. destruct (cell_vertices_ok c W) as (p0 & p1 & p2 & p3 & E & V0 & V1 & V2 & V3).
    destruct (vertex_where (cap_contains_point cp) p0 p1 p2 p3 c V0 V1 V2 V3) as [_ VF].
    assert (Sc : on_sphere (direction (center cp))) by (apply unit_sphere; auto).
    unfold cap_contains_cell. rewrite E. destruct (forallb (cap_contains_point cp) [p0; p1; p2; p3]) eqn:A.
    + pose proof (VF true (forallb_all _ _ A)) as IN. destruct (full_R cp Fr) as [FE|FN].
      { (* the full cap *)
        assert (NI : intersects_cell_vertices (cap_complement cp) (cell_of c) [p0; p1; p2; p3] = Some false).
        { unfold cap_complement. destruct (full_R cp Fr) as [_|]; [|lra]. reflexivity. }
        rewrite NI. split; [|discriminate]. intros _ d PD. split; [apply PD|]. assert (Sd : on_sphere d) by apply PD. destruct (chd_range _ _ Sc Sd) as ((C0 & C2) & CC & _). rewrite <- CC. fold r in FE.
        assert (chd (direction (center cp)) d * chd (direction (center cp)) d <= 2 * 2) by (apply Rmult_le_compat; lra). destruct (Rlt_dec r (17 / 8)); lra. }
      fold r in FN, Br. assert (KC : cap_complement cp = Cap (vscale (center cp) (fneg f1)) (chord_sub STRAIGHT (radius cp))).
      { unfold cap_complement. destruct (full_R cp Fr) as [|_]; [fold r in H; lra|]. destruct (empty_R cp Fr) as [EE|_]; [fold r in EE; lra|]. reflexivity. }
      destruct (complement_exact (radius cp) Fr ltac:(fold r; lra)) as [Fk Vk]. pose proof (unit_neg _ Uc Fv) as Uk. fold r in Vk.
      assert (DD : forall d, on_sphere d -> dist2 (direction (vscale (center cp) (fneg f1))) d = 4 - dist2 (direction (center cp)) d).
      { destruct (C80_complement_partial cp VC) as (_ & _ & P). destruct (full_R cp Fr) as [|_] in P; [fold r in H; lra|]. destruct (empty_R cp Fr) as [EE|_] in P; [fold r in EE; lra|].
        specialize (P eq_refl eq_refl). cbv zeta in P. rewrite KC in P. cbn [center] in P. apply P. }
      rewrite KC. set (kv := vscale (center cp) (fneg f1)) in *. set (kr := chord_sub STRAIGHT (radius cp)) in *.
      destruct (intersects_cell_vertices (Cap kv kr) (cell_of c) [p0; p1; p2; p3]) as [[|]|] eqn:IC; cbn [negb].
      * split; [discriminate|]. intros _. destruct (hit_dist c kv kr p0 p1 p2 p3 W Uk Fk ltac:(lra) V0 V1 V2 V3 IC) as (Bk & x & PX & Q). exists x. split; [exact PX|]. intros [Sx D].
        assert (DX := DD x Sx). destruct (chd_range _ _ (unit_sphere _ Uk) Sx) as ((C0 & C2) & CC & _). destruct (sqrt_nonneg (B2R kr) ltac:(lra)) as [K0 KK].
        assert (K2 : sqrt (B2R kr) <= 3 / 2) by (rewrite <- (sqrt_square (3 / 2)) by lra; apply sqrt_le_1_alt; lra).
        set (y := chd (direction kv) x) in *. set (t := sqrt (B2R kr)) in *.
        assert (G : forall z, 0 <= z <= / 2048 -> y <= t + z -> y * y <= t * t + (3 + / 2048) * z). { intros z Z0 H. assert (y * y <= (t + z) * (t + z)) by (apply Rmult_le_compat; lra). assert (t * z <= 3 / 2 * z) by (apply Rmult_le_compat_r; lra). assert (z * z <= / 2048 * z) by (apply Rmult_le_compat_r; lra). lra. }
        destruct (Rle_dec (B2R kr) (15 / 8)) as [M|M]; [pose proof (G (/ 274877906944) ltac:(lra) Q)|pose proof (G (/ 2048) ltac:(lra) Q)]; destruct (Rlt_dec r (17 / 8)); lra.
      * split; [|discriminate]. intros _ d PD. assert (Sd : on_sphere d) by apply PD. split; [exact Sd|]. assert (DX := DD d Sd).
        pose proof (miss_sq c kv kr p0 p1 p2 p3 W Uk Fk ltac:(lra) V0 V1 V2 V3 IC d (/ 549755813888) PD ltac:(lra)) as M.
        assert (M' : B2R kr - (if Rle_dec (B2R kr) (15 / 8) then / 274877906944 else / 524288) - / 549755813888 <= dist2 (direction kv) d).
        { apply M. intros k Hk. destruct (IN k Hk) as (p & Ek & N). 
          destruct (corner_dist c k p (center cp) (radius cp) W Hk Ek Uc Fr ltac:(fold r; lra)) as (d2 & PD2 & LD2 & _ & I). specialize (I N). exists d2. split; [split; assumption|].
          assert (S2 : on_sphere d2) by apply PD2. rewrite (DD d2 S2). destruct (chd_range _ _ Sc S2) as ((C0 & C2) & CC & _). rewrite <- CC. destruct (sqrt_nonneg r ltac:(lra)) as [R0 RR].
          fold r in I. assert (R2 : sqrt r <= 2) by (rewrite <- (sqrt_square 2) by lra; apply sqrt_le_1_alt; lra). set (y := chd (direction (center cp)) d2) in *. set (t := sqrt r) in *.
          assert (y * y <= (t + / 4398046511104) * (t + / 4398046511104)) by (apply Rmult_le_compat; lra). lra. }
        destruct (Rle_dec (B2R kr) (15 / 8)); destruct (Rlt_dec r (17 / 8)); lra.
      * split; discriminate.
    + split; [discriminate|]. intros _.
      assert (X : exists k p, (0 <= k < 4)%Z /\ cell_vertex (cell_of c) k = Some p /\ cap_contains_point cp p = false).
      { cbn [forallb] in A. destruct (cap_contains_point cp p0) eqn:A0; [|exists 0%Z, p0; auto with zarith]. destruct (cap_contains_point cp p1) eqn:A1; [|exists 1%Z, p1; auto with zarith].
        destruct (cap_contains_point cp p2) eqn:A2; [|exists 2%Z, p2; auto with zarith]. destruct (cap_contains_point cp p3) eqn:A3; [discriminate|exists 3%Z, p3; auto with zarith]. }
      destruct X as (k & p & Hk & Ek & N). destruct (corner_in_patch c k p W Hk Ek) as (Up & d & PD & CL). exists d. split; [exact PD|]. intros [_ D].
      destruct (C78_contains_point cp p VC Up) as [_ C]. specialize (C N). specialize (CL _ Sc). apply Rabs_le_inv in CL. fold r in C. destruct (Rlt_dec r (17 / 8)); lra.
  - destruct (contains_small c s cp W E VC ltac:(fold r; lra)) as [T F]. fold r in T, F. split; intros H.
    + intros d PD. destruct (T H d PD) as [S D]. split; [exact S|]. lra.
    + destruct (F H) as (d & PD & N). exists d. split; [exact PD|]. intros [S D]. apply N. split; [exact S|]. lra.
Qed.
Print Assumptions C79_contains_cell.

(* a cap without points meets no cell and contains none *)
Theorem C79_empty_cap : forall c s cp, wf c -> cell_from_cellid (code c) = Some s -> finite (radius cp) -> B2R (radius cp) < 0 ->
  cap_contains_cell cp s = Some false /\ cap_intersects_cell cp s = Some false.
Proof.
  intros c s cp W E F N. rewrite (cell_from_ok c W) in E. apply Some_inj in E. subst s. destruct (cell_vertices_ok c W) as (p0 & p1 & p2 & p3 & E & _).
  assert (NC : forall p, cap_contains_point cp p = false). { intros p. unfold cap_contains_point. destruct (chordangle_range (center cp) p) as [Fc Bc]. destruct (fle_R _ _ Fc F) as [L|]; [lra|reflexivity]. }
  unfold cap_contains_cell, cap_intersects_cell. rewrite E. cbn [forallb existsb]. rewrite !NC. split; [reflexivity|]. cbn [orb]. unfold intersects_cell_vertices.
  destruct f2_val as [F2 V2]. unfold fge, RIGHT. destruct (fle_R f2 _ F2 F) as [|_]; [lra|]. destruct (empty_R cp F) as [_|]; [reflexivity|lra].
Qed.
Print Assumptions C79_empty_cap.
(* a hemisphere and two cells: face 0, inside the cap about its centre, and face 3, outside *)
Definition hemi : cap := Cap CENTER_POINT f2.
Example C79_example : wf (Cell 0 0) /\ wf (Cell 0 3) /\ valid_cap hemi /\ 0 <= B2R (radius hemi) <= 2 /\
  (exists s, cell_from_cellid (code (Cell 0 0)) = Some s /\ cap_contains_cell hemi s = Some true /\ cap_intersects_cell hemi s = Some true) /\
  (exists s, cell_from_cellid (code (Cell 0 3)) = Some s /\ cap_contains_cell hemi s = Some false /\ cap_intersects_cell hemi s = Some false).
Proof.
  split; [vm_compute; intuition congruence|]. split; [vm_compute; intuition congruence|].
  split; [repeat split; vm_compute; reflexivity|]. split; [destruct f2_val as [_ V]; unfold hemi; cbn [radius]; rewrite V; lra|].
  split; [exists (cell_of (Cell 0 0))|exists (cell_of (Cell 0 3))]; (split; [apply cell_from_ok; vm_compute; intuition congruence|]); split; vm_compute; reflexivity.
Qed.

(* a cap of squared radius 1/16 about the middle of face 0, which holds no vertex of the face
   cell but meets it; its complement-sized counterpart about the antipode, which misses the
   middle of face 0 although it contains all four vertices *)
Definition small_cap : cap := Cap CENTER_POINT (lit 1 (-4)).
Definition large_cap : cap := Cap (Vec (fneg f1) f0 f0) (lit 63 (-4)).
Example C79_edges : valid_cap small_cap /\ valid_cap large_cap /\ B2R (radius small_cap) = / 16 /\ B2R (radius large_cap) = 63 / 16 /\
  (exists s, cell_from_cellid (code (Cell 0 0)) = Some s /\ cap_intersects_cell small_cap s = Some true /\ cap_contains_cell large_cap s = Some false) /\
  (exists s, cell_from_cellid (code (Cell 0 1)) = Some s /\ cap_intersects_cell small_cap s = Some false /\ cap_contains_cell large_cap s = Some true).
Proof.
  split; [repeat split; vm_compute; reflexivity|]. split; [repeat split; vm_compute; reflexivity|].
  destruct (lit_val 1 (-4) ltac:(lia) ltac:(lia)) as [_ V1]. destruct (lit_val 63 (-4) ltac:(lia) ltac:(lia)) as [_ V2].
  split; [unfold small_cap; cbn [radius]; rewrite V1; change (bpow radix2 (-4)) with (/ 16); lra|]. split; [unfold large_cap; cbn [radius]; rewrite V2; change (bpow radix2 (-4)) with (/ 16); lra|].
  split; [exists (cell_of (Cell 0 0))|exists (cell_of (Cell 0 1))]; (split; [apply cell_from_ok; vm_compute; intuition congruence|]); split; vm_compute; reflexivity.
Qed.
