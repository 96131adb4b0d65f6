(** Points near the centre of a cell are found in the cell. *)
From Coq Require Import ZArith Reals Lra Lia Psatz Bool.
From Flocq Require Import Core.
From Verif Require Import Base Spec F64 F64Facts IntervalSpec F64Arith F64Error S1Proofs VectorModel AngleModel StuvModel CellIdModel CellIdProofs CellOrder CellUnionProofs HilbertModel HilbertSpec HilbertGeom NeighborModel NeighborProofs CellIdArith
  CellSpec CellModel StuvError CellLattice CellProofs CellPoint PredicatesModel PredicatesProofs PredicatesError PredicatesFloat PredicatesSound
  CapSpec CapModel CapError CapEdge CapEdgeFloat CapEdgeMain TrigModel TrigSpec TrigProofs.
Open Scope R_scope.

Notation e31 := (/ 2147483648). (* 2^-31 *)
Notation e40 := (1 / 1099511627776). (* 2^-40 *)

Lemma ratio_near w a t U e : 1 / 2 <= t <= 1 -> Rabs U <= 1 -> 0 <= e <= e31 -> Rabs (w - t) <= e -> Rabs (a - t * U) <= e ->
  0 < w /\ Rabs (a / w - U) <= 41 / 10 * e.
Proof.
  intros T BU E H1 H2. apply Rabs_le_inv in BU. pose proof H1 as H1'. apply Rabs_le_inv in H1'. assert (W : 49 / 100 <= w) by lra. split; [lra|].
  assert (D : Rabs (a - U * w) <= 2 * e).
  { replace (a - U * w) with ((a - t * U) + - U * (w - t)) by ring. eapply Rle_trans; [apply Rabs_triang|]. rewrite Rabs_mult. pose proof (Rabs_pos (w - t)).
    assert (Rabs (- U) <= 1) by (apply Rabs_le; lra). assert (Rabs (- U) * Rabs (w - t) <= 1 * e) by (apply Rmult_le_compat; try lra; apply Rabs_pos). lra. }
  replace (a / w - U) with ((a - U * w) / w) by (field; lra). unfold Rdiv at 1. rewrite Rabs_mult, (Rabs_pos_eq (/ w)) by (apply Rlt_le, Rinv_0_lt_compat; lra).
  replace (41 / 10 * e) with (2 * e * (41 / 20)) by field. apply Rmult_le_compat; [apply Rabs_pos|apply Rlt_le, Rinv_0_lt_compat; lra|exact D|].
  apply Rle_trans with (/ (49 / 100)); [apply Rinv_le_contravar; lra|lra].
Qed.

Lemma smaller w a t U e : 1 / 2 <= t <= 1 -> Rabs U <= 1 - e31 -> 0 <= e <= e40 -> Rabs (w - t) <= e -> Rabs (a - t * U) <= e -> Rabs a < w.
Proof.
  intros T BU E H1 H2. apply Rabs_le_inv in H1, BU. assert (Rabs (t * U) <= t * (1 - e31)).
  { rewrite Rabs_mult, (Rabs_pos_eq t) by lra. apply Rmult_le_compat_l; [lra|]. apply Rabs_le. lra. }
  pose proof (Rabs_triang (a - t * U) (t * U)) as R. replace (a - t * U + t * U) with a in R by ring. nra.
Qed.

Lemma near_face f v t U V e : fvec v -> (0 <= f < 6)%Z -> 1 / 2 <= t <= 1 -> Rabs U <= 1 - e31 -> Rabs V <= 1 - e31 -> 0 <= e <= e40 ->
  Rabs (pw (loc f (RV v)) - t) <= e -> Rabs (pa (loc f (RV v)) - t * U) <= e -> Rabs (pb (loc f (RV v)) - t * V) <= e ->
  exists a b : f64, xyz_to_face_uv v = Some (f, a, b) /\ finite a /\ finite b /\ -1 <= B2R a <= 1 /\ -1 <= B2R b <= 1 /\
    Rabs (B2R a - U) <= 41 / 10 * e + u /\ Rabs (B2R b - V) <= 41 / 10 * e + u.
Proof.
  intros (F1 & F2 & F3) Hf T BU BV E H1 H2 H3. pose proof (smaller _ _ _ _ _ T BU E H1 H2) as S2. pose proof (smaller _ _ _ _ _ T BV E H1 H3) as S3.
  destruct (ratio_near _ _ t U e T ltac:(lra) ltac:(lra) H1 H2) as [W R2]. destruct (ratio_near _ _ t V e T ltac:(lra) ltac:(lra) H1 H3) as [_ R3].
  assert (Q : forall (x y : f64) w a, finite x -> finite y -> B2R x / B2R y = a / w -> 0 < w -> Rabs a < w -> Rabs (B2R y) = w -> Rabs (B2R x) = Rabs a ->
    finite (fdiv x y) /\ -1 <= B2R (fdiv x y) <= 1 /\ Rabs (B2R (fdiv x y) - a / w) <= u).
  { intros x y w a Fx Fy EQ W0 L AY AX. destruct (quotient x y Fx Fy) as (G & V' & B); [intros C; rewrite C, Rabs_R0 in AY; lra|rewrite AX, AY; lra|].
    split; [exact G|]. split; [exact B|]. rewrite V', EQ. pose proof (rnd_err (a / w) 0 ltac:(lia)) as RE. change (0 - 53)%Z with (-53)%Z in RE. change (bpow radix2 (-53)) with u in RE. apply RE.
    change (bpow radix2 0) with 1. unfold Rdiv. rewrite Rabs_mult, (Rabs_pos_eq (/ w)) by (apply Rlt_le, Rinv_0_lt_compat; lra). apply Rmult_le_reg_r with w; [exact W0|]. rewrite Rmult_assoc, Rinv_l by lra. lra. }
  destruct (fneg_val _ F1) as [G1 W1]. destruct (fneg_val _ F2) as [G2 W2]. destruct (fneg_val _ F3) as [G3 W3].
  assert (FF : StuvModel.face v = f).
  { apply face_unique; [exact (conj F1 (conj F2 F3))|exact Hf| | | |]; unfold axis_comp; clear -Hf W S2 S3; revert W S2 S3; unfold loc, RV; faces f Hf; cbn [pw pa pb px3 py3 pz3];
    change (0 mod 3)%Z with 0%Z; change (1 mod 3)%Z with 1%Z; change (2 mod 3)%Z with 2%Z; change (3 mod 3)%Z with 0%Z; change (4 mod 3)%Z with 1%Z; change (5 mod 3)%Z with 2%Z;
    cbn [Z.eqb Pos.eqb Z.ltb Z.compare Pos.compare Pos.compare_cont]; rewrite ?Rabs_Ropp; intros W S2 S3; try (intros K; exfalso; apply K; reflexivity); try lra; intros _;
    first [rewrite (Rabs_pos_eq (B2R (vx v))) by lra; lra|rewrite (Rabs_pos_eq (B2R (vy v))) by lra; lra|rewrite (Rabs_pos_eq (B2R (vz v))) by lra; lra
          |rewrite (Rabs_left (B2R (vx v))) by lra; lra|rewrite (Rabs_left (B2R (vy v))) by lra; lra|rewrite (Rabs_left (B2R (vz v))) by lra; lra]. }
  assert (SUM : forall x y, Rabs (x - y) <= u -> forall z k, Rabs (y - z) <= k -> Rabs (x - z) <= k + u).
  { intros x y D z k D'. replace (x - z) with ((x - y) + (y - z)) by ring. eapply Rle_trans; [apply Rabs_triang|lra]. }
  assert (NZ : pw (loc f (RV v)) <> 0) by lra.
  assert (ALL : exists a b : f64, valid_face_xyz_to_uv f v = Some (a, b) /\ (finite a /\ -1 <= B2R a <= 1 /\ Rabs (B2R a - pa (loc f (RV v)) / pw (loc f (RV v))) <= u) /\
    (finite b /\ -1 <= B2R b <= 1 /\ Rabs (B2R b - pb (loc f (RV v)) / pw (loc f (RV v))) <= u)).
  { unfold valid_face_xyz_to_uv. revert W S2 S3 NZ. clear R2 R3 H1 H2 H3 FF. unfold loc, RV. faces f Hf; cbn [pw pa pb px3 py3 pz3]; intros W S2 S3 NZ; eexists; eexists; (split; [reflexivity|]); split;
    (apply Q; [first [exact F1|exact F2|exact F3|exact G1|exact G2|exact G3]|first [exact F1|exact F2|exact F3]|rewrite ?W1, ?W2, ?W3; try reflexivity; field; lra|exact W|assumption
      |first [rewrite Rabs_pos_eq by lra; reflexivity|rewrite Rabs_left by lra; reflexivity]|rewrite ?W1, ?W2, ?W3, ?Rabs_Ropp; reflexivity]). }
  destruct ALL as (a & b & EV & (Fa & Ba & Da) & (Fb & Bb & Db)). exists a, b. split; [unfold xyz_to_face_uv; rewrite FF, EV; reflexivity|].
  split; [exact Fa|]. split; [exact Fb|]. split; [exact Ba|]. split; [exact Bb|]. split; eapply SUM; eassumption.
Qed.

Lemma column_wide (x : f64) k : finite x -> -1 <= B2R x <= 1 -> (0 < k < 2 ^ 31)%Z -> Rabs (B2R x - B2R (uvl k)) <= e31 / 2 ->
  let i := st_to_ij (uv_to_st x) in (2 * i <= k <= 2 * i + 2)%Z.
Proof.
  intros F B K N i. destruct (uvl_val k ltac:(lia)) as (Fk & _ & _). apply Rabs_le_inv in N.
  destruct (column x F B) as (Ri & Lo & Hi). fold i in Ri, Lo, Hi. split.
  - destruct (Z.le_gt_cases (2 * i) k); [auto|]. pose proof (uvl_gap k (2 * i) ltac:(lia) ltac:(lia)). lra.
  - destruct (Z.le_gt_cases k (2 * i + 2)); [auto|]. pose proof (uvl_gap (2 * i + 2) k ltac:(lia) ltac:(lia)). lra.
Qed.

Lemma loc_lin f a b : (0 <= f < 6)%Z -> Rabs (pw (loc f a) - pw (loc f b)) <= chd a b /\ Rabs (pa (loc f a) - pa (loc f b)) <= chd a b /\ Rabs (pb (loc f a) - pb (loc f b)) <= chd a b.
Proof.
  intros Hf. assert (K : Rabs (px3 a - px3 b) <= chd a b /\ Rabs (py3 a - py3 b) <= chd a b /\ Rabs (pz3 a - pz3 b) <= chd a b).
  { pose proof (Rle_0_sqr (px3 a - px3 b)) as P1. pose proof (Rle_0_sqr (py3 a - py3 b)) as P2. pose proof (Rle_0_sqr (pz3 a - pz3 b)) as P3.
    unfold chd, dist2. unfold Rsqr in *. repeat split; rewrite <- sqrt_Rsqr_abs; apply sqrt_le_1_alt; unfold Rsqr; lra. }
  destruct K as (K1 & K2 & K3). assert (M : forall x y, Rabs (- x - - y) = Rabs (x - y)) by (intros; rewrite <- Rabs_Ropp; f_equal; ring).
  unfold loc. faces f Hf; cbn [pw pa pb]; rewrite ?M; auto.
Qed.

(* the centre of a cell, as a position *)
Lemma centre_dir c : wf c -> exists p k l t, point_from_cellid (code c) = Some p /\ is_unit p = true /\
  k = (2 * sq_i (sq c) + side (lv c))%Z /\ l = (2 * sq_j (sq c) + side (lv c))%Z /\ (0 < k < 2 ^ 31)%Z /\ (0 < l < 2 ^ 31)%Z /\
  1 / 2 <= t <= 1 /\ chd (RV p) (shrink t (face_pos (face_of c) (B2R (uvl k)) (B2R (uvl l)))) <= 27 * u /\
  on_sphere (shrink t (face_pos (face_of c) (B2R (uvl k)) (B2R (uvl l)))).
Proof.
  intros W. pose proof (face_of_range c W) as Hf. destruct (center_ok c W) as [E _].
  destruct (sq_aligned c W) as ((_ & P & Di & Dj & B1 & B2 & B3 & B4) & F & S). rewrite S in *. change (2 ^ 30)%Z with 1073741824%Z in *.
  set (k := (2 * sq_i (sq c) + side (lv c))%Z) in *. set (l := (2 * sq_j (sq c) + side (lv c))%Z) in *.
  assert (Hk : (0 < k < 2 ^ 31)%Z) by lia. assert (Hl : (0 < l < 2 ^ 31)%Z) by lia.
  destruct (uvl_val k ltac:(lia)) as (Fk & _ & Bk). destruct (uvl_val l ltac:(lia)) as (Fl & _ & Bl).
  destruct (face_uv_cube (face_of c) (uvl k) (uvl l) Hf Fk Fl ltac:(apply Rabs_le; lra) ltac:(apply Rabs_le; lra)) as (r & Er & C).
  assert (ER : raw_point (code c) = Some r). { unfold raw_point. rewrite E, !as_u64_pos, !siti_lat by lia. exact Er. }
  destruct (cube_close r C) as (BN & _ & _ & U & (C1 & C2 & C3) & SP). set (n := sqrt (sqn r)) in *.
  assert (RF : RV r = face_pos (face_of c) (B2R (uvl k)) (B2R (uvl l))).
  { destruct f1_val as [F1 V1]. destruct (fneg_val f1 F1) as [_ Vn]. rewrite V1 in Vn. destruct (fneg_val _ Fk) as [_ VU]. destruct (fneg_val _ Fl) as [_ VV].
    revert Er. unfold face_uv_to_xyz, face_pos, RV. faces (face_of c) Hf; intros Er; apply Some_inj in Er; subst r; cbn [vx vy vz]; rewrite ?V1, ?Vn, ?VU, ?VV; reflexivity. }
  exists (VectorModel.normalize r), k, l, (/ n). split; [unfold point_from_cellid; rewrite ER; reflexivity|]. split; [exact U|]. split; [reflexivity|]. split; [reflexivity|]. split; [exact Hk|]. split; [exact Hl|].
  split. { split; [apply Rle_trans with (/ 2); [lra|apply Rinv_le_contravar; lra]|rewrite <- Rinv_1; apply Rinv_le_contravar; lra]. }
  rewrite <- RF. split; [|exact SP]. eapply Rle_trans; [apply chd_parts|]. unfold RV in *. cbn [px3 py3 pz3] in *. lra.
Qed.

Theorem centre_found c v : wf c -> fvec v -> (forall p, point_from_cellid (code c) = Some p -> chd (RV v) (direction p) <= e40 / 2) ->
  exists m, cellid_from_point v = Some (code (leaf m)) /\ wf (leaf m) /\ leaves c m.
Proof.
  intros W FV H. pose proof (face_of_range c W) as Hf. destruct (centre_dir c W) as (p & k & l & t & EP & U & Ek & El & Hk & Hl & T & C & SP). specialize (H p EP).
  set (q := shrink t _) in *. destruct (dir_near p q _ SP C ltac:(lra)) as [_ D].
  assert (DV : chd (RV v) q <= e40) by (pose proof (chd_tri (RV v) (direction p) q); lra).
  destruct (loc_lin (face_of c) (RV v) q Hf) as (L1 & L2 & L3). unfold q in L1, L2, L3. rewrite loc_shrink, loc_face in L1, L2, L3 by exact Hf. fold q in L1, L2, L3. unfold scale in L1, L2, L3. cbn [pw pa pb] in L1, L2, L3. rewrite Rmult_1_r in L1.
  assert (ins : forall n, (0 < n < 2 ^ 31)%Z -> Rabs (B2R (uvl n)) <= 1 - e31).
  { intros n Hn. destruct uvl_ends as (E0 & E1 & _). pose proof (uvl_gap 0 n ltac:(lia) ltac:(lia)) as G0. pose proof (uvl_gap n (2 ^ 31) ltac:(lia) ltac:(lia)) as G1.
    rewrite E0 in G0. rewrite E1 in G1. apply Rabs_le. lra. }
  destruct (near_face (face_of c) v t (B2R (uvl k)) (B2R (uvl l)) e40 FV Hf T (ins k Hk) (ins l Hl)) as (a & b & EV & Fa & Fb & Ba & Bb & Da & Db); try lra.
  pose proof (column_wide a k Fa Ba Hk ltac:(lra)) as Ck. pose proof (column_wide b l Fb Bb Hl ltac:(lra)) as Cl. cbv zeta in Ck, Cl.
  pose proof (st_to_ij_range (uv_to_st a)) as Ri. pose proof (st_to_ij_range (uv_to_st b)) as Rj. set (i := st_to_ij (uv_to_st a)) in *. set (j := st_to_ij (uv_to_st b)) in *.
  destruct (sq_aligned c W) as (_ & F & S).
  assert (I : in_square (sq c) (face_of c) i j).
  { unfold in_square. rewrite S, F. split; [reflexivity|]. rewrite Ek in Ck. rewrite El in Cl.
    destruct (Z.eq_dec (lv c) 30) as [E30|N30].
    - rewrite E30 in *. change (side 30) with 1%Z in *. lia.
    - pose proof W as [HL _]. destruct (side_half (lv c) ltac:(lia)) as [_ S2]. pose proof (proj1 (side_NN (lv c + 1) ltac:(lia))). lia. }
  destruct (sq_correct c W) as (_ & _ & Hs). destruct (proj1 (Hs (face_of c) i j Hf Ri Rj) I) as (m & Em & Lm).
  exists m. split; [unfold cellid_from_point; rewrite EV; exact Em|]. split; [apply leaf_wf; apply (leaves_bounds c); auto|exact Lm].
Qed.
