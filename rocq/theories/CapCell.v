(** Caps and cells: the cell predicates answer, and cells are on the right side of
    caps that are at most, or at least, a hemisphere. *)
From Coq Require Import Reals Lra Lia Psatz Bool List.
From Flocq Require Import Core.
From Verif Require Import Base Spec F64 F64Facts IntervalSpec F64Arith F64Error F64Neg S1Proofs R1Model VectorModel StuvModel
  CellIdModel CellIdArith CellIdProofs HilbertModel HilbertSpec HilbertGeom NeighborModel NeighborProofs
  CellSpec CellModel StuvError CellLattice CellProofs CellPoint CellVertex
  PredicatesError PredicatesFloat PredicatesSound NormProofs CapSpec CapModel ChordProofs CapProofs CapError.
Import ListNotations.
Open Scope R_scope.

(** ** The real patch of a cell *)
Definition wlen (p : pos) : R := sqrt (px3 p * px3 p + py3 p * py3 p + pz3 p * pz3 p).
Lemma face_pos_len f u v : px3 (face_pos f u v) * px3 (face_pos f u v) + py3 (face_pos f u v) * py3 (face_pos f u v) + pz3 (face_pos f u v) * pz3 (face_pos f u v) = 1 + u * u + v * v.
Proof. unfold face_pos. repeat match goal with |- context [if ?b then _ else _] => destruct b end; cbn [px3 py3 pz3]; ring. Qed.
Lemma face_pos_lin f c u v : rdot c (face_pos f u v) = rdot c (face_pos f 0 0) + u * (rdot c (face_pos f 1 0) - rdot c (face_pos f 0 0)) + v * (rdot c (face_pos f 0 1) - rdot c (face_pos f 0 0)).
Proof. unfold rdot, face_pos. repeat match goal with |- context [if ?b then _ else _] => destruct b end; cbn [px3 py3 pz3]; ring. Qed.
(* the length of (1, u, v) is convex *)
Definition L (u v : R) : R := sqrt (1 + u * u + v * v).
Lemma L_pos u v : 1 <= L u v.
Proof. unfold L. rewrite <- sqrt_1 at 1. apply sqrt_le_1_alt. nra. Qed.
Lemma L_sq u v : L u v * L u v = 1 + u * u + v * v.
Proof. apply sqrt_sqrt. nra. Qed.
Lemma L_le2 u v : -1 <= u <= 1 -> -1 <= v <= 1 -> L u v <= 2.
Proof. intros. pose proof (L_pos u v). pose proof (L_sq u v). nra. Qed.
Lemma L_convex a u0 v0 u1 v1 : 0 <= a <= 1 -> L ((1 - a) * u0 + a * u1) ((1 - a) * v0 + a * v1) <= (1 - a) * L u0 v0 + a * L u1 v1.
Proof.
  intros A. pose proof (L_pos u0 v0) as P0. pose proof (L_pos u1 v1) as P1. pose proof (L_sq u0 v0) as S0. pose proof (L_sq u1 v1) as S1.
  set (l0 := L u0 v0) in *. set (l1 := L u1 v1) in *.
  assert (C : 1 + u0 * u1 + v0 * v1 <= l0 * l1).
  { destruct (Rle_dec (1 + u0 * u1 + v0 * v1) 0) as [N|N]; [nra|]. apply Rnot_lt_le. intros H.
    assert ((l0 * l1) * (l0 * l1) < (1 + u0 * u1 + v0 * v1) * (1 + u0 * u1 + v0 * v1)) by (apply Rmult_le_0_lt_compat; nra).
    assert (E : (l0 * l1) * (l0 * l1) = (1 + u0 * u0 + v0 * v0) * (1 + u1 * u1 + v1 * v1)) by (rewrite <- S0, <- S1; ring). rewrite E in H0.
    assert ((1 + u0 * u0 + v0 * v0) * (1 + u1 * u1 + v1 * v1) - (1 + u0 * u1 + v0 * v1) * (1 + u0 * u1 + v0 * v1) =
      (u0 - u1) * (u0 - u1) + (v0 - v1) * (v0 - v1) + (u0 * v1 - v0 * u1) * (u0 * v1 - v0 * u1)) by ring.
    pose proof (Rle_0_sqr (u0 - u1)). pose proof (Rle_0_sqr (v0 - v1)). pose proof (Rle_0_sqr (u0 * v1 - v0 * u1)). unfold Rsqr in *. lra. }
  set (s := (1 - a) * l0 + a * l1). assert (0 <= s) by (unfold s; nra). unfold L. rewrite <- (sqrt_square s) by auto. apply sqrt_le_1_alt.
  assert (E : s * s = (1 - a) * (1 - a) * (1 + u0 * u0 + v0 * v0) + a * a * (1 + u1 * u1 + v1 * v1) + 2 * (a * (1 - a)) * (l0 * l1)) by (unfold s; rewrite <- S0, <- S1; ring).
  rewrite E. assert (0 <= a * (1 - a)) by nra. assert (2 * (a * (1 - a)) * (1 + u0 * u1 + v0 * v1) <= 2 * (a * (1 - a)) * (l0 * l1)) by (apply Rmult_le_compat_l; lra). nra.
Qed.

(* a linear function bounded below by K times the length at the four corners is so on the rectangle *)
Lemma patch_lower (g : R -> R -> R) K t u0 u1 v0 v1 :
  (forall a x0 y0 x1 y1, g ((1 - a) * x0 + a * x1) ((1 - a) * y0 + a * y1) = (1 - a) * g x0 y0 + a * g x1 y1) -> 0 <= K ->
  K * L u0 v0 - t <= g u0 v0 -> K * L u1 v0 - t <= g u1 v0 -> K * L u0 v1 - t <= g u0 v1 -> K * L u1 v1 - t <= g u1 v1 ->
  forall u v, u0 <= u <= u1 -> v0 <= v <= v1 -> K * L u v - t <= g u v.
Proof.
  intros LIN HK A B C D.
  assert (SEG : forall x0 y0 x1 y1 a, 0 <= a <= 1 -> K * L x0 y0 - t <= g x0 y0 -> K * L x1 y1 - t <= g x1 y1 ->
     K * L ((1 - a) * x0 + a * x1) ((1 - a) * y0 + a * y1) - t <= g ((1 - a) * x0 + a * x1) ((1 - a) * y0 + a * y1)).
  { intros x0 y0 x1 y1 a Ha H0 H1. rewrite LIN. pose proof (L_convex a x0 y0 x1 y1 Ha) as CV.
    assert (K * L ((1 - a) * x0 + a * x1) ((1 - a) * y0 + a * y1) <= K * ((1 - a) * L x0 y0 + a * L x1 y1)) by (apply Rmult_le_compat_l; auto).
    assert ((1 - a) * (K * L x0 y0 - t) <= (1 - a) * g x0 y0) by (apply Rmult_le_compat_l; lra).
    assert (a * (K * L x1 y1 - t) <= a * g x1 y1) by (apply Rmult_le_compat_l; lra). lra. }
  assert (PAR : forall x0 x1 x, x0 <= x <= x1 -> exists a, 0 <= a <= 1 /\ x = (1 - a) * x0 + a * x1).
  { intros x0 x1 x H. destruct (Req_dec x0 x1) as [E|E].
    - exists 0. split; [lra|]. lra.
    - exists ((x - x0) / (x1 - x0)). assert (P : 0 < x1 - x0) by lra. split; [|field; lra]. split.
      + apply Rmult_le_pos; [lra|left; apply Rinv_0_lt_compat; lra].
      + apply Rmult_le_reg_r with (x1 - x0); [lra|]. unfold Rdiv. rewrite Rmult_assoc, Rinv_l by lra. lra. }
  intros u v Hu Hv. destruct (PAR u0 u1 u Hu) as (a & Ha & Eu). destruct (PAR v0 v1 v Hv) as (b & Hb & Ev).
  assert (E0 : K * L u v0 - t <= g u v0).
  { pose proof (SEG u0 v0 u1 v0 a Ha A B) as S. rewrite <- Eu in S. replace ((1 - a) * v0 + a * v0) with v0 in S by ring. exact S. }
  assert (E1 : K * L u v1 - t <= g u v1).
  { pose proof (SEG u0 v1 u1 v1 a Ha C D) as S. rewrite <- Eu in S. replace ((1 - a) * v1 + a * v1) with v1 in S by ring. exact S. }
  pose proof (SEG u v0 u v1 b Hb E0 E1) as S. rewrite <- Ev in S. replace ((1 - b) * u + b * u) with u in S by ring. exact S.
Qed.

(** ** A computed vertex against the corner it stands for *)
Lemma face_uv_pos f (u v : f64) r : (0 <= f < 6)%Z -> finite u -> finite v -> face_uv_to_xyz f u v = Some r ->
  px3 (face_pos f (B2R u) (B2R v)) = B2R (vx r) /\ py3 (face_pos f (B2R u) (B2R v)) = B2R (vy r) /\ pz3 (face_pos f (B2R u) (B2R v)) = B2R (vz r).
Proof.
  intros Hf Fu Fv. destruct f1_val as [F1 V1]. destruct (fneg_val f1 F1) as [Fn Vn]. destruct (fneg_val u Fu) as [Fnu Vnu]. destruct (fneg_val v Fv) as [Fnv Vnv].
  unfold face_uv_to_xyz, face_pos. destruct (face_zero_cases f Hf) as [-> | [-> | [-> | [-> | [-> | ->]]]]]; cbn [Z.eqb Pos.eqb]; intros E; apply Some_inj in E; subst r;
  cbn [vx vy vz px3 py3 pz3]; rewrite ?Vn, ?Vnu, ?Vnv, ?V1; repeat split; lra.
Qed.
Lemma cube_moderate r : cube_pt r -> moderate r /\ 1 <= sqn r <= 3.
Proof.
  intros (F & B1 & B2 & B3 & O).
  assert (S : 1 <= sqn r <= 3).
  { unfold sqn. rewrite <- (sqr_abs (X r)), <- (sqr_abs (Y r)), <- (sqr_abs (Z r)). pose proof (Rabs_pos (X r)). pose proof (Rabs_pos (Y r)). pose proof (Rabs_pos (Z r)).
    destruct O as [O|[O|O]]; nra. }
  split; [|exact S]. split; [exact F|]. split.
  - apply Rle_trans with (pow2 0); [apply bpow_le; lia|change (pow2 0) with 1; lra].
  - apply Rle_trans with (pow2 2); [change (pow2 2) with 4; lra|apply bpow_le; lia].
Qed.
(* for a unit vector c, the product with the direction of the normalised point differs
   little from the product with the exact direction *)
Lemma normalize_dot c r : on_sphere c -> cube_pt r ->
  let d := direction (VectorModel.normalize r) in
  Rabs (sqrt (sqn r) * rdot c d - (px3 c * X r + py3 c * Y r + pz3 c * Z r)) <= 2 / 100000000000000.
Proof.
  intros Sc C. cbv zeta. destruct (cube_moderate r C) as [M S]. destruct (normalize_close r M) as (n & P & SS & FV & E1 & E2 & E3 & U).
  assert (EN : sqrt (sqn r) = n) by (rewrite <- SS; apply sqrt_square; lra). rewrite EN.
  assert (BN : 1 <= n <= 2) by nra. set (w := VectorModel.normalize r) in *.
  unfold direction, rdot. cbn [px3 py3 pz3]. fold (sqn w).
  (* the exact length of the computed vector *)
  assert (INV : 0 < / n) by (apply Rinv_0_lt_compat; lra).
  destruct (sqn_comp r n ltac:(lra) ltac:(lra)) as (C1 & C2 & C3).
  assert (LE1 : forall x, Rabs x <= n -> Rabs (x / n) <= 1).
  { intros x Hx. unfold Rdiv. rewrite Rabs_mult, (Rabs_pos_eq (/ n)) by lra. apply Rmult_le_reg_r with n; [lra|]. rewrite Rmult_assoc, Rinv_l by lra. lra. }
  pose proof (LE1 _ C1) as L1. pose proof (LE1 _ C2) as L2. pose proof (LE1 _ C3) as L3.
  assert (SUM : X r / n * (X r / n) + Y r / n * (Y r / n) + Z r / n * (Z r / n) = 1).
  { transitivity (sqn r / (n * n)); [unfold sqn; field; lra|]. rewrite SS. field. lra. }
  pose proof (sq_close _ _ L1 E1) as Q1. pose proof (sq_close _ _ L2 E2) as Q2. pose proof (sq_close _ _ L3 E3) as Q3.
  pose proof h_tiny as HT. pose proof h_pos as HP.
  assert (SW : Rabs (sqn w - 1) <= 18 * u).
  { unfold sqn. set (a := X r / n) in *. set (b := Y r / n) in *. set (e := Z r / n) in *.
    replace (X w * X w + Y w * Y w + Z w * Z w - 1) with ((X w * X w - a * a) + (Y w * Y w - b * b) + (Z w * Z w - e * e)) by lra.
    apply Rabs_le_inv in Q1. apply Rabs_le_inv in Q2. apply Rabs_le_inv in Q3.
    assert (17 * u * (a * a) + 17 * u * (b * b) + 17 * u * (e * e) = 17 * u) by (rewrite <- !Rmult_plus_distr_l, SUM; ring). apply Rabs_le. lra. }
  apply Rabs_le_inv in SW. assert (PW : 0 < sqn w) by lra. pose proof (sqrt_sqrt (sqn w) ltac:(lra)) as WW. pose proof (sqrt_lt_R0 _ PW) as PWs.
  set (m := sqrt (sqn w)) in *. assert (BM : 1 - 10 * u <= m <= 1 + 10 * u) by (split; apply Rnot_lt_le; intros CC; nra).
  assert (IM : 0 < / m) by (apply Rinv_0_lt_compat; lra).
  (* componentwise *)
  assert (CMP : forall x y, Rabs (x / n) <= 1 -> Rabs (y - x / n) <= 8 * u * Rabs (x / n) + h -> Rabs (n * (y / m) - x) <= 50 * u).
  { intros x y Lx Ex. assert (x = n * (x / n)) as EX by (field; lra). set (p := x / n) in *. rewrite EX.
    assert (Ey : Rabs (y - p) <= 9 * u) by lra. apply Rabs_le_inv in Ey. apply Rabs_le_inv in Lx.
    replace (n * (y / m) - n * p) with (n * ((y - p * m) * / m)) by (field; lra).
    rewrite Rabs_mult, (Rabs_pos_eq n) by lra. rewrite Rabs_mult, (Rabs_pos_eq (/ m)) by lra.
    assert (T : Rabs (y - p * m) <= 20 * u) by (apply Rabs_le; nra).
    assert (IM2 : / m <= 1 + 20 * u). { apply Rmult_le_reg_r with m; [lra|]. rewrite Rinv_l by lra. nra. }
    assert (Rabs (y - p * m) * / m <= 20 * u * (1 + 20 * u)) by (apply Rmult_le_compat; try lra; apply Rabs_pos).
    assert (n * (Rabs (y - p * m) * / m) <= 2 * (20 * u * (1 + 20 * u))); [|lra].
    apply Rmult_le_compat; try lra. apply Rmult_le_pos; [apply Rabs_pos|lra]. }
  pose proof (CMP _ _ L1 E1) as K1. pose proof (CMP _ _ L2 E2) as K2. pose proof (CMP _ _ L3 E3) as K3.
  assert (BC : Rabs (px3 c) <= 1 /\ Rabs (py3 c) <= 1 /\ Rabs (pz3 c) <= 1).
  { assert (H : forall x y z, x * x + y * y + z * z = 1 -> Rabs x <= 1).
    { clear. intros x y z E. assert (x * x <= 1) by (pose proof (Rle_0_sqr y); pose proof (Rle_0_sqr z); unfold Rsqr in *; lra). apply Rabs_le. split; nra. }
    unfold on_sphere in Sc. split; [|split].
    - apply (H _ (py3 c) (pz3 c)). lra.
    - apply (H _ (px3 c) (pz3 c)). lra.
    - apply (H _ (px3 c) (py3 c)). lra. }
  destruct BC as (B1 & B2 & B3).
  replace (n * (px3 c * (X w / m) + py3 c * (Y w / m) + pz3 c * (Z w / m)) - (px3 c * X r + py3 c * Y r + pz3 c * Z r))
    with (px3 c * (n * (X w / m) - X r) + py3 c * (n * (Y w / m) - Y r) + pz3 c * (n * (Z w / m) - Z r)) by ring.
  assert (PB : forall a b, Rabs a <= 1 -> Rabs b <= 50 * u -> Rabs (a * b) <= 50 * u).
  { intros a b Ha Hb. rewrite Rabs_mult. apply Rle_trans with (1 * (50 * u)); [apply Rmult_le_compat; auto; apply Rabs_pos|lra]. }
  pose proof (PB _ _ B1 K1) as T1. pose proof (PB _ _ B2 K2) as T2. pose proof (PB _ _ B3 K3) as T3.
  apply Rabs_le_inv in T1. apply Rabs_le_inv in T2. apply Rabs_le_inv in T3. apply Rabs_le. lra.
Qed.

(** ** The corners of a cell and the real patch *)
Definition patch (s : s2cell) : pos -> Prop :=
  in_patch (c_face s) (B2R (lo1 (rx (c_uv s)))) (B2R (hi1 (rx (c_uv s)))) (B2R (lo1 (ry (c_uv s)))) (B2R (hi1 (ry (c_uv s)))).
Lemma vertex_dot c k p : wf c -> (0 <= k < 4)%Z -> cell_vertex (cell_of c) k = Some p ->
  let U := B2R (uvl (2 * cor_i (sq c) k)) in let V := B2R (uvl (2 * cor_j (sq c) k)) in
  is_unit p = true /\ 1 <= L U V <= 2 /\
  forall d, on_sphere d -> Rabs (L U V * rdot d (direction p) - rdot d (face_pos (face_of c) U V)) <= 2 / 100000000000000.
Proof.
  intros W Hk E. cbv zeta. destruct (vertex_raw c k W Hk) as (Ri & Rj & r & Er & C & V). rewrite V in E. apply Some_inj in E. subst p.
  pose proof (face_of_range c W) as Hf.
  destruct (uvl_val (2 * cor_i (sq c) k) ltac:(lia)) as (Fk & _ & Bk). destruct (uvl_val (2 * cor_j (sq c) k) ltac:(lia)) as (Fl & _ & Bl).
  destruct (face_uv_pos _ _ _ r Hf Fk Fl Er) as (P1 & P2 & P3). destruct (cube_moderate r C) as [M S].
  destruct (normalize_close r M) as (n & P & SS & FV & E1 & E2 & E3 & UU).
  set (U := B2R (uvl (2 * cor_i (sq c) k))) in *. set (VV := B2R (uvl (2 * cor_j (sq c) k))) in *.
  assert (EL : sqrt (sqn r) = L U VV). { unfold L, sqn. rewrite <- (face_pos_len (face_of c) U VV), P1, P2, P3. reflexivity. }
  split; [exact UU|]. split; [split; [apply L_pos|apply L_le2; lra]|].
  intros d Sd. pose proof (normalize_dot d r Sd C) as N. cbv zeta in N. rewrite EL in N. unfold rdot at 2. rewrite P1, P2, P3. exact N.
Qed.
Lemma cell_vertices_ok c : wf c -> exists p0 p1 p2 p3, cell_vertices (cell_of c) = Some [p0; p1; p2; p3] /\
  cell_vertex (cell_of c) 0 = Some p0 /\ cell_vertex (cell_of c) 1 = Some p1 /\ cell_vertex (cell_of c) 2 = Some p2 /\ cell_vertex (cell_of c) 3 = Some p3.
Proof.
  intros W. destruct (vertex_raw c 0 W ltac:(lia)) as (_ & _ & r0 & _ & _ & V0). destruct (vertex_raw c 1 W ltac:(lia)) as (_ & _ & r1 & _ & _ & V1).
  destruct (vertex_raw c 2 W ltac:(lia)) as (_ & _ & r2 & _ & _ & V2). destruct (vertex_raw c 3 W ltac:(lia)) as (_ & _ & r3 & _ & _ & V3).
  eexists _, _, _, _. split; [|repeat split; eassumption]. unfold cell_vertices, vertices_from. rewrite V0, V1, V2, V3. reflexivity.
Qed.
(* a bound at the four vertices holds on the whole patch *)
Lemma vertices_patch c x K t p0 p1 p2 p3 : wf c -> on_sphere x -> 0 <= K -> 0 <= t ->
  cell_vertices (cell_of c) = Some [p0; p1; p2; p3] ->
  (forall p, In p [p0; p1; p2; p3] -> is_unit p = true -> K - t <= rdot x (direction p)) ->
  forall d, patch (cell_of c) d -> K - 2 * t - 2 / 100000000000000 <= rdot x d.
Proof.
  intros W Sx HK Ht E H d (Sd & U & V & s & HU & HV & Ps & D1 & D2 & D3).
  destruct (cell_vertices_ok c W) as (q0 & q1 & q2 & q3 & E' & V0 & V1 & V2 & V3). rewrite E in E'. apply Some_inj in E'.
  assert (q0 = p0 /\ q1 = p1 /\ q2 = p2 /\ q3 = p3) as (-> & -> & -> & ->) by (inversion E'; auto). clear E'.
  assert (CORNER : forall k p, (0 <= k < 4)%Z -> cell_vertex (cell_of c) k = Some p -> In p [p0; p1; p2; p3] ->
    K * L (B2R (uvl (2 * cor_i (sq c) k))) (B2R (uvl (2 * cor_j (sq c) k))) - (2 * t + 2 / 100000000000000) <=
    rdot x (face_pos (face_of c) (B2R (uvl (2 * cor_i (sq c) k))) (B2R (uvl (2 * cor_j (sq c) k))))).
  { intros k p Hk Ek I. destruct (vertex_dot c k p W Hk Ek) as (UU & BL & ND). specialize (ND x Sx). specialize (H p I UU).
    set (l := L _ _) in *. set (w := face_pos _ _ _) in *. apply Rabs_le_inv in ND.
    assert (l * (K - t) <= l * rdot x (direction p)) by (apply Rmult_le_compat_l; lra). nra. }
  pose proof (CORNER 0%Z p0 ltac:(lia) V0 ltac:(cbn [In]; auto)) as C0. pose proof (CORNER 1%Z p1 ltac:(lia) V1 ltac:(cbn [In]; auto)) as C1.
  pose proof (CORNER 2%Z p2 ltac:(lia) V2 ltac:(cbn [In]; auto)) as C2. pose proof (CORNER 3%Z p3 ltac:(lia) V3 ltac:(cbn [In]; auto)) as C3.
  unfold cor_i, cor_j in C0, C1, C2, C3. cbn [Z.eqb Pos.eqb orb Z.leb Z.compare Pos.compare Pos.compare_cont] in C0, C1, C2, C3. rewrite (Z.add_0_r (sq_i (sq c))) in C0, C3. rewrite (Z.add_0_r (sq_j (sq c))) in C0, C1.
  unfold cell_of, uvrect in HU, HV. cbn [c_uv rx ry lo1 hi1] in HU, HV. change (c_face (cell_of c)) with (face_of c) in D1, D2, D3.
  pose proof (patch_lower (fun a b => rdot x (face_pos (face_of c) a b)) K (2 * t + 2 / 100000000000000) _ _ _ _
    ltac:(intros a x0 y0 x1 y1; cbv beta; rewrite (face_pos_lin _ x ((1 - a) * x0 + a * x1)), (face_pos_lin _ x x0 y0), (face_pos_lin _ x x1 y1); ring)
    HK C0 C1 C3 C2 U V HU HV) as PL. cbv beta in PL.
  assert (SL : s * L U V = 1).
  { pose proof (L_pos U V) as LP. pose proof (L_sq U V) as LS. pose proof (face_pos_len (face_of c) U V) as FL. unfold on_sphere in Sd. rewrite D1, D2, D3 in Sd.
    assert (SQ : (s * L U V) * (s * L U V) = 1) by (rewrite <- Sd; replace (s * L U V * (s * L U V)) with (s * s * (L U V * L U V)) by ring; rewrite LS, <- FL; ring).
    assert (0 < s * L U V) by (apply Rmult_lt_0_compat; lra). nra. }
  pose proof (L_pos U V) as LP. assert (S1 : s <= 1) by nra.
  assert (ED : rdot x d = s * rdot x (face_pos (face_of c) U V)) by (unfold rdot; rewrite D1, D2, D3; ring). rewrite ED.
  assert (s * (K * L U V - (2 * t + 2 / 100000000000000)) <= s * rdot x (face_pos (face_of c) U V)) by (apply Rmult_le_compat_l; lra).
  assert (s * (K * L U V - (2 * t + 2 / 100000000000000)) = K - s * (2 * t + 2 / 100000000000000)) by (rewrite <- (Rmult_1_r K) at 2; rewrite <- SL; ring).
  assert (s * (2 * t + 2 / 100000000000000) <= 2 * t + 2 / 100000000000000) by nra. lra.
Qed.

(** ** The predicates answer *)
Lemma contains_point_ans c p : wf c -> exists b, cell_contains_point (cell_of c) p = Some b.
Proof.
  intros W. pose proof (face_of_range c W) as Hf. unfold cell_contains_point. change (c_face (cell_of c)) with (face_of c).
  destruct (valid_face_some (face_of c) p Hf) as (a & b & V). unfold face_xyz_to_uv. rewrite V.
  destruct (face_zero_cases _ Hf) as [E | [E | [E | [E | [E | E]]]]]; rewrite E; cbn [Z.eqb Pos.eqb];
  match goal with |- context [if ?b then Some None else _] => destruct b end; eexists; reflexivity.
Qed.
Lemma edge_ans c k : wf c -> (0 <= k < 4)%Z -> exists e, cell_edge (cell_of c) k = Some e.
Proof.
  intros W Hk. pose proof (face_of_range c W) as Hf. unfold cell_edge, unorm, vnorm. change (c_face (cell_of c)) with (face_of c).
  assert (K : (k = 0 \/ k = 1 \/ k = 2 \/ k = 3)%Z) by lia.
  destruct (face_zero_cases _ Hf) as [-> | [-> | [-> | [-> | [-> | ->]]]]]; destruct K as [-> | [-> | [-> | ->]]]; cbn [Z.eqb Pos.eqb]; eexists; reflexivity.
Qed.
Lemma edges_ans cp c p0 p1 p2 p3 s2 ks : wf c -> (forall k, In k ks -> (0 <= k < 4)%Z) -> exists b, edges_check cp (cell_of c) [p0; p1; p2; p3] s2 ks = Some b.
Proof.
  intros W. induction ks as [|k t IH]; intros H; [eexists; reflexivity|]. cbn [edges_check].
  assert (Hk : (0 <= k < 4)%Z) by (apply H; left; reflexivity). destruct (edge_ans c k W Hk) as [e ->].
  destruct IH as [b' IH]; [intros; apply H; right; auto|].
  destruct (fgt _ f0); [eauto|]. destruct (fgt _ _); [eauto|].
  assert (K : (k = 0 \/ k = 1 \/ k = 2 \/ k = 3)%Z) by lia. destruct (index4 p0 p1 p2 p3) as (I0 & I1 & I2 & I3).
  destruct K as [-> | [-> | [-> | ->]]]; [change (Z.land (0 + 1) 3) with 1%Z|change (Z.land (1 + 1) 3) with 2%Z|change (Z.land (2 + 1) 3) with 3%Z|change (Z.land (3 + 1) 3) with 0%Z];
  rewrite ?I0, ?I1, ?I2, ?I3; match goal with |- context [if ?b then _ else _] => destruct b end; eauto.
Qed.
Lemma icv_ans cp c p0 p1 p2 p3 : wf c -> exists b, intersects_cell_vertices cp (cell_of c) [p0; p1; p2; p3] = Some b.
Proof.
  intros W. unfold intersects_cell_vertices. destruct (fge _ _); [eauto|]. destruct (cap_is_empty cp); [eauto|].
  destruct (contains_point_ans c (center cp) W) as [b ->]. destruct b; [eauto|]. apply edges_ans; auto. cbn [In]. intros k H. lia.
Qed.
Lemma right_complement (r : f64) : finite r -> 0 <= B2R r <= 2 -> fge (chord_sub STRAIGHT r) RIGHT = true.
Proof.
  intros F B. destruct c4_val as [F4 V4]. destruct f1_val as [F1 V1]. destruct f2_val as [F2 V2].
  unfold chord_sub, STRAIGHT, RIGHT, fge. destruct (feq_R r f0 F eq_refl) as [E|E]; [destruct (fle_R _ _ F2 F4); [reflexivity|lra]|]. change (B2R f0) with 0 in E.
  destruct (fle_R _ _ F4 F) as [|_]; [lra|]. destruct quarter_val as [Fq Vq].
  assert (SM : forall x, Rabs x <= 8 -> Rabs x <= bpow radix2 1000) by (intros x Hx; apply Rle_trans with 8; [exact Hx|apply big_1000; lra]).
  (* the first product is at least 2 *)
  pose proof (fmul_result quarter r Fq F) as R1. rewrite Vq in R1. destruct (result_rel _ _ R1) as (Fq1 & Vq1 & _); [apply SM, Rabs_le; lra|].
  assert (B1 : 0 <= B2R (fmul quarter r) <= 1 / 2).
  { rewrite Vq1. split; [rewrite <- rnd_0; apply rnd_le; lra|]. destruct fhalf_val as [Fh Vh]. apply Rle_trans with (/ 2); [apply (rnd_upper fhalf _ _ Vh); lra|lra]. }
  pose proof (fsub_result f1 _ F1 Fq1) as R2. rewrite V1 in R2. destruct (result_rel _ _ R2) as (Fs & Vs & _); [apply SM, Rabs_le; lra|].
  assert (B2 : 1 / 2 <= B2R (fsub f1 (fmul quarter r)) <= 1).
  { rewrite Vs. destruct fhalf_val as [Fh Vh]. split; [apply Rle_trans with (/ 2); [lra|apply (rnd_lower fhalf _ _ Vh); lra]|apply (rnd_upper f1 _ _ V1); lra]. }
  pose proof (fmul_result c4 _ F4 Fs) as R3. rewrite V4 in R3. destruct (result_rel _ _ R3) as (Fx & Vx & _); [apply SM, Rabs_le; lra|].
  set (x := fmul c4 (fsub f1 (fmul quarter r))) in *.
  assert (BX : 2 <= B2R x <= 4).
  { rewrite Vx. split; [apply (rnd_lower f2 _ _ V2); lra|apply (rnd_upper c4 _ _ V4); lra]. }
  (* the second is 0 *)
  pose proof (fmul_result quarter c4 Fq F4) as R4. rewrite Vq, V4 in R4. replace (/ 4 * 4) with (B2R f1) in R4 by (rewrite V1; field).
  destruct (result_exact _ _ f1 R4 eq_refl) as [Fa Va]. rewrite V1 in Va.
  pose proof (fsub_result f1 _ F1 Fa) as R5. rewrite V1, Va in R5. replace (1 - 1) with (B2R f0) in R5 by (change (B2R f0) with 0; ring).
  destruct (result_exact _ _ f0 R5 eq_refl) as [Fb Vb]. change (B2R f0) with 0 in Vb.
  pose proof (fmul_result r _ F Fb) as R6. rewrite Vb in R6. replace (B2R r * 0) with (B2R f0) in R6 by (change (B2R f0) with 0; ring).
  destruct (result_exact _ _ f0 R6 eq_refl) as [Fy Vy]. change (B2R f0) with 0 in Vy. set (y := fmul r (fsub f1 (fmul quarter c4))) in *.
  pose proof (fadd_result x y Fx Fy) as R7. rewrite Vy, Rplus_0_r in R7. destruct (result_exact _ _ x R7 eq_refl) as [Fxy Vxy].
  pose proof (fmul_result x y Fx Fy) as R8. rewrite Vy, Rmult_0_r in R8. destruct (result_exact _ _ f0 R8 eq_refl) as [Fp Vp]. change (B2R f0) with 0 in Vp.
  destruct (fsqrt_val _ Fp ltac:(lra)) as [Fr Vr]. rewrite Vp, sqrt_0, rnd_0 in Vr.
  pose proof (fmul_result f2 _ F2 Fr) as R9. rewrite Vr, Rmult_0_r in R9. destruct (result_exact _ _ f0 R9 eq_refl) as [Fr2 Vr2]. change (B2R f0) with 0 in Vr2.
  pose proof (fsub_result _ _ Fxy Fr2) as R10. rewrite Vxy, Vr2, Rminus_0_r in R10. destruct (result_exact _ _ x R10 eq_refl) as [Fd Vd].
  destruct (fmax_R f0 _ eq_refl Fd) as [Fm Vm]. rewrite Vd in Vm. change (B2R f0) with 0 in Vm. rewrite Rmax_right in Vm by lra.
  destruct (fle_R _ _ F2 Fm); [reflexivity|lra].
Qed.
