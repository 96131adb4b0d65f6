(** intersects_cell_vertices against the part of the sphere below the cell. *)
From Coq Require Import Reals Lra Lia Psatz Bool List.
From Flocq Require Import Core Sterbenz Mult_error.
From Verif Require Import Base Spec F64 F64Facts IntervalSpec F64Arith F64Error F64Neg S1Proofs R1Model VectorModel StuvModel
  CellIdModel CellIdArith CellIdProofs HilbertSpec HilbertGeom CellModel StuvError CellLattice CellProofs CellPoint CellVertex
  PredicatesError PredicatesFloat PredicatesSound CapSpec CapModel ChordProofs CapProofs CapError NormProofs CapCell CapEdge CapEdgeFloat.
Import ListNotations.
Open Scope R_scope.

(** ** Lengths of the computed unit vectors *)
Lemma near_sq a b e : Rabs (a - b) <= e -> Rabs b <= 1 -> 0 <= e -> e <= 1 / 4 -> Rabs (a * a - b * b) <= 9 / 4 * e.
Proof.
  intros A B E0 E1. replace (a * a - b * b) with ((a - b) * (a + b)) by ring. rewrite Rabs_mult. apply Rabs_le_inv in B. pose proof (Rabs_le_inv _ _ A).
  assert (Rabs (a + b) <= 9 / 4) by (apply Rabs_le; lra). pose proof (Rabs_pos (a - b)). pose proof (Rabs_pos (a + b)). assert (Rabs (a - b) * Rabs (a + b) <= e * (9 / 4)) by (apply Rmult_le_compat; lra). lra.
Qed.
Lemma sphere_le1 d : on_sphere d -> Rabs (px3 d) <= 1 /\ Rabs (py3 d) <= 1 /\ Rabs (pz3 d) <= 1.
Proof.
  unfold on_sphere. intros S. pose proof (Rle_0_sqr (px3 d)). pose proof (Rle_0_sqr (py3 d)). pose proof (Rle_0_sqr (pz3 d)). unfold Rsqr in *.
  repeat split; apply Rabs_le; nra.
Qed.
Lemma close_len v d : close v d -> on_sphere d -> Rabs (sqn v - 1) <= 64 * u.
Proof.
  intros (C1 & C2 & C3) S. destruct (sphere_le1 d S) as (B1 & B2 & B3). unfold on_sphere in S.
  pose proof (near_sq _ _ _ C1 B1 ltac:(lra) ltac:(lra)) as D1. pose proof (near_sq _ _ _ C2 B2 ltac:(lra) ltac:(lra)) as D2. pose proof (near_sq _ _ _ C3 B3 ltac:(lra) ltac:(lra)) as D3.
  unfold sqn. apply Rabs_le_inv in D1. apply Rabs_le_inv in D2. apply Rabs_le_inv in D3. apply Rabs_le. lra.
Qed.
Lemma close_dir v d : close v d -> on_sphere d -> dist2 (direction v) d <= (256 * u) * (256 * u).
Proof.
  intros C S. pose proof (close_len v d C S) as L. destruct C as (C1 & C2 & C3). destruct (sphere_le1 d S) as (B1 & B2 & B3).
  unfold dist2, direction. cbn [px3 py3 pz3]. fold (sqn v). apply Rabs_le_inv in L. set (m := sqrt (sqn v)).
  assert (M0 : 0 <= m) by apply sqrt_pos. assert (MM : m * m = sqn v) by (apply sqrt_sqrt; lra). assert (M1 : 1 - 64 * u <= m <= 1 + 64 * u) by nra.
  assert (T : forall x y, Rabs (x - y) <= 9 * u -> Rabs y <= 1 -> (x / m - y) * (x / m - y) <= (80 * u) * (80 * u)).
  { intros x y A B. assert (Q : Rabs (x / m - y) <= 80 * u).
    { replace (x / m - y) with ((x - m * y) / m) by (field; lra). unfold Rdiv. rewrite Rabs_mult, (Rabs_pos_eq (/ m)) by (left; apply Rinv_0_lt_compat; lra).
      assert (N : Rabs (x - m * y) <= 73 * u). { replace (x - m * y) with ((x - y) + (1 - m) * y) by ring. eapply Rle_trans; [apply Rabs_triang|]. rewrite Rabs_mult. assert (Rabs (1 - m) <= 64 * u) by (apply Rabs_le; lra). pose proof (Rabs_pos y). pose proof (Rabs_pos (1 - m)). nra. }
      assert (I : / m <= 80 / 73) by (apply Rmult_le_reg_r with m; [lra|]; rewrite Rinv_l by lra; lra). assert (0 < / m) by (apply Rinv_0_lt_compat; lra). pose proof (Rabs_pos (x - m * y)).
      apply Rle_trans with (73 * u * (80 / 73)); [apply Rmult_le_compat; lra|lra]. }
    rewrite <- sqr_abs. apply Rmult_le_compat; auto using Rabs_pos. }
  pose proof (T _ _ C1 B1). pose proof (T _ _ C2 B2). pose proof (T _ _ C3 B3). lra.
Qed.

(** ** The chord metric *)
Definition chd (a b : pos) : R := sqrt (dist2 a b).
Lemma chd_tri a b c : chd a c <= chd a b + chd b c.
Proof.
  unfold chd. assert (P : forall x y, 0 <= dist2 x y). { intros x y. unfold dist2. pose proof (Rle_0_sqr (px3 x - px3 y)). pose proof (Rle_0_sqr (py3 x - py3 y)). pose proof (Rle_0_sqr (pz3 x - pz3 y)). unfold Rsqr in *. lra. }
  pose proof (sqrt_pos (dist2 a b)) as S1. pose proof (sqrt_pos (dist2 b c)) as S2. pose proof (sqrt_sqrt _ (P a b)) as E1. pose proof (sqrt_sqrt _ (P b c)) as E2.
  set (s := sqrt (dist2 a b)) in *. set (t := sqrt (dist2 b c)) in *. rewrite <- (sqrt_square (s + t)) by lra. apply sqrt_le_1_alt.
  set (dx := px3 a - px3 b). set (dy := py3 a - py3 b). set (dz := pz3 a - pz3 b). set (ex := px3 b - px3 c). set (ey := py3 b - py3 c). set (ez := pz3 b - pz3 c).
  assert (A : dist2 a c = dist2 a b + dist2 b c + 2 * (dx * ex + dy * ey + dz * ez)) by (unfold dist2, dx, dy, dz, ex, ey, ez; ring).
  assert (B : (dx * ex + dy * ey + dz * ez) * (dx * ex + dy * ey + dz * ez) <= (s * t) * (s * t)).
  { replace (s * t * (s * t)) with ((s * s) * (t * t)) by ring. rewrite E1, E2. unfold dist2. fold dx dy dz ex ey ez.
    pose proof (Rle_0_sqr (dx * ey - dy * ex)). pose proof (Rle_0_sqr (dx * ez - dz * ex)). pose proof (Rle_0_sqr (dy * ez - dz * ey)). unfold Rsqr in *. lra. }
  assert (G : 0 <= s * t) by (apply Rmult_le_pos; lra). assert (dx * ex + dy * ey + dz * ez <= s * t) by nra. rewrite A. lra.
Qed.
Lemma chd_sym a b : chd a b = chd b a.
Proof. unfold chd, dist2. f_equal. ring. Qed.

(** ** What the loop says about an edge *)
Section row.
  Variable (c : cell) (v : vec).
  Hypothesis W : wf c.
  Hypothesis Hv : is_unit v = true.
  Let q := cell_rc c.
  Let C := loc (face_of c) (direction v).
  Record row (k : BinInt.Z) (e p w : vec) : Prop := {
    row_len : 1 <= sqrt (dt (eN k q) (eN k q)) <= 3 / 2 /\ sqrt (dt (eN k q) (eN k q)) * sqrt (dt (eN k q) (eN k q)) = dt (eN k q) (eN k q);
    row_pos : fgt (dot v e) f0 = true -> - EF <= elin k q C /\ (0 < pw C -> - (2 * u) * pw C <= elin k q C);
    row_neg : fgt (dot v e) f0 = false -> elin k q C <= EF;
    row_far : forall r, finite r -> 0 <= B2R r <= 2 -> fgt (dot v e) f0 = false -> fgt (fmul (dot v e) (dot v e)) (fmul (chord_sin2 r) (norm2 e)) = true ->
      elin k q C / sqrt (dt (eN k q) (eN k q)) <= - (sn (B2R r) - EF);
    row_cut : forall r, finite r -> 0 <= B2R r <= 2 -> fgt (fmul (dot v e) (dot v e)) (fmul (chord_sin2 r) (norm2 e)) = false ->
      Rabs (elin k q C / sqrt (dt (eN k q) (eN k q))) <= sn (B2R r) + EF;
    row_A : (flt (dot (cross e v) p) f0 = true -> - EF <= edA k q C) /\ (flt (dot (cross e v) p) f0 = false -> edA k q C <= EF);
    row_B : (fgt (dot (cross e v) w) f0 = true -> - EF <= edB k q C) /\ (fgt (dot (cross e v) w) f0 = false -> edB k q C <= EF) }.
  Lemma elin_scale k t x : elin k q (scale t x) = t * elin k q x.
  Proof. destruct (scale_lin q t x) as (A0 & A1 & A2 & A3). unfold elin. destruct (k =? 0)%Z; auto. destruct (k =? 1)%Z; auto. destruct (k =? 2)%Z; auto. Qed.
  Lemma sgn_bound D m z E K : Rabs (D - m * z) <= E -> Rabs (m - 1) <= KR -> 0 <= E -> E * (1 + 300 * u) <= K -> (0 <= D -> - K <= z) /\ (D <= 0 -> z <= K).
  Proof.
    intros A M E0 EK. unfold KR in M. apply Rabs_le_inv in M. apply Rabs_le_inv in A.
    assert (P : forall x, m * x <= E -> x <= K). { intros x L. apply Rle_trans with (E * (1 + 300 * u)); [|exact EK]. apply Rnot_lt_le. intros H. assert (m * (E * (1 + 300 * u)) < m * x) by (apply Rmult_lt_compat_l; lra). assert (E * 1 <= E * (m * (1 + 300 * u))) by (apply Rmult_le_compat_l; [lra|nra]). lra. }
    split; intros H; [apply Ropp_le_cancel; rewrite Ropp_involutive|]; apply P; lra.
  Qed.
  Lemma mul_up z n K b : z <= K -> 0 <= K -> 0 <= n <= b -> z * n <= K * b.
  Proof. intros A B N. assert (z * n <= K * n) by (apply Rmult_le_compat_r; lra). assert (K * n <= K * b) by (apply Rmult_le_compat_l; lra). lra. Qed.
  Lemma mul_dn z n K b : - K <= z -> 0 <= K -> 0 <= n <= b -> - (K * b) <= z * n.
  Proof. intros A B N. pose proof (mul_up (- z) n K b ltac:(lra) B N). lra. Qed.
  Lemma sn_le1 r : 0 <= r <= 4 -> sn r <= 1.
  Proof. intros B. destruct (sn_facts r B) as (S0 & SS & _). pose proof (Rle_0_sqr (r / 2 - 1)) as Q. unfold Rsqr in Q. assert (T : sn r * sn r <= 1) by lra. clear - S0 T. nra. Qed.
  Lemma row_ok k : (0 <= k < 4)%Z -> exists e p w, cell_edge (cell_of c) k = Some e /\ cell_vertex (cell_of c) k = Some p /\
    cell_vertex (cell_of c) (Z.land (k + 1) 3) = Some w /\ row k e p w.
  Proof.
    intros Hk. assert (Hk' : (0 <= Z.land (k + 1) 3 < 4)%Z) by (edges k Hk; lia). pose proof (face_of_range c W) as Hf.
    destruct (normal_edge c k W Hk) as (r & E & NR & EN). destruct (vertex_cube c k W Hk) as (rp & EP & CP & LP). destruct (vertex_cube c _ W Hk') as (rw & EW & CW & LW).
    exists (VectorModel.normalize r), (VectorModel.normalize rp), (VectorModel.normalize rw). split; [exact E|]. split; [exact EP|]. split; [exact EW|].
    destruct (edge_dot (face_of c) v Hf Hv r _ NR EN) as (BN & NN & FD & ED). fold C q in ED, BN, NN. rewrite <- elin_dt in ED by auto.
    destruct (edge_det (face_of c) v Hf Hv r _ rp _ NR EN CP LP) as (BA & FA & EA). fold C q in EA, BA. pose proof (edA_det k q C Hk) as XA.
    destruct (edge_det (face_of c) v Hf Hv r _ rw _ NR EN CW LW) as (BB & FB & EB). fold C q in EB, BB. rewrite <- edB_det in EB by auto.
    replace (ddet (eN k q) C (eV k q)) with (- edA k q C) in EA by (rewrite XA; ring).
    destruct (unit_ctr v Hv) as (BM & UV & EV & SV). set (m := sqrt (sqn v)) in *. set (e := VectorModel.normalize r) in *.
    pose proof (edge_inner c k v r W Hk Hv NR EN) as INN. fold q e in INN. rewrite EV, loc_shrink in INN by auto. fold C in INN. cbv zeta in INN. rewrite elin_scale in INN.
    destruct NR as [CR Z0]. destruct (cube_close r CR) as (_ & _ & UE & _ & CL & SP). pose proof (close_len _ _ CL SP) as LE. fold e in UE, LE, CL.
    set (n := sqrt (dt (eN k q) (eN k q))) in *. set (nA := n * sqrt (dt (eV k q) (eV k q))) in *. set (nB := n * sqrt (dt (eV (Z.land (k + 1) 3) q) (eV (Z.land (k + 1) 3) q))) in *.
    set (l := elin k q C) in *. set (z := l / n) in *. assert (ZL : l = z * n) by (unfold z; field; lra).
    assert (BD : Rabs (B2R (dot v e)) <= 9 / 8).
    { assert (T : Rabs z <= 1). { unfold z, l. rewrite elin_dt by auto. assert (UC : unit3 C) by (apply loc_unit; auto). pose proof (cauchy3 C (eN k q)) as CS. rewrite UC, Rmult_1_l, <- NN in CS. apply Rabs_le. split; (apply Rmult_le_reg_r with n; [lra|]); unfold Rdiv; rewrite Rmult_assoc, Rinv_l by lra; nra. }
      pose proof BM as BM'. unfold KR in BM'. apply Rabs_le_inv in BM'. apply Rabs_le_inv in T. apply Rabs_le_inv in ED. pose proof (mul_up z m 1 (101 / 100) ltac:(lra) ltac:(lra) ltac:(lra)). pose proof (mul_dn z m 1 (101 / 100) ltac:(lra) ltac:(lra) ltac:(lra)). apply Rabs_le. lra. }
    unfold KR in *. destruct (sgn_bound _ _ _ _ (44 * u) ED ltac:(unfold KR; lra) ltac:(lra) ltac:(lra)) as [DP DN].
    destruct (sgn_bound _ _ _ _ (201 * u) EA ltac:(unfold KR; lra) ltac:(lra) ltac:(lra)) as [AP AN]. destruct (sgn_bound _ _ _ _ (201 * u) EB ltac:(unfold KR; lra) ltac:(lra) ltac:(lra)) as [BP BN'].
    assert (QA : edA k q C = - (- edA k q C / nA) * nA) by (field; lra). assert (QB : edB k q C = (edB k q C / nB) * nB) by (field; lra).
    set (za := - edA k q C / nA) in *. set (zb := edB k q C / nB) in *.
    constructor; unfold EF.
    - auto.
    - intros G. unfold fgt in G. destruct (flt_R f0 (dot v e) eq_refl FD) as [P|]; [|discriminate]. change (B2R f0) with 0 in P. split.
      + fold l. rewrite ZL. pose proof (mul_dn _ n _ (3 / 2) (DP ltac:(lra)) ltac:(lra) ltac:(lra)). lra.
      + intros PC. apply Rabs_le_inv in BM. assert (PM : 0 < m) by lra. assert (X1 : 0 < pw (scale m C)) by (unfold scale; cbn [pw]; apply Rmult_lt_0_compat; assumption).
        specialize (INN P X1). unfold scale in INN. cbn [pw] in INN. fold l. apply Rmult_le_reg_l with m; [exact PM|]. fold l in INN. lra.
    - intros G. unfold fgt in G. destruct (flt_R f0 (dot v e) eq_refl FD) as [|P]; [discriminate|]. change (B2R f0) with 0 in P. fold l. rewrite ZL. pose proof (mul_up _ n _ (3 / 2) (DN ltac:(lra)) ltac:(lra) ltac:(lra)). lra.
    - intros rr Fr Br G Far. unfold fgt in G. destruct (flt_R f0 (dot v e) eq_refl FD) as [|P]; [discriminate|]. change (B2R f0) with 0 in P. fold n; fold l; fold z.
      destruct (far_test (dot v e) rr e FD BD Fr Br UE LE) as [T _]. specialize (T Far). rewrite Rabs_left1 in T by lra. apply Rabs_le_inv in ED. apply Rabs_le_inv in BM.
      destruct (sn_facts (B2R rr) ltac:(lra)) as (S0 & _). pose proof (sn_le1 (B2R rr) ltac:(lra)) as S1. set (s := sn (B2R rr)) in *.
      assert (M1 : m * z <= - (s - 143 * u)) by lra. apply Rnot_lt_le. intros H. assert (m * - (s - / 17592186044416) < m * z) by (apply Rmult_lt_compat_l; lra). pose proof (mul_up (m - 1) s (27 / 1000000000000000) 1 ltac:(lra) ltac:(lra) ltac:(lra)). lra.
    - intros rr Fr Br Cut. fold n; fold l; fold z. destruct (far_test (dot v e) rr e FD BD Fr Br UE LE) as [_ T]. specialize (T Cut). apply Rabs_le_inv in ED. apply Rabs_le_inv in BM. apply Rabs_le_inv in T.
      destruct (sn_facts (B2R rr) ltac:(lra)) as (S0 & _). pose proof (sn_le1 (B2R rr) ltac:(lra)) as S1. set (s := sn (B2R rr)) in *.
      assert (M1 : - (s + 143 * u) <= m * z <= s + 143 * u) by lra. assert (M2 : s + 143 * u <= m * (s + / 17592186044416)) by (pose proof (mul_dn (m - 1) (s + / 17592186044416) (27 / 1000000000000000) (11 / 10) ltac:(lra) ltac:(lra) ltac:(lra)); lra). apply Rabs_le. split; apply Rnot_lt_le; intros H.
      + assert (m * z < m * - (s + / 17592186044416)) by (apply Rmult_lt_compat_l; lra). lra.
      + assert (m * (s + / 17592186044416) < m * z) by (apply Rmult_lt_compat_l; lra). lra.
    - split; intros G; destruct (flt_R _ f0 FA eq_refl) as [P|P]; try discriminate; change (B2R f0) with 0 in P; rewrite QA; [pose proof (mul_up _ nA _ (5 / 2) (AN ltac:(lra)) ltac:(lra) ltac:(lra))|pose proof (mul_dn _ nA _ (5 / 2) (AP ltac:(lra)) ltac:(lra) ltac:(lra))]; lra.
    - split; intros G; unfold fgt in G; destruct (flt_R f0 _ eq_refl FB) as [P|P]; try discriminate; change (B2R f0) with 0 in P; rewrite QB; [pose proof (mul_dn _ nB _ (5 / 2) (BP ltac:(lra)) ltac:(lra) ltac:(lra))|pose proof (mul_up _ nB _ (5 / 2) (BN' ltac:(lra)) ltac:(lra) ltac:(lra))]; lra.
  Qed.
End row.

(** ** The loop *)
Section loop.
  Variable (v : vec) (r : f64) (d : s2cell) (vs : list vec).
  Let cp := Cap v r.
  Definition is_far k := exists e, cell_edge d k = Some e /\ fgt (dot v e) f0 = false /\ fgt (fmul (dot v e) (dot v e)) (fmul (chord_sin2 r) (norm2 e)) = true.
  Definition is_inner k := exists e, cell_edge d k = Some e /\ fgt (dot v e) f0 = true.
  Definition is_outer k := exists e p w, cell_edge d k = Some e /\ index vs k = Some p /\ index vs (Z.land (k + 1) 3) = Some w /\ fgt (dot v e) f0 = false /\
    (flt (dot (cross e v) p) f0 = false \/ fgt (dot (cross e v) w) f0 = false).
  Definition is_cut k := exists e p w, cell_edge d k = Some e /\ index vs k = Some p /\ index vs (Z.land (k + 1) 3) = Some w /\ fgt (dot v e) f0 = false /\
    fgt (fmul (dot v e) (dot v e)) (fmul (chord_sin2 r) (norm2 e)) = false /\ flt (dot (cross e v) p) f0 = true /\ fgt (dot (cross e v) w) f0 = true.
  Lemma loop ks : (edges_check cp d vs (chord_sin2 r) ks = Some false -> (exists k, In k ks /\ is_far k) \/ forall k, In k ks -> is_inner k \/ is_outer k) /\
    (edges_check cp d vs (chord_sin2 r) ks = Some true -> exists k, In k ks /\ is_cut k).
  Proof.
    induction ks as [|k t [IF IT]]; cbn [edges_check].
    - split; [right; intros k []|discriminate].
    - destruct (cell_edge d k) as [e|] eqn:EE; [|split; discriminate]. cbn [center cp].
      destruct (fgt (dot v e) f0) eqn:G.
      + split; intros H.
        * destruct (IF H) as [(k' & I & F)|A]; [left; exists k'; split; [right|]; assumption|]. right. intros k' [<-|I]; [left; exists e; auto|auto].
        * destruct (IT H) as (k' & I & F). exists k'. split; [right|]; assumption.
      + destruct (fgt (fmul (dot v e) (dot v e)) _) eqn:F.
        { split; [|discriminate]. intros _. left. exists k. split; [left; reflexivity|]. exists e. auto. }
        destruct (index vs k) as [p|] eqn:EP; [|split; discriminate]. destruct (index vs (Z.land (k + 1) 3)) as [w|] eqn:EW; [|split; discriminate].
        destruct (flt (dot (cross e v) p) f0 && fgt (dot (cross e v) w) f0) eqn:AB.
        * split; [discriminate|]. intros _. apply andb_true_iff in AB. exists k. split; [left; reflexivity|]. exists e, p, w. destruct AB. auto 10.
        * assert (O : is_outer k) by (exists e, p, w; apply andb_false_iff in AB; auto 10). split; intros H.
          -- destruct (IF H) as [(k' & I & X)|A]; [left; exists k'; split; [right|]; assumption|]. right. intros k' [<-|I]; auto.
          -- destruct (IT H) as (k' & I & X). exists k'. split; [right|]; assumption.
  Qed.
End loop.

(** ** A cap that misses *)
Lemma four k : In k [0; 1; 2; 3]%Z <-> (0 <= k < 4)%Z. Proof. cbn [In]. lia. Qed.
Lemma index_vertex c p0 p1 p2 p3 : cell_vertex (cell_of c) 0 = Some p0 -> cell_vertex (cell_of c) 1 = Some p1 -> cell_vertex (cell_of c) 2 = Some p2 -> cell_vertex (cell_of c) 3 = Some p3 ->
  forall k, (0 <= k < 4)%Z -> index [p0; p1; p2; p3] k = cell_vertex (cell_of c) k.
Proof. intros V0 V1 V2 V3 k Hk. destruct (k_cases k Hk) as [-> | [-> | [-> | ->]]]; rewrite ?V0, ?V1, ?V2, ?V3; reflexivity. Qed.

Lemma icv_miss c v r p0 p1 p2 p3 x : wf c -> is_unit v = true -> finite r -> 0 <= B2R r < 2 ->
  cell_vertex (cell_of c) 0 = Some p0 -> cell_vertex (cell_of c) 1 = Some p1 -> cell_vertex (cell_of c) 2 = Some p2 -> cell_vertex (cell_of c) 3 = Some p3 ->
  intersects_cell_vertices (Cap v r) (cell_of c) [p0; p1; p2; p3] = Some false -> patch (cell_of c) x ->
  let X := rdot (direction v) x in let D := 2 - 2 * X in 0 < X ->
  ((B2R r <= 15 / 8 -> sqrt (B2R r) - sqrt D <= 16 * EF) /\ (15 / 8 <= B2R r -> D < B2R r -> (sqrt (B2R r) - sqrt D) * (sqrt (B2R r) - sqrt D) <= 4 * EF)) \/
  near_corner (cell_rc c) (loc (face_of c) (direction v)) (loc (face_of c) x) EF.
Proof.
  intros W Uv Fr Br V0 V1 V2 V3 H PX X D PosX. pose proof (face_of_range c W) as Hf. destruct (patch_cone c x W PX) as [SX IX]. destruct (cell_rc_ok c W) as (OK & W1 & W2).
  destruct (unit_ctr v Uv) as (BM & UV & EV & SV). set (m := sqrt (sqn v)) in *. unfold KR in BM. apply Rabs_le_inv in BM.
  unfold intersects_cell_vertices in H. cbn [radius center] in H. destruct f2_val as [F2 Vf2]. unfold fge, RIGHT in H. destruct (fle_R f2 r F2 Fr) as [|_]; [lra|].
  destruct (empty_R (Cap v r) Fr) as [EE|_]; [cbn [radius] in EE; lra|].
  destruct (centre_in c v W (proj1 UV)) as [CT _]. rewrite EV, loc_shrink in CT by auto. set (C := loc (face_of c) (direction v)) in *. set (q := cell_rc c) in *.
  assert (UC : unit3 C) by (apply loc_unit; auto). assert (UX : unit3 (loc (face_of c) x)) by (apply loc_unit; auto). set (x' := loc (face_of c) x) in *.
  assert (XD : dt C x' = X) by (unfold C, x'; rewrite loc_dt by auto; reflexivity).
  destruct (cell_contains_point (cell_of c) v) as [[|]|] eqn:CP; [discriminate| |discriminate].
  assert (NC : 0 < pw C -> (forall k, (0 <= k < 4)%Z -> - (2 * u) * pw C <= elin k q C) -> False).
  { intros PC A. assert (Q : Some false = Some true); [|discriminate]. apply CT.
    - unfold scale. cbn [pw]. apply Rmult_lt_0_compat; lra.
    - intros k Hk. unfold q. rewrite elin_scale. fold q. unfold scale. cbn [pw]. specialize (A k Hk). assert (m * (- (2 * u) * pw C) <= m * elin k q C) by (apply Rmult_le_compat_l; lra). lra. }
  assert (NI : ~ incone q C).
  { intros I. pose proof (cone_front q C OK I (unit_nz C UC)) as PC. apply (NC PC). intros k Hk. apply Rle_trans with 0; [nra|]. destruct I as (I0 & I1 & I2 & I3). unfold elin. edges k Hk; assumption. }
  pose proof (index_vertex c p0 p1 p2 p3 V0 V1 V2 V3) as IV. destruct (loop v r (cell_of c) [p0; p1; p2; p3] [0; 1; 2; 3]%Z) as [LF _]. destruct (LF H) as [(k & Ik & e & Ee & G & Far)|A].
  - left. apply four in Ik. destruct (row_ok c v W Uv k Ik) as (e' & p & w & Ee' & _ & _ & RW). rewrite Ee in Ee'. apply Some_inj in Ee'. subst e'.
    pose proof (row_far _ _ _ _ _ _ RW r Fr ltac:(lra) G Far) as FR. destruct (row_len _ _ _ _ _ _ RW) as [BN NN]. fold C q in FR, BN, NN. set (n := sqrt (dt (eN k q) (eN k q))) in *.
    assert (BD : 0 <= D <= 2). { pose proof (unit_dt C x' UC UX) as B. rewrite XD in B. unfold D. lra. }
    apply (far_gap (B2R r) D (sn (B2R r) - EF) EF); [lra|exact BD|unfold EF; lra|lra|]. intros T0. replace (1 - D / 2) with (dt C x') by (rewrite XD; unfold D; field).
    apply (far_side (scale (/ n) (eN k q))); auto; [| | |rewrite XD; exact PosX].
    + unfold unit3. rewrite scale_dt. replace (dt (scale (/ n) (eN k q)) (eN k q)) with (/ n * dt (eN k q) (eN k q)) by (unfold dt, scale; cbn [pw pa pb]; ring). rewrite <- NN. field. lra.
    + replace (dt (scale (/ n) (eN k q)) x') with (/ n * elin k q x') by (rewrite elin_dt by auto; unfold dt, scale; cbn [pw pa pb]; ring).
      apply Rmult_le_pos; [left; apply Rinv_0_lt_compat; lra|]. destruct IX as (I0 & I1 & I2 & I3). unfold elin. edges k Ik; assumption.
    + replace (dt (scale (/ n) (eN k q)) C) with (elin k q C / n) by (rewrite elin_dt by auto; unfold dt, scale, Rdiv; cbn [pw pa pb]; ring). exact FR.
  - right. set (Q := fun k : BinInt.Z => 0 < pw C -> - (2 * u) * pw C <= elin k q C).
    assert (S : forall k, (0 <= k < 4)%Z -> seen EF (elin k q C) (edA k q C) (edB k q C) (Q k)).
    { intros k Hk. destruct (row_ok c v W Uv k Hk) as (e' & p & w & Ee' & Ep & Ew & RW).
      assert (Hk' : (0 <= Z.land (k + 1) 3 < 4)%Z) by (edges k Hk; lia).
      destruct (A k (proj2 (four k) Hk)) as [(e & Ee & G)|(e & p' & w' & Ee & Ep' & Ew' & G & O)]; rewrite Ee in Ee'; apply Some_inj in Ee'; subst e'.
      - left. destruct (row_pos _ _ _ _ _ _ RW G) as [A1 A2]. split; assumption.
      - rewrite IV in Ep', Ew' by auto. rewrite Ep in Ep'. rewrite Ew in Ew'. apply Some_inj in Ep'. apply Some_inj in Ew'. subst p' w'. right. split; [apply (row_neg _ _ _ _ _ _ RW G)|].
        destruct O as [O|O]; [left; apply (row_A _ _ _ _ _ _ RW); exact O|right; apply (row_B _ _ _ _ _ _ RW); exact O]. }
    apply (core_miss q C x' EF (Q 0%Z) (Q 1%Z) (Q 2%Z) (Q 3%Z)); auto; try (unfold EF; fold q in W1, W2; lra).
    + intros Q0 Q1 Q2 Q3 PC. apply (NC PC). intros k Hk. edges k Hk; auto.
    + exact (S 0%Z ltac:(lia)).
    + exact (S 1%Z ltac:(lia)).
    + exact (S 2%Z ltac:(lia)).
    + exact (S 3%Z ltac:(lia)).
Qed.

(** ** A cap that meets *)
Definition hits (q : rc) (c : p3) (e t w : R) : Prop := exists x y, u0 q <= x <= u1 q /\ v0 q <= y <= v1 q /\
  ((0 <= dt c (CapEdge.corner x y) /\ 1 - t * t - e * e <= dt c (CapEdge.corner x y) * dt c (CapEdge.corner x y)) \/
   (1 - t * t <= 20 * ((e / w) * (e / w)) /\ - (6 * (e / w)) <= dt c (CapEdge.corner x y))).
Lemma corner_turn x y : CapEdge.corner y (- x) = turn (CapEdge.corner x y).
Proof. unfold CapEdge.corner, turn. cbn [pw pa pb]. replace (1 + y * y + - x * - x) with (1 + x * x + y * y) by ring. f_equal. field. destruct (len_pos x y). lra. Qed.
Lemma hits_turn q c e t w : hits (turn_rc q) (turn c) e t w -> hits q c e t w.
Proof.
  intros (x & y & BX & BY & H). unfold turn_rc in *. cbn [u0 u1 v0 v1] in *. exists (- y), x. split; [lra|]. split; [lra|].
  assert (E : dt (turn c) (CapEdge.corner x y) = dt c (CapEdge.corner (- y) x)) by (rewrite <- (turn_dt c), <- corner_turn, Ropp_involutive; reflexivity). rewrite E in H. exact H.
Qed.
Lemma edge_hits q c e t w : okrc q -> unit3 c -> 0 < w -> 0 <= e -> e <= w / 8 -> w <= u1 q - u0 q -> - e <= det0 q c -> - e <= det1 q c -> 0 <= t ->
  l0 q c * l0 q c <= t * t * (1 + v0 q * v0 q) -> hits q c e t w.
Proof.
  intros K C P E0 E1 WW A B T L. destruct (edge_hit q c e t w K C P E0 E1 WW A B T L) as (x & BX & H). pose proof K as (K1 & K2 & K3 & K4 & K5 & K6). exists x, (v0 q). split; [exact BX|]. split; [lra|exact H].
Qed.
Lemma icv_hit c v r p0 p1 p2 p3 : wf c -> is_unit v = true -> finite r -> B2R r <= 4 ->
  cell_vertex (cell_of c) 0 = Some p0 -> cell_vertex (cell_of c) 1 = Some p1 -> cell_vertex (cell_of c) 2 = Some p2 -> cell_vertex (cell_of c) 3 = Some p3 ->
  intersects_cell_vertices (Cap v r) (cell_of c) [p0; p1; p2; p3] = Some true ->
  0 <= B2R r < 2 /\ exists x, patch (cell_of c) x /\ let X := rdot (direction v) x in
    1 - (8 * u) * (8 * u) <= X \/ (0 <= X /\ 1 - (sn (B2R r) + EF) * (sn (B2R r) + EF) - EF * EF <= X * X) \/
    (1 - (sn (B2R r) + EF) * (sn (B2R r) + EF) <= 20 * (/ 16384 * / 16384) /\ - (6 / 16384) <= X).
Proof.
  intros W Uv Fr Br V0 V1 V2 V3 H. pose proof (face_of_range c W) as Hf. destruct (cell_rc_ok c W) as (OK & W1 & W2).
  destruct (unit_ctr v Uv) as (BM & UV & EV & SV). set (m := sqrt (sqn v)) in *. unfold KR in BM. apply Rabs_le_inv in BM.
  unfold intersects_cell_vertices in H. cbn [radius center] in H. destruct f2_val as [F2 Vf2]. unfold fge, RIGHT in H. destruct (fle_R f2 r F2 Fr) as [|L2]; [discriminate|].
  destruct (empty_R (Cap v r) Fr) as [EE|E0]; [discriminate|]. cbn [radius] in E0. assert (B2 : 0 <= B2R r < 2) by lra. split; [exact B2|].
  destruct (centre_in c v W (proj1 UV)) as [_ CS]. rewrite EV, loc_shrink in CS by auto. set (C := loc (face_of c) (direction v)) in *. set (q := cell_rc c) in *.
  assert (UC : unit3 C) by (apply loc_unit; auto).
  assert (PT : forall x y, u0 q <= x <= u1 q -> v0 q <= y <= v1 q -> patch (cell_of c) (below (face_of c) x y) /\ rdot (direction v) (below (face_of c) x y) = dt C (CapEdge.corner x y)).
  { intros x y BX BY. destruct (below_patch c x y W BX BY) as [P L]. split; [exact P|]. rewrite <- L. unfold C. rewrite loc_dt by auto. reflexivity. }
  destruct (cell_contains_point (cell_of c) v) as [[|]|] eqn:CP; [|  |discriminate].
  - destruct (CS eq_refl) as [PW A]. unfold scale in PW. cbn [pw] in PW. assert (PC : 0 < pw C) by (apply Rmult_lt_reg_l with m; lra).
    assert (A' : forall k, (0 <= k < 4)%Z -> - (8 * u) * pw C <= elin k q C).
    { intros k Hk. specialize (A k Hk). unfold q in A. rewrite elin_scale in A. fold q in A. unfold scale in A. cbn [pw] in A. apply Rmult_le_reg_l with m; lra. }
    destruct (near_in q C (8 * u) OK UC PC ltac:(lra) (A' 0%Z ltac:(lia)) (A' 1%Z ltac:(lia)) (A' 2%Z ltac:(lia)) (A' 3%Z ltac:(lia))) as (x & y & BX & BY & N).
    destruct (PT x y BX BY) as [P E]. exists (below (face_of c) x y). split; [exact P|]. cbv zeta. rewrite E. left. exact N.
  - destruct (loop v r (cell_of c) [p0; p1; p2; p3] [0; 1; 2; 3]%Z) as [_ LT]. destruct (LT H) as (k & Ik & e & p & w & Ee & Ep & Ew & G & Cut & SA & SB). apply four in Ik.
    assert (Hk' : (0 <= Z.land (k + 1) 3 < 4)%Z) by (edges k Ik; lia). pose proof (index_vertex c p0 p1 p2 p3 V0 V1 V2 V3) as IV. rewrite IV in Ep, Ew by auto.
    destruct (row_ok c v W Uv k Ik) as (e' & p' & w' & Ee' & Ep' & Ew' & RW). rewrite Ee in Ee'. rewrite Ep in Ep'. rewrite Ew in Ew'. apply Some_inj in Ee'. apply Some_inj in Ep'. apply Some_inj in Ew'. subst e' p' w'.
    pose proof (row_cut _ _ _ _ _ _ RW r Fr ltac:(lra) Cut) as CT. destruct (row_len _ _ _ _ _ _ RW) as [BN NN]. pose proof (proj1 (row_A _ _ _ _ _ _ RW) SA) as DA. pose proof (proj1 (row_B _ _ _ _ _ _ RW) SB) as DB. fold C q in CT, BN, NN, DA, DB.
    set (n := sqrt (dt (eN k q) (eN k q))) in *. set (t := sn (B2R r) + EF) in *. destruct (sn_facts (B2R r) ltac:(lra)) as (S0 & _). assert (T0 : 0 <= t) by (unfold t, EF; lra).
    assert (LL : elin k q C * elin k q C <= t * t * dt (eN k q) (eN k q)).
    { rewrite <- NN. replace (elin k q C) with (elin k q C / n * n) by (field; lra). set (z := elin k q C / n) in *.
      replace (z * n * (z * n)) with (z * z * (n * n)) by ring. apply Rmult_le_compat_r; [nra|]. rewrite <- (sqr_abs z). apply Rmult_le_compat; auto using Rabs_pos. }
    assert (HH : hits q C EF t (/ 1073741824)).
    { assert (E8 : EF <= / 1073741824 / 8) by (unfold EF; lra). assert (EP : 0 <= EF) by (unfold EF; lra). assert (WP : 0 < / 1073741824) by lra.
      unfold elin, edA, edB, eN in *. clear - OK UC W1 W2 DA DB LL T0 E8 EP WP Ik. fold q in W1, W2. revert DA DB LL. edges k Ik; cbn [dA dB]; intros DA DB LL.
      - apply edge_hits; auto. apply (Rle_trans _ _ _ LL). right. unfold dt. cbn [pw pa pb]. ring.
      - apply hits_turn, edge_hits; auto using turn_ok, turn_unit. rewrite turn_l0. apply (Rle_trans _ _ _ LL). right. unfold dt, turn_rc. cbn [pw pa pb v0]. ring.
      - do 2 apply hits_turn. apply edge_hits; auto using turn_ok, turn_unit; [unfold turn_rc; cbn [u0 u1 v0 v1]; lra|]. rewrite turn_l0, turn_l1. apply (Rle_trans _ _ _ LL). right. unfold dt, turn_rc. cbn [pw pa pb v0 u1 u0 v1]. ring.
      - do 3 apply hits_turn. apply edge_hits; auto 6 using turn_ok, turn_unit; [unfold turn_rc; cbn [u0 u1 v0 v1]; lra|]. rewrite turn_l0, turn_l1, turn_l2. apply (Rle_trans _ _ _ LL). right. unfold dt, turn_rc. cbn [pw pa pb v0 u1 u0 v1]. ring. }
    destruct HH as (x & y & BX & BY & HH). destruct (PT x y BX BY) as [P E]. exists (below (face_of c) x y). split; [exact P|]. cbv zeta. rewrite E. right.
    replace (EF / / 1073741824) with (/ 16384) in HH by (unfold EF; field). destruct HH as [HH|[H1 H2]]; [left; exact HH|right]. split; [exact H1|lra].
Qed.

(** ** Distances *)
Definition kx (k : BinInt.Z) (q : rc) : R := if ((k =? 1) || (k =? 2))%Z then u1 q else u0 q.
Definition ky (k : BinInt.Z) (q : rc) : R := if (2 <=? k)%Z then v1 q else v0 q.
Lemma eV_k k q : (0 <= k < 4)%Z -> eV k q = P3 1 (kx k q) (ky k q).
Proof. intros Hk. destruct (k_cases k Hk) as [-> | [-> | [-> | ->]]]; reflexivity. Qed.
Lemma vertex_near c k p : wf c -> (0 <= k < 4)%Z -> cell_vertex (cell_of c) k = Some p ->
  is_unit p = true /\ exists d, patch (cell_of c) d /\ loc (face_of c) d = CapEdge.corner (kx k (cell_rc c)) (ky k (cell_rc c)) /\ chd (direction p) d <= 256 * u.
Proof.
  intros W Hk E. pose proof (face_of_range c W) as Hf. destruct (vertex_cube c k W Hk) as (r & E' & CR & L). rewrite E in E'. apply Some_inj in E'. subst p.
  destruct (cube_close r CR) as (BN & NN & _ & UU & CL & SP). split; [exact UU|]. pose proof (close_dir _ _ CL SP) as CD.
  destruct (cell_rc_ok c W) as ((K1 & K2 & K3 & K4 & K5 & K6) & _). set (q := cell_rc c) in *.
  assert (BX : u0 q <= kx k q <= u1 q) by (unfold kx; destruct ((k =? 1) || (k =? 2))%Z; lra). assert (BY : v0 q <= ky k q <= v1 q) by (unfold ky; destruct (2 <=? k)%Z; lra).
  destruct (below_patch c _ _ W BX BY) as [PB LB]. set (b := below (face_of c) (kx k q) (ky k q)) in *. exists b. split; [exact PB|]. split; [exact LB|].
  set (d := shrink (/ sqrt (sqn r)) (RV r)) in *.
  assert (LD : loc (face_of c) d = CapEdge.corner (kx k q) (ky k q)).
  { unfold d. rewrite loc_shrink, L, eV_k by auto. unfold scale, CapEdge.corner. cbn [pw pa pb].
    assert (Q : sqn r = 1 + kx k q * kx k q + ky k q * ky k q). { transitivity (rdot (RV r) (RV r)); [reflexivity|]. rewrite <- (loc_dt (face_of c)), L, eV_k by auto. unfold dt. cbn [pw pa pb]. ring. }
    rewrite <- Q. f_equal; unfold Rdiv; ring. }
  pose proof (unit_sphere _ UU) as SU. unfold chd. rewrite dist2_dot by (auto; apply PB). rewrite dist2_dot in CD by auto.
  assert (EQ : rdot (direction (VectorModel.normalize r)) b = rdot (direction (VectorModel.normalize r)) d) by (rewrite <- !(loc_dt (face_of c)), LB, LD by auto; reflexivity). rewrite EQ.
  rewrite <- (sqrt_square (256 * u)) by lra. apply sqrt_le_1_alt. exact CD.
Qed.
Lemma chd_range a b : on_sphere a -> on_sphere b -> 0 <= chd a b <= 2 /\ chd a b * chd a b = dist2 a b /\ dist2 a b = 2 - 2 * rdot a b.
Proof.
  intros A B. rewrite dist2_dot by auto. pose proof (unit_dt (P3 (px3 a) (py3 a) (pz3 a)) (P3 (px3 b) (py3 b) (pz3 b)) A B) as U.
  change (dt (P3 (px3 a) (py3 a) (pz3 a)) (P3 (px3 b) (py3 b) (pz3 b))) with (rdot a b) in U. unfold chd. rewrite dist2_dot by auto. split; [|split; [apply sqrt_sqrt; lra|reflexivity]].
  split; [apply sqrt_pos|]. apply Rle_trans with (sqrt (2 * 2)); [apply sqrt_le_1_alt; lra|rewrite sqrt_square; lra].
Qed.
Lemma sqrt_nonneg r : 0 <= r -> 0 <= sqrt r /\ sqrt r * sqrt r = r.
Proof. intros H. split; [apply sqrt_pos|apply sqrt_sqrt; exact H]. Qed.

(* a corner that is not in the cap, and one that is *)
Lemma corner_dist c k p v (r : f64) : wf c -> (0 <= k < 4)%Z -> cell_vertex (cell_of c) k = Some p -> is_unit v = true -> finite r -> 0 <= B2R r <= 4 ->
  exists d, patch (cell_of c) d /\ loc (face_of c) d = CapEdge.corner (kx k (cell_rc c)) (ky k (cell_rc c)) /\
  (cap_contains_point (Cap v r) p = false -> sqrt (B2R r) - / 4398046511104 <= chd (direction v) d) /\
  (cap_contains_point (Cap v r) p = true -> chd (direction v) d <= sqrt (B2R r) + / 4398046511104).
Proof.
  intros W Hk E Uv Fr Br. destruct (vertex_near c k p W Hk E) as (Up & d & PD & LD & CD). exists d. split; [exact PD|]. split; [exact LD|].
  destruct (chordangle_near v p Uv Up) as (BD & N1 & N2). destruct (chordangle_range v p) as [Fc Bc].
  pose proof (unit_sphere _ Uv) as Sv. pose proof (unit_sphere _ Up) as Sp. destruct (chd_range _ _ Sv Sp) as ((C0 & C2) & CC & _). destruct (sqrt_nonneg (B2R r) ltac:(lra)) as [R0 RR].
  assert (R2 : sqrt (B2R r) <= 2) by (rewrite <- (sqrt_square 2) by lra; apply sqrt_le_1_alt; lra).
  pose proof (chd_tri (direction v) d (direction p)) as T1. pose proof (chd_tri (direction v) (direction p) d) as T2. rewrite (chd_sym d) in T1.
  set (x := chd (direction v) (direction p)) in *. set (y := chd (direction v) d) in *. set (s := sqrt (B2R r)) in *. unfold cap_contains_point. cbn [center radius]. unfold KC in *.
  assert (GEN : forall a b, 0 <= a -> 0 <= b <= 2 -> a * a <= b * b * (1 + 60 / 1000000000000000) + 60 / 1000000000000000 * (60 / 1000000000000000) -> a <= b + 180 / 1000000000000000).
  { intros a b A B H. apply Rnot_lt_le. intros L. assert ((b + 180 / 1000000000000000) * (b + 180 / 1000000000000000) < a * a) by (apply Rmult_le_0_lt_compat; lra).
    assert (b * b <= 2 * b) by (apply Rmult_le_compat_r; lra). lra. }
  destruct (fle_R (chordangle v p) r Fc Fr) as [L|L]; split; intros H; try discriminate.
  - assert (Q : x <= s + 180 / 1000000000000000) by (apply GEN; [lra|lra|]; rewrite CC, RR; nra). lra.
  - assert (Q : s <= x + 180 / 1000000000000000) by (apply GEN; [lra|lra|]; rewrite CC, RR; lra). lra.
Qed.

Section miss.
  Variable (c : cell) (v : vec) (r : f64) (p0 p1 p2 p3 : vec).
  Hypothesis W : wf c.
  Hypothesis Uv : is_unit v = true.
  Hypothesis Fr : finite r.
  Hypothesis Br : 0 <= B2R r < 2.
  Hypothesis V0 : cell_vertex (cell_of c) 0 = Some p0.
  Hypothesis V1 : cell_vertex (cell_of c) 1 = Some p1.
  Hypothesis V2 : cell_vertex (cell_of c) 2 = Some p2.
  Hypothesis V3 : cell_vertex (cell_of c) 3 = Some p3.
  Hypothesis NO : intersects_cell_vertices (Cap v r) (cell_of c) [p0; p1; p2; p3] = Some false.
  Let K k d := patch (cell_of c) d /\ loc (face_of c) d = CapEdge.corner (kx k (cell_rc c)) (ky k (cell_rc c)).
  (* far from the cell, or as close as a corner *)
  Lemma miss_cases x : patch (cell_of c) x -> let D := dist2 (direction v) x in
    (B2R r <= 15 / 8 -> sqrt (B2R r) - sqrt D <= / 1099511627776) /\ (sqrt (B2R r) - sqrt D <= / 2097152) \/
    exists k, (0 <= k < 4)%Z /\ forall d, K k d -> (dist2 (direction v) d - 6 * EF <= D \/ B2R r - 6 * EF <= D) /\ (chd (direction v) d - 18 * EF <= sqrt D \/ sqrt (B2R r) - 6 * EF <= sqrt D).
  Proof.
    intros PX D. pose proof (face_of_range c W) as Hf. pose proof (unit_sphere _ Uv) as Sv. assert (SX : on_sphere x) by apply PX.
    assert (ED : D = 2 - 2 * rdot (direction v) x) by (apply dist2_dot; auto). set (X := rdot (direction v) x) in *.
    destruct (Rlt_dec 0 X) as [P|P].
    2:{ left. assert (L : sqrt (B2R r) <= sqrt D) by (apply sqrt_le_1_alt; lra). split; intros; lra. }
    destruct (icv_miss c v r p0 p1 p2 p3 x W Uv Fr Br V0 V1 V2 V3 NO PX P) as [[A B]|N]; cbv zeta in *; [fold X in A, B; rewrite <- ED in A, B|].
    - left. unfold EF in *. split; [intros H; specialize (A H); lra|]. destruct (Rle_dec (B2R r) (15 / 8)) as [L|L]; [specialize (A L); lra|].
      destruct (Rlt_dec D (B2R r)) as [L2|L2]; [|assert (sqrt (B2R r) <= sqrt D) by (apply sqrt_le_1_alt; lra); lra]. specialize (B ltac:(lra) L2).
      apply Rnot_lt_le. intros Q. assert (/ 2097152 * / 2097152 < (sqrt (B2R r) - sqrt D) * (sqrt (B2R r) - sqrt D)) by (apply Rmult_le_0_lt_compat; lra). lra.
    - right. set (C := loc (face_of c) (direction v)) in *. assert (UC : unit3 C) by (apply loc_unit; auto).
      assert (XD : dt C (loc (face_of c) x) = X) by (unfold C; rewrite loc_dt by auto; reflexivity).
      assert (G : forall k, (0 <= k < 4)%Z -> near C (loc (face_of c) x) EF (dt C (CapEdge.corner (kx k (cell_rc c)) (ky k (cell_rc c)))) ->
        forall d, K k d -> (dist2 (direction v) d - 6 * EF <= D \/ B2R r - 6 * EF <= D) /\ (chd (direction v) d - 18 * EF <= sqrt D \/ sqrt (B2R r) - 6 * EF <= sqrt D)).
      { intros k Hk NR d [PD LD]. rewrite <- LD in NR. unfold C in NR. rewrite !loc_dt in NR by auto. set (a := rdot (direction v) d) in *.
        assert (Sd : on_sphere d) by apply PD. unfold chd. rewrite (dist2_dot _ d) by auto. fold a.
        assert (BX : -1 <= X <= 1) by (rewrite <- XD; apply unit_dt; auto; apply loc_unit; auto).
        assert (Ba : -1 <= a <= 1) by (unfold a; rewrite <- (loc_dt (face_of c)) by auto; apply unit_dt; apply loc_unit; auto).
        unfold near in NR. rewrite loc_dt in NR by auto. fold X in NR.
        assert (S2 : sqrt (B2R r) <= sqrt 2) by (apply sqrt_le_1_alt; lra).
        destruct (near_gap X a EF ltac:(lra) ltac:(lra) ltac:(lra) ltac:(unfold EF; lra) NR) as [N1 N2]. rewrite ED. split; [destruct N1; [right|left]; lra|destruct N2; [right|left]; lra]. }
      destruct N as [N|[N|[N|N]]]; [exists 0%Z|exists 1%Z|exists 2%Z|exists 3%Z]; (split; [lia|]); apply G; auto; lia.
  Qed.
  Lemma miss_dist x del : patch (cell_of c) x -> 0 <= del -> (forall k, (0 <= k < 4)%Z -> exists d, K k d /\ sqrt (B2R r) - del <= chd (direction v) d) ->
    sqrt (B2R r) - (if Rle_dec (B2R r) (15 / 8) then / 549755813888 else / 2097152) - del <= chd (direction v) x.
  Proof.
    intros PX D0 A. unfold chd at 1. destruct (miss_cases x PX) as [[F1 F2]|(k & Hk & N)].
    - destruct (Rle_dec _ _) as [L|L]; [specialize (F1 L)|]; lra.
    - destruct (A k Hk) as (d & Kd & Q). destruct (N d Kd) as [_ N2]. unfold EF in N2. destruct (Rle_dec _ _); destruct N2; lra.
  Qed.
  Lemma miss_sq x del : patch (cell_of c) x -> 0 <= del -> (forall k, (0 <= k < 4)%Z -> exists d, K k d /\ B2R r - del <= dist2 (direction v) d) ->
    B2R r - (if Rle_dec (B2R r) (15 / 8) then / 274877906944 else / 524288) - del <= dist2 (direction v) x.
  Proof.
    intros PX D0 A. assert (SX : on_sphere x) by apply PX. destruct (chd_range _ _ (unit_sphere _ Uv) SX) as (B0 & BB & _). unfold chd in B0, BB.
    destruct (sqrt_nonneg (B2R r) ltac:(lra)) as [R0 RR]. assert (R2 : sqrt (B2R r) <= 3 / 2) by (rewrite <- (sqrt_square (3 / 2)) by lra; apply sqrt_le_1_alt; lra).
    assert (SQ : forall t, 0 <= t -> sqrt (B2R r) - sqrt (dist2 (direction v) x) <= t -> B2R r - 3 * t <= dist2 (direction v) x).
    { intros t T H. rewrite <- BB. set (y := sqrt (dist2 (direction v) x)) in *. set (s := sqrt (B2R r)) in *. rewrite <- RR. destruct (Rle_dec s t) as [L|L].
      - assert (s * s <= 3 / 2 * t) by (apply Rmult_le_compat; lra). assert (0 <= y * y) by (apply Rmult_le_pos; lra). lra.
      - assert ((s - t) * (s - t) <= y * y) by (apply Rmult_le_compat; lra). assert (s * t <= 3 / 2 * t) by (apply Rmult_le_compat_r; lra). assert (0 <= t * t) by (apply Rmult_le_pos; lra). lra. }
    destruct (miss_cases x PX) as [[F1 F2]|(k & Hk & N)].
    - destruct (Rle_dec _ _) as [L|L]; [pose proof (SQ (/ 1099511627776) ltac:(lra) (F1 L))|pose proof (SQ (/ 2097152) ltac:(lra) F2)]; lra.
    - destruct (A k Hk) as (d & Kd & Q). destruct (N d Kd) as [N1 _]. unfold EF in N1. destruct (Rle_dec _ _); destruct N1; lra.
  Qed.
End miss.
Lemma hit_dist c v r p0 p1 p2 p3 : wf c -> is_unit v = true -> finite r -> B2R r <= 4 ->
  cell_vertex (cell_of c) 0 = Some p0 -> cell_vertex (cell_of c) 1 = Some p1 -> cell_vertex (cell_of c) 2 = Some p2 -> cell_vertex (cell_of c) 3 = Some p3 ->
  intersects_cell_vertices (Cap v r) (cell_of c) [p0; p1; p2; p3] = Some true ->
  0 <= B2R r < 2 /\ exists x, patch (cell_of c) x /\ chd (direction v) x <= sqrt (B2R r) + (if Rle_dec (B2R r) (15 / 8) then / 274877906944 else / 2048).
Proof.
  intros W Uv Fr Br V0 V1 V2 V3 H. destruct (icv_hit c v r p0 p1 p2 p3 W Uv Fr Br V0 V1 V2 V3 H) as (B2 & x & PX & Q). split; [exact B2|]. exists x. split; [exact PX|]. cbv zeta in Q.
  assert (SX : on_sphere x) by apply PX. destruct (chd_range _ _ (unit_sphere _ Uv) SX) as (C0 & CC & ED). set (X := rdot (direction v) x) in *. set (y := chd (direction v) x) in *.
  destruct (sqrt_nonneg (B2R r) ltac:(lra)) as [R0 RR]. assert (YS : y = sqrt (2 - 2 * X)) by (unfold y, chd; rewrite ED; reflexivity).
  destruct Q as [N|[[X0 N]|[N1 N2]]].
  - assert (y <= / 274877906944). { apply Rnot_lt_le. intros L. assert (/ 274877906944 * / 274877906944 < y * y) by (apply Rmult_le_0_lt_compat; lra). lra. }
    destruct (Rle_dec _ _); lra.
  - assert (XB : X <= 1) by (pose proof (Rle_0_sqr y); unfold Rsqr in *; lra).
    destruct (hit_gap (B2R r) (2 - 2 * X) EF EF ltac:(lra) ltac:(lra) ltac:(unfold EF; lra) ltac:(unfold EF; lra)) as [G1 G2]; [replace (1 - (2 - 2 * X) / 2) with X by field; exact N|].
    rewrite <- YS in *. destruct (Rle_dec _ _) as [L|L]; [specialize (G1 L); unfold EF in G1; lra|]. destruct (Rlt_dec (B2R r) (2 - 2 * X)) as [M|M].
    + specialize (G2 ltac:(lra) M). unfold EF in G2. assert (y - sqrt (B2R r) <= / 2048); [|lra]. apply Rnot_lt_le. intros Q. assert (/ 2048 * / 2048 < (y - sqrt (B2R r)) * (y - sqrt (B2R r))) by (apply Rmult_le_0_lt_compat; lra). lra.
    + assert (y <= sqrt (B2R r)) by (rewrite YS; apply sqrt_le_1_alt; lra). lra.
  - pose proof (degenerate_gap (B2R r) (/ 16384) EF ltac:(lra) ltac:(unfold EF; lra) ltac:(lra) N1) as G. unfold EF in G.
    assert (RL : 2 - 10 / 16384 <= B2R r). { apply Rnot_lt_le. intros L. assert ((5 / 16384) * (5 / 16384) < (1 - B2R r / 2) * (1 - B2R r / 2)) by (apply Rmult_le_0_lt_compat; lra). lra. }
    destruct (Rle_dec _ _) as [L|L]; [lra|]. set (s := sqrt (B2R r)) in *. assert (S1 : 14 / 10 <= s). { apply Rnot_lt_le. intros Q. assert (s * s <= 14 / 10 * (14 / 10)) by (apply Rmult_le_compat; lra). lra. }
    apply Rnot_lt_le. intros Q. assert ((s + / 2048) * (s + / 2048) < y * y) by (apply Rmult_le_0_lt_compat; lra). lra.
Qed.
