(** Cells as rectangles of the (u,v) plane whose sides are grid lines. *)
From Coq Require Import Reals Lra Lia.
From Flocq Require Import Core.
From Verif Require Import Base Spec F64 F64Facts IntervalSpec F64Arith F64Error S1Proofs R1Model VectorModel StuvModel
  CellIdModel CellIdArith CellIdProofs HilbertModel HilbertSpec HilbertProofs HilbertGeom NeighborModel NeighborProofs CellUnionMore
  CellModel StuvError CellLattice.
Open Scope Z_scope.

Definition uvrect (q : square) : r2 :=
  R2 (R1 (uvl (2 * sq_i q)) (uvl (2 * (sq_i q + sq_side q)))) (R1 (uvl (2 * sq_j q)) (uvl (2 * (sq_j q + sq_side q)))).
Definition cell_of (c : cell) : s2cell := S2Cell (face_of c) (lv c) (ori c) (code c) (uvrect (sq c)).

Lemma land_side l x a : 0 <= l <= 30 -> (side l | a) -> a <= x < a + side l -> Z.land x (- side l) = a.
Proof.
  intros Hl [m ->] H. unfold side at 1. rewrite land_opp_pow2 by lia. fold (side l).
  apply (div_square m (side l) x) in H; [rewrite <- H; reflexivity|]. apply side_NN; auto.
Qed.
Lemma bound_ok c i j : wf c -> in_square (sq c) (face_of c) i j -> ij_level_to_bound_uv i j (lv c) = Some (uvrect (sq c)).
Proof.
  intros W (_ & Hi & Hj). pose proof W as [HL _]. destruct (sq_aligned c W) as ((_ & P & Di & Dj & B1 & B2 & B3 & B4) & F & S).
  unfold ij_level_to_bound_uv. rewrite size_i32_ok by auto. destruct (side_NN (lv c) HL) as [Hs _]. rewrite S in *.
  rewrite (chk_i32_ok (- side (lv c))) by lia. rewrite (land_side _ i (sq_i (sq c))), (land_side _ j (sq_j (sq c))) by auto.
  change (2 ^ 30) with 1073741824 in *. rewrite !chk_i32_ok by lia.
  unfold uvrect. rewrite S. rewrite !ij_lat by lia. reflexivity.
Qed.
Lemma cell_from_ok c : wf c -> cell_from_cellid (code c) = Some (cell_of c).
Proof.
  intros W. destruct (face_ij_cell c W) as (i & j & E & I & _). unfold cell_from_cellid. rewrite E.
  destruct (sq_aligned c W) as ((Hf & _) & F & _). rewrite F in Hf. destruct (Z.ltb_spec (face_of c) 6); [|lia]. cbn [negb].
  rewrite level_code by auto. rewrite (bound_ok c i j W I). reflexivity.
Qed.
Lemma bound_uv_ok c : wf c -> bound_uv (code c) = Some (uvrect (sq c)).
Proof.
  intros W. destruct (face_ij_cell c W) as (i & j & E & I & _). unfold bound_uv. rewrite E, level_code by auto. apply bound_ok; auto.
Qed.

(** ** Squares and containment *)
Lemma leaf_at c m : wf c -> leaves c m -> exists f i j, 0 <= f < 6 /\ 0 <= i < 2 ^ 30 /\ 0 <= j < 2 ^ 30 /\
  from_face_ij f i j = Some (code (leaf m)).
Proof.
  intros W L. assert (Wl : wf (leaf m)) by (apply leaf_wf; apply (leaves_bounds c); auto).
  destruct (face_ij_cell (leaf m) Wl) as (i & j & _ & I & Hi & Hj & _). pose proof (face_of_range _ Wl) as Hf.
  exists (face_of (leaf m)), i, j. split; [exact Hf|]. split; [exact Hi|]. split; [exact Hj|].
  destruct (sq_correct _ Wl) as (_ & _ & H). apply H in I; auto. destruct I as (m' & E & M).
  assert (m' = m); [|subst; exact E]. unfold leaves, leaf in M. cbn [lv ix] in M. change (4 ^ (30 - 30)) with 1 in M. lia.
Qed.
Lemma overlap_squares c d : wf c -> wf d ->
  ((exists m, leaves c m /\ leaves d m) <->
   sq_face (sq c) = sq_face (sq d) /\
   sq_i (sq c) < sq_i (sq d) + sq_side (sq d) /\ sq_i (sq d) < sq_i (sq c) + sq_side (sq c) /\
   sq_j (sq c) < sq_j (sq d) + sq_side (sq d) /\ sq_j (sq d) < sq_j (sq c) + sq_side (sq c)).
Proof.
  intros Wc Wd. destruct (sq_correct c Wc) as (A & _ & H). destruct (sq_correct d Wd) as (A' & _ & H'). split.
  - intros (m & L & L'). destruct (leaf_at c m Wc L) as (f & i & j & Hf & Hi & Hj & E).
    assert (in_square (sq c) f i j) as (F1 & I1 & J1) by (apply H; eauto).
    assert (in_square (sq d) f i j) as (F2 & I2 & J2) by (apply H'; eauto). repeat split; lia.
  - intros (F & O). set (i := Z.max (sq_i (sq c)) (sq_i (sq d))). set (j := Z.max (sq_j (sq c)) (sq_j (sq d))).
    destruct A as (Hf & P & _ & _ & B1 & B2 & B3 & B4). destruct A' as (_ & P' & _ & _ & B1' & B2' & B3' & B4').
    assert (I : in_square (sq c) (sq_face (sq c)) i j) by (unfold in_square, i, j; lia).
    assert (I' : in_square (sq d) (sq_face (sq c)) i j) by (unfold in_square, i, j; lia).
    apply H in I; [|exact Hf|unfold i; lia|unfold j; lia]. apply H' in I'; [|exact Hf|unfold i; lia|unfold j; lia].
    destruct I as (m & E & L). destruct I' as (m' & E' & L'). rewrite E in E'. injection E' as E'. 
    exists m. split; [exact L|]. rewrite !code_leaf in E'. replace m with m' by lia. exact L'.
Qed.
Lemma contains_squares c d : wf c -> wf d ->
  (ancestor_or_self c d <->
   sq_face (sq c) = sq_face (sq d) /\
   sq_i (sq c) <= sq_i (sq d) /\ sq_i (sq d) + sq_side (sq d) <= sq_i (sq c) + sq_side (sq c) /\
   sq_j (sq c) <= sq_j (sq d) /\ sq_j (sq d) + sq_side (sq d) <= sq_j (sq c) + sq_side (sq c)).
Proof.
  intros Wc Wd. destruct (sq_correct c Wc) as (A & _ & H). destruct (sq_correct d Wd) as (A' & _ & H').
  destruct A as (Hf & P & _ & _ & B1 & B2 & B3 & B4). destruct A' as (Hf' & P' & _ & _ & B1' & B2' & B3' & B4').
  rewrite (ancestor_leaves c d Wc Wd). split.
  - intros S. assert (K : forall i j, in_square (sq d) (sq_face (sq d)) i j -> in_square (sq c) (sq_face (sq d)) i j).
    { intros i j I. pose proof I as (_ & Ii & Ij). apply H; auto; [lia|lia|]. apply H' in I; auto; [|lia|lia].
      destruct I as (m & E & L). exists m. split; [exact E|]. apply S, L. }
    destruct (K (sq_i (sq d)) (sq_j (sq d))) as (F1 & I1 & J1); [unfold in_square; lia|].
    destruct (K (sq_i (sq d) + sq_side (sq d) - 1) (sq_j (sq d) + sq_side (sq d) - 1)) as (_ & I2 & J2); [unfold in_square; lia|].
    repeat split; lia.
  - intros (F & N) m L. destruct (leaf_at d m Wd L) as (f & i & j & Hf'' & Hi & Hj & E).
    assert (in_square (sq d) f i j) as (F2 & I2 & J2) by (apply H'; eauto).
    assert (I : in_square (sq c) f i j) by (unfold in_square; lia). apply H in I; auto. destruct I as (m' & E' & L').
    rewrite E in E'. injection E' as E'. rewrite !code_leaf in E'. replace m with m' by lia. exact L'.
Qed.

(** ** Comparing grid lines *)
Lemma uvl_lt j k : 0 <= j <= 2 ^ 31 -> 0 <= k <= 2 ^ 31 -> flt (uvl j) (uvl k) = (j <? k).
Proof.
  intros Hj Hk. destruct (uvl_val j Hj) as (Fj & _). destruct (uvl_val k Hk) as (Fk & _).
  destruct (flt_R _ _ Fj Fk) as [P|P]; destruct (Z.ltb_spec j k) as [Q|Q]; try reflexivity; exfalso.
  - destruct (Z.eq_dec j k) as [->|N]; [lra|]. pose proof (uvl_gap k j ltac:(lia) ltac:(lia)). lra.
  - pose proof (uvl_gap j k ltac:(lia) ltac:(lia)). lra.
Qed.
Lemma uvl_le j k : 0 <= j <= 2 ^ 31 -> 0 <= k <= 2 ^ 31 -> fle (uvl j) (uvl k) = (j <=? k).
Proof.
  intros Hj Hk. destruct (uvl_val j Hj) as (Fj & _). destruct (uvl_val k Hk) as (Fk & _).
  destruct (fle_R _ _ Fj Fk) as [P|P]; destruct (Z.leb_spec j k) as [Q|Q]; try reflexivity; exfalso.
  - pose proof (uvl_gap k j ltac:(lia) ltac:(lia)). lra.
  - destruct (Z.eq_dec j k) as [->|N]; [lra|]. pose proof (uvl_gap j k ltac:(lia) ltac:(lia)). lra.
Qed.
Lemma rect_contains q q' : aligned q -> aligned q' ->
  (r2_contains (uvrect q) (uvrect q') = true <->
   sq_i q <= sq_i q' /\ sq_i q' + sq_side q' <= sq_i q + sq_side q /\ sq_j q <= sq_j q' /\ sq_j q' + sq_side q' <= sq_j q + sq_side q).
Proof.
  intros (_ & P & _ & _ & B1 & B2 & B3 & B4) (_ & P' & _ & _ & B1' & B2' & B3' & B4').
  unfold r2_contains, r1_contains_interval, r1_is_empty, uvrect. cbn [rx ry lo1 hi1]. unfold fgt. rewrite !uvl_lt by lia.
  destruct (Z.ltb_spec (2 * (sq_i q' + sq_side q')) (2 * sq_i q')); [lia|].
  destruct (Z.ltb_spec (2 * (sq_j q' + sq_side q')) (2 * sq_j q')); [lia|].
  rewrite !uvl_le by lia. rewrite !andb_true_iff, !Z.leb_le. lia.
Qed.
Lemma rect_interior_intersects q q' : aligned q -> aligned q' ->
  (r2_interior_intersects (uvrect q) (uvrect q') = true <->
   sq_i q < sq_i q' + sq_side q' /\ sq_i q' < sq_i q + sq_side q /\ sq_j q < sq_j q' + sq_side q' /\ sq_j q' < sq_j q + sq_side q).
Proof.
  intros (_ & P & _ & _ & B1 & B2 & B3 & B4) (_ & P' & _ & _ & B1' & B2' & B3' & B4').
  unfold r2_interior_intersects, r1_interior_intersects, uvrect. cbn [rx ry lo1 hi1]. rewrite !uvl_lt, !uvl_le by lia.
  rewrite !andb_true_iff, !Z.ltb_lt, !Z.leb_le. lia.
Qed.

(** ** Children *)
Lemma as_u64_pos x : 0 <= x < 2 ^ 64 -> as_u64 x = x.
Proof. intros H. unfold as_u64. apply Z.mod_small. exact H. Qed.
Lemma center_uv_ok c : wf c -> center_uv (code c) = Some (P2 (uvl (2 * sq_i (sq c) + side (lv c))) (uvl (2 * sq_j (sq c) + side (lv c)))).
Proof.
  intros W. destruct (center_ok c W) as [E _]. unfold center_uv. rewrite E.
  destruct (sq_aligned c W) as ((_ & P & _ & _ & B1 & B2 & B3 & B4) & _ & S). rewrite S in *.
  change (2 ^ 30) with 1073741824 in *. rewrite !as_u64_pos, !siti_lat by lia. reflexivity.
Qed.
Lemma side_half l : 0 <= l < 30 -> side l / 2 = side (l + 1) /\ side l = 2 * side (l + 1).
Proof.
  intros H. assert (E : side l = 2 * side (l + 1)).
  { unfold side. replace (30 - l) with (1 + (30 - (l + 1))) by lia. rewrite Z.pow_add_r by lia. reflexivity. }
  split; [|exact E]. rewrite E, Z.mul_comm. apply Z.div_mul. lia.
Qed.
Lemma cell_child_ok c k : wf c -> lv c < 30 -> 0 <= k < 4 ->
  cell_child (cell_of c) (P2 (uvl (2 * sq_i (sq c) + side (lv c))) (uvl (2 * sq_j (sq c) + side (lv c)))) (code (child c k)) k = cell_of (child c k).
Proof.
  intros W HL Hk. pose proof W as [HL' _]. unfold cell_child, cell_of. cbn [c_face c_level c_orientation c_id c_uv].
  rewrite face_of_child, sq_child by auto. 
  assert (O : ori (child c k) = nxt (ori c) k).
  { unfold ori. rewrite cellW_child by auto. destruct (cellW c) as [[a b] o]. reflexivity. }
  rewrite O. assert (Ro : r4 (ori c)).
  { pose proof (cellW_range c W) as R. unfold ori. destruct (cellW c) as [[a b] o]. apply R. }
  rewrite quadrant_q by auto. destruct (sq_aligned c W) as (_ & _ & S). destruct (side_half (lv c) ltac:(lia)) as [S2 S3].
  unfold sub_square. rewrite S, S2. unfold uvrect. cbn [sq_i sq_j sq_side fst snd rx ry lo1 hi1 px py child lv]. rewrite S.
  unfold nxt. f_equal. 
  assert (Q : Z.shiftr (pos_to_ij (ori c) k) 1 = qi (ori c) k /\ Z.land (pos_to_ij (ori c) k) 1 = qj (ori c) k).
  { split; [unfold qi; rewrite Z.shiftr_div_pow2 by lia; reflexivity|]. unfold qj. change 1 with (Z.ones 1). apply Z.land_ones. lia. }
  destruct Q as [-> ->].
  assert (R : (qi (ori c) k = 0 \/ qi (ori c) k = 1) /\ (qj (ori c) k = 0 \/ qj (ori c) k = 1)).
  { clear - Ro Hk. revert Ro. generalize (ori c). intros o Ho. unfold r4 in Ho.
    assert (O : o = 0 \/ o = 1 \/ o = 2 \/ o = 3) by lia. assert (K : k = 0 \/ k = 1 \/ k = 2 \/ k = 3) by lia.
    destruct O as [-> | [-> | [-> | ->]]]; destruct K as [-> | [-> | [-> | ->]]]; vm_compute; auto. }
  destruct R as [[-> | ->] [-> | ->]]; cbn [Z.eqb Pos.eqb]; apply f_equal2; apply f_equal2; apply f_equal; lia.
Qed.
Lemma children_ok c : wf c -> lv c < 30 ->
  cell_children (cell_of c) = Some (Some [cell_of (child c 0); cell_of (child c 1); cell_of (child c 2); cell_of (child c 3)]).
Proof.
  intros W HL. unfold cell_children, cell_is_leaf. cbn [cell_of c_level c_id]. unfold MAX_LEVEL.
  destruct (Z.eqb_spec (lv c) 30); [lia|]. rewrite center_uv_ok, child_begin_code by auto.
  assert (N : forall k, 0 <= k < 4 -> next (code (child c k)) = Some (code (child c (Z.succ k)))).
  { intros k Hk. rewrite next_code by (apply child_wf; auto). do 2 f_equal. unfold child. cbn [lv ix]. f_equal. lia. }
  rewrite (N 0) by lia. change (Z.succ 0) with 1. rewrite (N 1) by lia. change (Z.succ 1) with 2.
  rewrite (N 2) by lia. change (Z.succ 2) with 3. rewrite (N 3) by lia. rewrite !cell_child_ok by (auto; lia). reflexivity.
Qed.
