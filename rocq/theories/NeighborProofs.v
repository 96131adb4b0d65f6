(** The neighbour functions, as squares. *)
From Coq Require Import Lia ZArith Bool List.
From Verif Require Import Base Spec CellIdModel CellIdArith CellIdProofs HilbertModel HilbertSpec HilbertProofs HilbertGeom
  NeighborSpec NeighborModel NeighborWrap NeighborGeom NeighborTouch NeighborCorner.
Import ListNotations.
Open Scope Z_scope.

Lemma side_divides k l : 0 <= k <= l -> l <= 30 -> (side l | side k).
Proof. intros. exists (2 ^ (l - k)). unfold side. rewrite <- Z.pow_add_r by lia. f_equal. lia. Qed.
Lemma side_NN k : 0 <= k <= 30 -> 0 < side k <= NN /\ (side k | NN).
Proof.
  intros H. pose proof (side_divides 0 k ltac:(lia) ltac:(lia)) as D. change (side 0) with NN in D.
  assert (0 < side k) by (apply Z.pow_pos_nonneg; lia). pose proof (Z.divide_pos_le (side k) NN ltac:(lia) D). auto.
Qed.

(* an aligned square is determined by its side and one of its unit squares *)
Lemma aligned_unique q q' f i j : aligned q -> aligned q' -> sq_side q = sq_side q' ->
  in_square q f i j -> in_square q' f i j -> q = q'.
Proof.
  intros (_ & P & [a Ha] & [b Hb] & _) (_ & _ & [a' Ha'] & [b' Hb'] & _) E (F & I & J) (F' & I' & J').
  rewrite <- E in *. destruct q as [g x y s], q' as [g' x' y' s']; sqs. subst s'. subst g g' x y x' y'.
  apply (div_square a s i) in I; auto. apply (div_square a' s i) in I'; auto.
  apply (div_square b s j) in J; auto. apply (div_square b' s j) in J'; auto. congruence.
Qed.
Lemma sq_inj c d : wf c -> wf d -> lv c = lv d -> sq c = sq d -> c = d.
Proof.
  intros Hc Hd L E. pose proof (side_pos c Hc). apply cellW_inj; auto; revert E; unfold sq;
  destruct (cellW c) as [[a b] o], (cellW d) as [[a' b'] o']; intros E; apply square_eq in E; rewrite <- L in E; cbn [fst]; [tauto|].
  f_equal; nia.
Qed.

(* the level-k cell at a square *)
Definition cellsq (k : Z) (q : square) : cell :=
  match from_face_ij (sq_face q) (sq_i q) (sq_j q) with
  | Some id => anc k (leaf (id / 2))
  | None => Cell 0 0
  end.

(* the level-k ancestor of the leaf at (i, j) is the aligned square around (i, j) *)
Lemma parent_square f i j k q : 0 <= f < 6 -> 0 <= i < NN -> 0 <= j < NN -> 0 <= k <= 30 ->
  aligned q -> sq_side q = side k -> in_square q f i j ->
  exists m, from_face_ij f i j = Some (code (leaf m)) /\ wf (anc k (leaf m)) /\ sq (anc k (leaf m)) = q /\
    parent (code (leaf m)) k = Some (code (anc k (leaf m))) /\ code (leaf m) / 2 = m.
Proof.
  intros Hf Hi Hj Hk A S I. destruct (from_face_ij_leaf f i j Hf Hi Hj) as (m & W & E & _ & _).
  assert (Wa : wf (anc k (leaf m))) by (apply wf_anc; auto).
  exists m. split; [exact E|]. split; [exact Wa|]. split; [|split; [apply parent_code; auto|]].
  - destruct (sq_correct _ Wa) as (A' & S' & H'). cbn [lv anc] in S'.
    apply (aligned_unique _ _ f i j); auto; [congruence|]. apply H'; auto. exists m. split; [exact E|].
    pose proof (anc_is_ancestor (leaf m) k ltac:(cbn; lia)) as An. 
    apply (proj1 (ancestor_leaves _ _ Wa W) An). unfold leaves, leaf; cbn [lv ix]. change (4 ^ (30 - 30)) with 1. lia.
  - rewrite code_leaf. symmetry. apply Z.div_unique with 1; lia.
Qed.
Lemma cellsq_ok k q : 0 <= k <= 30 -> aligned q -> sq_side q = side k ->
  wf (cellsq k q) /\ lv (cellsq k q) = k /\ sq (cellsq k q) = q.
Proof.
  intros Hk A S. pose proof A as (F & P & _ & _ & B1 & B2 & B3 & B4). change (2 ^ 30) with NN in *.
  destruct (parent_square (sq_face q) (sq_i q) (sq_j q) k q) as (m & E & W & Q & _ & D); auto; try lia.
  { unfold in_square. lia. }
  unfold cellsq. rewrite E, D. auto.
Qed.
Lemma cellsq_sq c : wf c -> cellsq (lv c) (sq c) = c.
Proof.
  intros W. destruct (sq_aligned c W) as (A & _ & S). destruct (cellsq_ok (lv c) (sq c)) as (W' & L & Q); auto.
  { apply W. }
  apply sq_inj; auto.
Qed.

Definition pk (k : Z) (o : option Z) : option Z := let* y := o in parent y k.
Lemma nb_in f x y k i j : 0 <= f < 6 -> 0 <= k <= 30 ->
  (side k | x) -> (side k | y) -> inr (side k) x -> inr (side k) y ->
  leaf_in (side k) x i -> leaf_in (side k) y j ->
  pk k (from_face_ij f i j) = Some (code (cellsq k (resolve f x y (side k)))).
Proof.
  intros Hf Hk Dx Dy Rx Ry Li Lj. destruct (side_NN k Hk) as [Hs Dn]. unfold inr, leaf_in in *.
  assert (Ex : ext (side k) x) by (unfold ext; lia). assert (Ey : ext (side k) y) by (unfold ext; lia).
  destruct (resolve_aligned f x y (side k) Hf Hs Dn Dx Dy Ex Ey) as [A S].
  destruct (parent_square f i j k (resolve f x y (side k))) as (m & E & W & Q & P & D); auto; try lia.
  { rewrite resolve_in by lia. unfold in_square; sqs. lia. }
  rewrite E. unfold pk. rewrite P. f_equal. f_equal. destruct (cellsq_ok k _ Hk A S) as (W' & L' & Q').
  apply sq_inj; auto. congruence.
Qed.
Lemma nb_wrap f x y k i j : 0 <= f < 6 -> 0 <= k <= 30 ->
  (side k | x) -> (side k | y) -> ext (side k) x -> ext (side k) y ->
  leaf_in (side k) x i -> leaf_in (side k) y j ->
  pk k (from_face_ij_wrap f i j) = Some (code (cellsq k (resolve f x y (side k)))).
Proof.
  intros Hf Hk Dx Dy Ex Ey Li Lj. destruct (side_NN k Hk) as [Hs Dn].
  destruct (resolve_aligned f x y (side k) Hf Hs Dn Dx Dy Ex Ey) as [A S].
  pose proof (resolve_leaf f x y (side k) i j Hf Hs Ex Ey Li Lj) as R. rewrite wrap_ok by auto.
  destruct (wrapZ f _ _) as [[f' i'] j'].
  pose proof A as (F & P & _ & _ & B1 & B2 & B3 & B4). change (2 ^ 30) with NN in *. pose proof R as (R1 & R2 & R3).
  destruct (parent_square f' i' j' k (resolve f x y (side k))) as (m & E & W & Q & Pp & D); auto; try lia.
  rewrite E. unfold pk. rewrite Pp. f_equal. f_equal. destruct (cellsq_ok k _ Hk A S) as (W' & L' & Q').
  apply sq_inj; auto. congruence.
Qed.
Lemma nb_same f x y k i j same : 0 <= f < 6 -> 0 <= k <= 30 ->
  (side k | x) -> (side k | y) -> ext (side k) x -> ext (side k) y ->
  leaf_in (side k) x i -> leaf_in (side k) y j ->
  (same = true -> inr (side k) x /\ inr (side k) y) ->
  pk k (from_face_ij_same f i j same) = Some (code (cellsq k (resolve f x y (side k)))).
Proof.
  intros. unfold from_face_ij_same. destruct same; [apply nb_in|apply nb_wrap]; tauto.
Qed.

Lemma chk_i32_ok a : - 2 ^ 31 <= a < 2 ^ 31 -> chk_i32 a = Some a.
Proof. intros H. unfold chk_i32. destruct (Z.leb_spec (- 2 ^ 31) a), (Z.ltb_spec a (2 ^ 31)); try lia; reflexivity. Qed.
Lemma size_i32_ok k : 0 <= k <= 30 -> size_i32 k = Some (side k).
Proof.
  intros H. assert (E : size_ij k = Some (side k)).
  { assert (C : forall n, (n <= 30)%nat -> size_ij (Z.of_nat n) = Some (side (Z.of_nat n))).
    { intros n Hn. do 31 (destruct n as [|n]; [vm_compute; reflexivity|]). lia. }
    specialize (C (Z.to_nat k) ltac:(lia)). rewrite Z2Nat.id in C by lia. exact C. }
  unfold size_i32. rewrite E. cbv beta iota. f_equal. pose proof (side_NN k H). unfold as_i32. rewrite Z.mod_small by lia.
  destruct (Z.ltb_spec (side k) (2 ^ 31)); lia.
Qed.

(** ** Edge neighbours *)

Definition sqn (q : square) (x y : Z) : square := resolve (sq_face q) x y (sq_side q).
Definition edge_squares (q : square) : list square :=
  let s := sq_side q in
  [sqn q (sq_i q) (sq_j q - s); sqn q (sq_i q + s) (sq_j q);
   sqn q (sq_i q) (sq_j q + s); sqn q (sq_i q - s) (sq_j q)].

Lemma multiples s q : 0 < s -> (s | NN) -> (s | sq_side q) -> aligned q ->
  (s | sq_i q) /\ (s | sq_j q) /\ (s | sq_i q + sq_side q) /\ (s | sq_j q + sq_side q) /\
  (s | sq_i q - s) /\ (s | sq_j q - s) /\
  ext s (sq_i q) /\ ext s (sq_j q) /\ ext s (sq_i q + sq_side q) /\ ext s (sq_j q + sq_side q) /\
  ext s (sq_i q - s) /\ ext s (sq_j q - s).
Proof.
  intros Hs Dn D (_ & P & Di & Dj & B). change (2 ^ 30) with NN in B.
  assert (s | sq_i q) by (apply (Z.divide_trans _ (sq_side q)); auto). assert (s | sq_j q) by (apply (Z.divide_trans _ (sq_side q)); auto).
  pose proof (Z.divide_pos_le s (sq_side q) P D).
  assert (s | sq_i q + sq_side q) by (apply Z.divide_add_r; auto). assert (s | sq_j q + sq_side q) by (apply Z.divide_add_r; auto).
  assert (s | sq_i q - s) by (apply Z.divide_sub_r; auto using Z.divide_refl).
  assert (s | sq_j q - s) by (apply Z.divide_sub_r; auto using Z.divide_refl).
  repeat (split; [assumption|]).
  assert (K : forall x, (s | x) -> - s <= x <= NN -> ext s x) by (intros; apply divide_ext; auto).
  repeat split; apply K; auto; lia.
Qed.

Lemma edge_neighbors_ok c : wf c ->
  edge_neighbors (code c) = Some (map code (map (cellsq (lv c)) (edge_squares (sq c)))).
Proof.
  intros W. destruct (sq_aligned c W) as (A & F & S). pose proof W as [HL _].
  destruct (side_NN _ HL) as [Hs Dn].
  destruct (multiples (side (lv c)) (sq c)) as (D1 & D2 & D3 & D4 & D5 & D6 & E1 & E2 & E3 & E4 & E5 & E6); auto; try lia.
  { rewrite S. apply Z.divide_refl. }
  destruct (face_ij_cell c W) as (i & j & E & I & Hi & Hj & _). change (2 ^ 30) with NN in *.
  pose proof (face_of_range c W) as Hf.
  unfold edge_neighbors. rewrite level_code by auto. cbv beta iota. rewrite size_i32_ok by auto. cbv beta iota.
  rewrite E. cbv beta iota.
  destruct I as (_ & Ii & Ij). rewrite S in *. set (s := side (lv c)) in *.
  rewrite !chk_i32_ok by lia. cbv beta iota.
  fold (pk (lv c) (from_face_ij_wrap (face_of c) i (j - s))). fold (pk (lv c) (from_face_ij_wrap (face_of c) (i + s) j)).
  fold (pk (lv c) (from_face_ij_wrap (face_of c) i (j + s))). fold (pk (lv c) (from_face_ij_wrap (face_of c) (i - s) j)).
  unfold edge_squares, sqn. rewrite S, F. fold s.
  rewrite (nb_wrap (face_of c) (sq_i (sq c)) (sq_j (sq c) - s)) by (auto; unfold leaf_in; fold s; lia). cbv beta iota.
  rewrite (nb_wrap (face_of c) (sq_i (sq c) + s) (sq_j (sq c))) by (auto; unfold leaf_in; fold s; lia). cbv beta iota.
  rewrite (nb_wrap (face_of c) (sq_i (sq c)) (sq_j (sq c) + s)) by (auto; unfold leaf_in; fold s; lia). cbv beta iota.
  rewrite (nb_wrap (face_of c) (sq_i (sq c) - s) (sq_j (sq c))) by (auto; unfold leaf_in; fold s; lia). cbv beta iota.
  reflexivity.
Qed.
