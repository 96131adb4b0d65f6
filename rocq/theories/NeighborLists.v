(** vertex_neighbors and all_neighbors, as lists of squares. *)
From Coq Require Import Lia ZArith Bool List.
From Verif Require Import Base Spec CellIdModel CellIdArith CellIdProofs HilbertModel HilbertSpec HilbertProofs HilbertGeom
  NeighborSpec NeighborModel NeighborWrap NeighborGeom NeighborTouch NeighborCorner NeighborProofs NeighborEdges.
Import ListNotations.
Open Scope Z_scope.

(** ** Vertex neighbours *)

Lemma land_half i a n : 0 <= n -> a * 2 ^ (n + 1) <= i < a * 2 ^ (n + 1) + 2 ^ (n + 1) ->
  negb (Z.land i (2 ^ n) =? 0) = (a * 2 ^ (n + 1) + 2 ^ n <=? i).
Proof.
  intros Hn H. assert (P : 2 ^ (n + 1) = 2 * 2 ^ n) by (rewrite Z.pow_add_r by lia; lia). rewrite P in *.
  assert (Hp : 0 < 2 ^ n) by (apply Z.pow_pos_nonneg; lia).
  assert (B : Z.testbit i n = (a * (2 * 2 ^ n) + 2 ^ n <=? i)).
  { rewrite Z.testbit_odd, Z.shiftr_div_pow2 by lia.
    destruct (Z.leb_spec (a * (2 * 2 ^ n) + 2 ^ n) i).
    - replace (i / 2 ^ n) with (2 * a + 1) by (apply Z.div_unique with (i - (2 * a + 1) * 2 ^ n); lia).
      rewrite Z.odd_add_mul_2 || (rewrite Z.add_comm, Z.odd_add_mul_2); reflexivity.
    - replace (i / 2 ^ n) with (2 * a) by (apply Z.div_unique with (i - (2 * a) * 2 ^ n); lia).
      rewrite Z.odd_mul. reflexivity. }
  rewrite <- B. destruct (Z.testbit i n) eqn:T.
  - destruct (Z.eqb_spec (Z.land i (2 ^ n)) 0) as [E|E]; [|reflexivity]. exfalso.
    assert (Z.testbit (Z.land i (2 ^ n)) n = false) as F by (rewrite E; apply Z.bits_0).
    rewrite Z.land_spec, T, Z.pow2_bits_true in F by lia. discriminate.
  - assert (Z.land i (2 ^ n) = 0) as ->; [|reflexivity]. apply Z.bits_inj'. intros m Hm.
    rewrite Z.land_spec, Z.bits_0. destruct (Z.eq_dec n m) as [<-|N]; [rewrite T; reflexivity|].
    rewrite Z.pow2_bits_false by auto. apply andb_false_r.
Qed.

Lemma vertex_offset_ok k i a : 0 <= k < 30 -> 0 <= a -> (a + 1) * side k <= NN ->
  a * side k <= i < a * side k + side k ->
  vertex_offset i (side (k + 1)) (side k) =
  let up := a * side k + side (k + 1) <=? i in
  let x := if up then a * side k + side k else a * side k - side k in
  Some ((0 <=? x) && (x <=? NN - side k), x - a * side k).
Proof.
  intros Hk Ha B H. destruct (side_NN k ltac:(lia)) as [Hs [b Db]].
  assert (Ri : 0 <= i < NN) by nia.
  assert (E1 : side (k + 1) = 2 ^ (29 - k)) by (unfold side; f_equal; lia).
  assert (E2 : side k = 2 ^ (29 - k + 1)) by (unfold side; f_equal; lia).
  unfold vertex_offset. rewrite E1, (land_half i a (29 - k)) by (rewrite <- ?E2; lia). rewrite <- E2.
  cbv zeta. unfold MAX_SIZE, MAX_LEVEL. change (2 ^ 30) with NN.
  rewrite !chk_i32_ok by lia.
  assert (Ab : a + 1 = b \/ (a + 2) * side k <= NN) by (rewrite Db in *; destruct (Z.eq_dec (a + 1) b); [left; lia|right; nia]).
  assert (Az : a = 0 \/ side k <= a * side k) by (destruct (Z.eq_dec a 0); [left; lia|right; nia]).
  destruct (Z.leb_spec (a * side k + 2 ^ (29 - k)) i).
  - f_equal. f_equal; [|lia]. destruct (Z.ltb_spec (i + side k) NN), (Z.leb_spec 0 (a * side k + side k)), (Z.leb_spec (a * side k + side k) (NN - side k)); cbn [andb]; auto; exfalso; destruct Ab, Az; subst; lia.
  - f_equal. f_equal; [|lia]. destruct (Z.leb_spec 0 (i - side k)), (Z.leb_spec 0 (a * side k - side k)), (Z.leb_spec (a * side k - side k) (NN - side k)); cbn [andb]; auto; exfalso; destruct Ab, Az; subst; lia.
Qed.

Definition step (up : bool) (x s : Z) : Z := if up then x + s else x - s.
Definition inrb (s x : Z) : bool := (0 <=? x) && (x <=? NN - s).
Lemma inrb_ok s x : inrb s x = true <-> inr s x.
Proof. unfold inrb, inr. rewrite andb_true_iff, !Z.leb_le. lia. Qed.
Definition vertex_squares (q : square) (ui uj : bool) : list square :=
  let s := sq_side q in
  let x := step ui (sq_i q) s in
  let y := step uj (sq_j q) s in
  [q; sqn q x (sq_j q); sqn q (sq_i q) y] ++
  if inrb s x || inrb s y then [sqn q x y] else [].

Lemma sq_anc_in c k f i j : wf c -> 0 <= k <= lv c -> 0 <= f < 6 -> 0 <= i < NN -> 0 <= j < NN ->
  in_square (sq c) f i j -> in_square (sq (anc k c)) f i j.
Proof.
  intros W Hk Hf Hi Hj I. assert (Wa : wf (anc k c)) by (apply wf_anc; auto).
  destruct (sq_correct c W) as (_ & _ & H). destruct (sq_correct _ Wa) as (_ & _ & H').
  apply (H' f i j Hf Hi Hj). apply (H f i j Hf Hi Hj) in I. destruct I as (m & E & L). exists m. split; [exact E|].
  apply (proj1 (ancestor_leaves _ _ Wa W) (anc_is_ancestor c k ltac:(lia))). exact L.
Qed.
Lemma face_anc c k : wf c -> 0 <= k <= lv c -> face_of (anc k c) = face_of c.
Proof.
  intros W Hk. unfold face_of, anc. cbn [lv ix]. rewrite Z.div_div by (try apply Z.pow_pos_nonneg; try apply Z.pow_nonzero; lia).
  rewrite <- Z.pow_add_r by lia. do 2 f_equal. lia.
Qed.

(* which half of the ancestor the cell lies in *)
Definition upper (p a : Z) (q : square) : bool := a + sq_side q / 2 <=? p.

Lemma mult_le t u v x : 0 < t -> (t | u) -> (t | v) -> u <= x < u + t -> (v <=? x) = (v <=? u).
Proof.
  intros Ht [m ->] [n ->] Hx. destruct (Z.leb_spec (n * t) x), (Z.leb_spec (n * t) (m * t)); auto; try lia.
  exfalso. assert (n < m + 1) by (apply (Z.mul_lt_mono_pos_r t); lia). assert (m < n) by (apply (Z.mul_lt_mono_pos_r t); lia). lia.
Qed.
Lemma vertex_neighbors_ok c k : wf c -> 0 <= k < lv c ->
  let p := sq (anc k c) in
  vertex_neighbors (code c) k =
  Some (map code (map (cellsq k) (vertex_squares p (upper (sq_i (sq c)) (sq_i p) p) (upper (sq_j (sq c)) (sq_j p) p)))).
Proof.
  intros W Hk p. assert (Wa : wf (anc k c)) by (apply wf_anc; auto; lia). pose proof W as [HL _].
  destruct (sq_aligned _ Wa) as (A & F & S). cbn [lv anc] in S. fold p in A, F, S.
  assert (Hk' : 0 <= k <= 30) by lia. destruct (side_NN k Hk') as [Hs Dn].
  assert (Hh : 0 <= k + 1 <= 30) by lia. destruct (side_NN (k + 1) Hh) as [Hs1 Dn1].
  assert (S2 : side k = 2 * side (k + 1)) by (unfold side; replace (30 - k) with (30 - (k + 1) + 1) by lia; rewrite Z.pow_add_r by lia; lia).
  destruct (multiples (side k) p) as (D1 & D2 & D3 & D4 & D5 & D6 & E1 & E2 & E3 & E4 & E5 & E6); auto; try lia.
  { rewrite S. apply Z.divide_refl. }
  destruct (sq_aligned c W) as (Ac & Fc & Sc).
  destruct (face_ij_cell c W) as (i & j & E & I & Hi & Hj & _). change (2 ^ 30) with NN in *.
  pose proof (face_of_range c W) as Hf.
  pose proof (sq_anc_in c k _ i j W ltac:(lia) Hf Hi Hj I) as Ip. fold p in Ip.
  assert (Fp : sq_face p = face_of c) by (rewrite F; apply face_anc; auto; lia).
  pose proof A as (_ & _ & _ & _ & B1 & B2 & B3 & B4). change (2 ^ 30) with NN in *.
  destruct D1 as [a Da]. destruct D2 as [b Db]. destruct Ip as (_ & Ii & Ij).
  (* the upper half, seen from any unit square of the cell *)
  assert (Dc : (sq_side (sq c) | side (k + 1))) by (rewrite Sc; apply side_divides; lia).
  assert (Up : forall x u v, (sq_side (sq c) | u) -> u <= x < u + sq_side (sq c) -> (side (k + 1) | v) -> (v <=? x) = (v <=? u)).
  { intros x u v Du Hx Dv. apply (mult_le (sq_side (sq c))); auto; [apply Ac|]. apply (Z.divide_trans _ (side (k + 1))); auto. }
  assert (Hhalf : sq_side p / 2 = side (k + 1)) by (rewrite S, S2, Z.mul_comm; apply Z.div_mul; lia).
  destruct I as (_ & Ici & Icj). destruct Ac as (_ & _ & Dci & Dcj & _).
  unfold vertex_neighbors. unfold add64. 
  destruct (Z.ltb_spec (k + 1) (2 ^ 64)) as [_|X]; [|lia].
  rewrite size_i32_ok by auto. cbv beta iota.
  assert (as_i32 (Z.shiftl (side (k + 1)) 1) = side k) as ->.
  { rewrite Z.shiftl_mul_pow2 by lia. change (2 ^ 1) with 2. rewrite Z.mul_comm, <- S2. unfold as_i32. rewrite Z.mod_small by lia. destruct (Z.ltb_spec (side k) (2 ^ 31)); lia. }
  rewrite E. cbv beta iota.
  rewrite (vertex_offset_ok k i a) by (try nia; lia). cbv beta zeta iota.
  rewrite (vertex_offset_ok k j b) by (try nia; lia). cbv beta zeta iota.
  rewrite <- Da, <- Db.
  rewrite (Up i (sq_i (sq c)) (sq_i p + side (k + 1))), (Up j (sq_j (sq c)) (sq_j p + side (k + 1))); auto.
  2:{ apply Z.divide_add_r; [|apply Z.divide_refl]. exists (2 * b). lia. }
  2:{ apply Z.divide_add_r; [|apply Z.divide_refl]. exists (2 * a). lia. }
  rewrite parent_code by (auto; lia). cbv beta iota.
  unfold upper, vertex_squares. rewrite S. rewrite S in Hhalf. rewrite Hhalf.
  set (ui := sq_i p + side (k + 1) <=? sq_i (sq c)). set (uj := sq_j p + side (k + 1) <=? sq_j (sq c)).
  fold (step ui (sq_i p) (side k)). fold (step uj (sq_j p) (side k)).
  set (x := step ui (sq_i p) (side k)) in *. set (y := step uj (sq_j p) (side k)) in *.
  assert (Ex : ext (side k) x /\ (side k | x)).
  { rewrite S in *. unfold x, step. destruct ui; auto. }
  assert (Ey : ext (side k) y /\ (side k | y)).
  { rewrite S in *. unfold y, step. destruct uj; auto. }
  destruct Ex as [Ex Dx]. destruct Ey as [Ey Dy].
  assert (Rx : - side k <= x <= NN) by (unfold ext in Ex; lia). assert (Ry : - side k <= y <= NN) by (unfold ext in Ey; lia).
  fold (inrb (side k) x). fold (inrb (side k) y).
  replace (i + (x - sq_i p)) with (x + (i - sq_i p)) by lia. replace (j + (y - sq_j p)) with (y + (j - sq_j p)) by lia.
  rewrite S in *.
  rewrite !chk_i32_ok by lia. cbv beta iota.
  set (i' := x + (i - sq_i p)) in *. set (j' := y + (j - sq_j p)) in *.
  fold (pk k (from_face_ij_same (face_of c) i' j (inrb (side k) x))).
  fold (pk k (from_face_ij_same (face_of c) i j' (inrb (side k) y))).
  fold (pk k (from_face_ij_same (face_of c) i' j' (inrb (side k) x && inrb (side k) y))).
  assert (Dpi : (side k | sq_i p)) by (exists a; exact Da). assert (Dpj : (side k | sq_j p)) by (exists b; exact Db).
  rewrite (nb_same (face_of c) x (sq_j p)); auto; try (unfold leaf_in, i', j'; lia).
  2:{ rewrite inrb_ok. unfold inr. lia. }
  cbv beta iota.
  rewrite (nb_same (face_of c) (sq_i p) y); auto; try (unfold leaf_in, i', j'; lia).
  2:{ rewrite inrb_ok. unfold inr. lia. }
  cbv beta iota.
  rewrite (nb_same (face_of c) x y); auto; try (unfold leaf_in, i', j'; lia).
  2:{ rewrite andb_true_iff, !inrb_ok. auto. }
  cbv beta iota. unfold sqn. rewrite Fp, S.
  assert (EC : cellsq k p = anc k c) by (apply (cellsq_sq (anc k c) Wa)).
  destruct (inrb (side k) x || inrb (side k) y); cbn [map app]; rewrite EC; reflexivity.
Qed.
