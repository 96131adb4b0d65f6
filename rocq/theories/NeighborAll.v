(** all_neighbors, as a list of squares. *)
From Coq Require Import Lia ZArith Bool List.
From Verif Require Import Base Spec CellIdModel CellIdArith CellIdProofs HilbertModel HilbertSpec HilbertProofs HilbertGeom
  NeighborSpec NeighborModel NeighborWrap NeighborGeom NeighborTouch NeighborCorner NeighborProofs NeighborEdges NeighborLists.
Import ListNotations.
Open Scope Z_scope.

(* the positions pushed by one iteration *)
Definition step_pos (i j S s k : Z) : list (Z * Z) :=
  (if (k <? 0) || (S <=? k) then [] else [(i + k, j - s); (i + k, j + S)]) ++ [(i - s, j + k); (i + S, j + k)].
Fixpoint loop_pos (n : nat) (i j S s k : Z) : list (Z * Z) :=
  match n with
  | O => []
  | Datatypes.S n => step_pos i j S s k ++ if S <=? k then [] else loop_pos n i j S s (k + s)
  end.
Definition at_pos (f l : Z) (p : Z * Z) : Z := code (cellsq l (resolve f (fst p) (snd p) (side l))).

Section Loop.
Context (q : square) (Aq : aligned q) (l : Z) (Hl : 0 <= l <= 30) (Dl : (side l | sq_side q)).
Notation s := (side l).
Notation i := (sq_i q).
Notation j := (sq_j q).
Notation S := (sq_side q).

Lemma step_ok k : (s | k) -> - s <= k <= S ->
  all_neighbors_step (sq_face q) i j S s l k = Some (map (at_pos (sq_face q) l) (step_pos i j S s k)).
Proof.
  intros Dk Hk. destruct (side_NN l Hl) as [Hs Dn].
  destruct (multiples s q) as (D1 & D2 & D3 & D4 & D5 & D6 & E1 & E2 & E3 & E4 & E5 & E6); auto; try lia.
  pose proof Aq as (Hf & HS & DSi & DSj & B1 & B2 & B3 & B4). change (2 ^ 30) with NN in *.
  assert (HsS : s <= S) by (apply Z.divide_pos_le; auto).
  assert (Dik : (s | i + k)) by (apply Z.divide_add_r; auto). assert (Djk : (s | j + k)) by (apply Z.divide_add_r; auto).
  assert (Eik : ext s (i + k)) by (apply divide_ext; auto; lia). assert (Ejk : ext s (j + k)) by (apply divide_ext; auto; lia).
  assert (Zi : i = 0 \/ S <= i) by (clear - DSi HS B1 B3; destruct DSi as [m Em]; rewrite Em in *; destruct (Z.eq_dec m 0); [left; lia|right; nia]).
  assert (Zj : j = 0 \/ S <= j) by (clear - DSj HS B1 B3; destruct DSj as [m Em]; rewrite Em in *; destruct (Z.eq_dec m 0); [left; lia|right; nia]).
  assert (Ti : i + S = NN \/ i + S + s <= NN) by (unfold ext in E3; lia).
  assert (Tj : j + S = NN \/ j + S + s <= NN) by (unfold ext in E4; lia).
  assert (Tjk : k < S -> j + k + s <= NN) by (unfold ext in Ejk; lia).
  assert (Tik : k < S -> i + k + s <= NN) by (unfold ext in Eik; lia).
  unfold all_neighbors_step, step_pos. unfold MAX_SIZE, MAX_LEVEL. change (2 ^ 30) with NN.
  rewrite !chk_i32_ok by lia. cbv beta iota.
  set (F := sq_face q) in *.
  fold (pk l (from_face_ij_same F (i + k) (j - s) (0 <=? j - S))).
  fold (pk l (from_face_ij_same F (i + k) (j + S) (j + S <? NN))).
  assert (C : forall same, (same = true -> inr s (j + k)) ->
     (match pk l (from_face_ij_same F (i - s) (j + k) (same && (0 <=? i - S))) with
      | Some c => match pk l (from_face_ij_same F (i + S) (j + k) (same && (i + S <? NN))) with
                  | Some d => Some [c; d] | None => None end
      | None => None end) = Some (map (at_pos F l) [(i - s, j + k); (i + S, j + k)])).
  { intros same Hsame.
    rewrite (nb_same F (i - s) (j + k)); auto; try (unfold leaf_in; lia).
    2:{ rewrite andb_true_iff, Z.leb_le. intros [H1 H2]. split; [unfold inr; lia|auto]. }
    rewrite (nb_same F (i + S) (j + k)); auto; try (unfold leaf_in; lia).
    rewrite andb_true_iff, Z.ltb_lt. intros [H1 H2]. split; [unfold inr; lia|auto]. }
  destruct (Z.ltb_spec k 0) as [K0|K0]; [|destruct (Z.leb_spec S k) as [K1|K1]]; cbn [orb]; cbv beta iota.
  - specialize (C (0 <=? j + k)). unfold pk in C.
    assert (H : (0 <=? j + k) = true -> inr s (j + k)) by (rewrite Z.leb_le; unfold inr; lia). specialize (C H).
    destruct (from_face_ij_same F (i - s) (j + k) _) as [y|]; [|discriminate]. destruct (parent y l) as [c|]; [|discriminate].
    destruct (from_face_ij_same F (i + S) (j + k) _) as [y'|]; [|discriminate]. destruct (parent y' l) as [d|]; [|discriminate].
    exact C.
  - specialize (C (j + k <? NN)). unfold pk in C.
    assert (H : (j + k <? NN) = true -> inr s (j + k)) by (clear C; rewrite Z.ltb_lt; unfold inr; unfold ext in Ejk; lia). specialize (C H).
    destruct (from_face_ij_same F (i - s) (j + k) _) as [y|]; [|discriminate]. destruct (parent y l) as [c|]; [|discriminate].
    destruct (from_face_ij_same F (i + S) (j + k) _) as [y'|]; [|discriminate]. destruct (parent y' l) as [d|]; [|discriminate].
    exact C.
  - rewrite (nb_same F (i + k) (j - s)); auto; try (unfold leaf_in; lia).
    2:{ rewrite Z.leb_le. intros. split; unfold inr; lia. }
    rewrite (nb_same F (i + k) (j + S)); auto; try (unfold leaf_in; lia).
    2:{ rewrite Z.ltb_lt. intros. split; unfold inr; lia. }
    cbv beta iota. specialize (C true). unfold pk in C.
    assert (H : true = true -> inr s (j + k)) by (unfold inr; lia). specialize (C H).
    destruct (from_face_ij_same F (i - s) (j + k) _) as [y|]; [|discriminate]. destruct (parent y l) as [c|]; [|discriminate].
    destruct (from_face_ij_same F (i + S) (j + k) _) as [y'|]; [|discriminate]. destruct (parent y' l) as [d|]; [|discriminate].
    injection C as -> ->. reflexivity.
Qed.

Lemma loop_ok n : forall k, (s | k) -> - s <= k <= S -> S - k < Z.of_nat n * s ->
  all_neighbors_loop n (sq_face q) i j S s l k = Some (map (at_pos (sq_face q) l) (loop_pos n i j S s k)).
Proof.
  destruct (side_NN l Hl) as [Hs Dn].
  pose proof Aq as (Hf & HS & DSi & DSj & B1 & B2 & B3 & B4). change (2 ^ 30) with NN in *.
  induction n as [|n IH]; intros k Dk Hk Hn; [lia|].
  cbn [all_neighbors_loop loop_pos]. rewrite step_ok by auto.
  destruct (Z.leb_spec S k) as [K|K]; [rewrite app_nil_r; reflexivity|].
  assert (HsS : s <= S) by (apply Z.divide_pos_le; auto).
  rewrite chk_i32_ok by lia.
  assert (k + s <= S).
  { destruct Dk as [a ->], Dl as [b Eb]. rewrite Eb in *. assert (a < b) by (apply (Z.mul_lt_mono_pos_r s); lia). nia. }
  rewrite IH; [|apply Z.divide_add_r; auto using Z.divide_refl|lia|nia].
  rewrite map_app. reflexivity.
Qed.

Lemma loop_in n x y : forall k, (s | k) -> - s <= k <= S -> S - k < Z.of_nat n * s ->
  In (x, y) (loop_pos n i j S s k) <-> exists k', (s | k') /\ k <= k' <= S /\ In (x, y) (step_pos i j S s k').
Proof.
  destruct (side_NN l Hl) as [Hs Dn]. pose proof Aq as (_ & HS & _).
  induction n as [|n IH]; intros k Dk Hk Hn; [lia|].
  cbn [loop_pos]. rewrite in_app_iff.
  destruct (Z.leb_spec S k) as [K|K].
  - cbn [In]. split; [intros [H|[]]; exists k; auto with zarith|]. intros (k' & D' & K' & H). left.
    replace k with k' by lia. exact H.
  - assert (k + s <= S).
    { destruct Dk as [a ->], Dl as [b Eb]. rewrite Eb in *. assert (a < b) by (apply (Z.mul_lt_mono_pos_r s); lia). nia. }
    rewrite IH; [|apply Z.divide_add_r; auto using Z.divide_refl|lia|nia].
    split.
    + intros [H1|(k' & D' & K' & H1)]; [exists k|exists k']; repeat split; auto; lia.
    + intros (k' & D' & K' & H1). destruct (Z.eq_dec k k') as [<-|N]; [auto|right]. exists k'. repeat split; auto; try lia.
      destruct Dk as [a ->], D' as [b ->]. assert (a < b) by (apply (Z.mul_lt_mono_pos_r s); lia). nia.
Qed.

(* the positions are those of the ring *)
Lemma ring_pos x y : (s | x) -> (s | y) ->
  ring q s x y <-> exists k, (s | k) /\ - s <= k <= S /\ In (x, y) (step_pos i j S s k).
Proof.
  intros Dx Dy. destruct (side_NN l Hl) as [Hs Dn].
  destruct (multiples s q) as (D1 & D2 & D3 & D4 & D5 & D6 & _); auto; try lia.
  pose proof Aq as (_ & HS & _). assert (HsS : s <= S) by (apply Z.divide_pos_le; auto).
  unfold ring, step_pos. split.
  - intros (Rx & Ry & R).
    assert (DX : (s | x - i)) by (apply Z.divide_sub_r; auto). assert (DY : (s | y - j)) by (apply Z.divide_sub_r; auto).
    assert (C : (x = i - s \/ x = i + S) \/ ((y = j - s \/ y = j + S) /\ 0 <= x - i < S)).
    { destruct (Z.eq_dec x (i - s)); [auto|]. destruct (Z.eq_dec x (i + S)); [auto|]. right. split; [lia|].
      split; [|lia]. destruct DX as [a Ha]. assert (-1 < a) by (apply (Z.mul_lt_mono_pos_r s); lia). nia. }
    destruct C as [C|[C C']].
    + exists (y - j). split; [exact DY|]. split; [lia|]. apply in_or_app. right. cbn [In]. rewrite !pair_equal_spec. lia.
    + exists (x - i). split; [exact DX|]. split; [lia|]. apply in_or_app. left.
      destruct (Z.ltb_spec (x - i) 0), (Z.leb_spec S (x - i)); try lia. cbn [orb In]. rewrite !pair_equal_spec. lia.
  - intros (k & Dk & Hk & H). apply in_app_or in H. destruct H as [H|H].
    + destruct (Z.ltb_spec k 0), (Z.leb_spec S k); cbn [orb] in H; try contradiction; try lia.
      cbn [In] in H. rewrite !pair_equal_spec in H. lia.
    + cbn [In] in H. rewrite !pair_equal_spec in H. lia.
Qed.
End Loop.

(* all the positions of the loop, for a cell and a level *)
Definition all_pos (q : square) (s : Z) : list (Z * Z) :=
  loop_pos (Z.to_nat (sq_side q / s + 3)) (sq_i q) (sq_j q) (sq_side q) s (- s).

Lemma all_neighbors_ok c l : wf c -> lv c <= l <= 30 ->
  all_neighbors (code c) l = Some (map (at_pos (face_of c) l) (all_pos (sq c) (side l))) /\
  forall x y, In (x, y) (all_pos (sq c) (side l)) <-> ring (sq c) (side l) x y /\ (side l | x) /\ (side l | y).
Proof.
  intros W Hl. pose proof W as [HL _]. destruct (sq_aligned c W) as (A & F & S).
  assert (Hl' : 0 <= l <= 30) by lia. destruct (side_NN l Hl') as [Hs Dn].
  assert (D : (side l | sq_side (sq c))) by (rewrite S; apply side_divides; lia).
  assert (HsS : side l <= sq_side (sq c)) by (apply Z.divide_pos_le; auto; apply A).
  assert (N : sq_side (sq c) - - side l < Z.of_nat (Z.to_nat (sq_side (sq c) / side l + 3)) * side l).
  { destruct D as [a Ea]. rewrite Ea, Z.div_mul by lia. assert (0 < a) by nia. rewrite Z2Nat.id by lia. nia. }
  assert (D0 : (side l | - side l)) by (apply Z.divide_opp_r, Z.divide_refl).
  split.
  - destruct (face_ij_cell c W) as (i & j & E & (_ & Ii & Ij) & Hi & Hj & _). 
    unfold all_neighbors. rewrite E. rewrite level_code by auto. rewrite size_i32_ok by auto. rewrite (size_i32_ok l) by auto.
    cbv beta iota zeta.
    assert (M : forall x a, (side (lv c) | a) -> a <= x < a + side (lv c) -> Z.land x (- side (lv c)) = a).
    { intros x a [m ->] H. unfold side at 1. rewrite land_opp_pow2 by lia. fold (side (lv c)).
      apply (div_square m (side (lv c)) x) in H; [rewrite <- H; reflexivity|]. apply side_pos; auto. }
    pose proof A as (_ & _ & Di & Dj & _). rewrite S in *.
    rewrite (M i (sq_i (sq c))), (M j (sq_j (sq c))) by auto.
    rewrite <- S in *. rewrite <- F. unfold all_pos. apply loop_ok; auto. lia.
  - intros x y. unfold all_pos. rewrite loop_in; auto; [|lia].
    split.
    + intros (k & Dk & Hk & H).
      destruct (multiples (side l) (sq c)) as (D1 & D2 & D3 & D4 & D5 & D6 & _); auto; try lia.
      assert (DD : (side l | x) /\ (side l | y)).
      { assert (Dik : (side l | sq_i (sq c) + k)) by (apply Z.divide_add_r; auto).
        assert (Djk : (side l | sq_j (sq c) + k)) by (apply Z.divide_add_r; auto).
        unfold step_pos in H. apply in_app_or in H. destruct H as [H|H].
        - destruct ((k <? 0) || _); [contradiction|]. cbn [In] in H. rewrite !pair_equal_spec in H.
          destruct H as [[<- <-]|[[<- <-]|[]]]; auto.
        - cbn [In] in H. rewrite !pair_equal_spec in H. destruct H as [[<- <-]|[[<- <-]|[]]]; auto. }
      split; [|exact DD]. destruct DD. apply (ring_pos (sq c) A l Hl' D); auto. exists k; auto.
    + intros (R & Dx & Dy). apply (ring_pos (sq c) A l Hl' D) in R; auto.
Qed.
