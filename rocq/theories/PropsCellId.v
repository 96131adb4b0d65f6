(** Property theorems for the CellID algebra: C01-C13, C18, C19, C57.
    Each theorem is followed by a concrete case meeting its hypotheses. *)
From Verif Require Import Base Spec CellIdModel CellIdArith CellIdProofs.
From Coq Require Import Sorted.

(* A concrete cell used by the examples: level 2, index 77 (face 4). *)
Definition ex_cell : cell := Cell 2 77.
Example ex_cell_wf : wf ex_cell.
Proof. vm_compute. intuition congruence. Qed.
(* A leaf inside it. *)
Definition ex_leaf : cell := leaf (77 * 4 ^ 28 + 12345).
Example ex_leaf_wf : wf ex_leaf /\ leaves ex_cell (ix ex_leaf).
Proof. vm_compute. intuition congruence. Qed.

(** C01: is_valid is true exactly on the documented encodings; each encodes one cell. *)
Theorem C01_is_valid_exact :
  (forall x, 0 <= x < 2 ^ 64 -> x <> 2 ^ 63 ->
     exists b, is_valid x = Some b /\
       (b = true <-> valid_id x) /\ (b = true <-> documented_id x)) /\
  (forall c c', wf c -> wf c' -> code c = code c' -> c = c').
Proof.
  split.
  - intros x Hx Hn. destruct (is_valid_correct x Hx Hn) as (b & E & V).
    exists b. split; [exact E|]. split; [exact V|].
    exact (iff_trans V (valid_id_documented x)).
  - exact code_inj.
Qed.
Example C01_example :
  is_valid (code ex_cell) = Some true /\ is_valid (2 ^ 61) = Some false /\
  is_valid (7 * 2 ^ 61 + 1) = Some false.
Proof. vm_compute. auto. Qed.
Print Assumptions C01_is_valid_exact.

(** C02 *)
Theorem C02_accessors : forall c, wf c ->
  level (code c) = Some (lv c) /\
  face (code c) = face_of c /\
  pos (code c) = code c mod 2 ^ 61 /\
  code c = face_of c * 2 ^ 61 + pos (code c) /\
  is_leaf (code c) = (lv c =? 30) /\
  is_face (code c) = Some (lv c =? 0) /\
  lsb (code c) = Some (4 ^ (30 - lv c)) /\
  distance_from_begin (code c) = Some (ix c) /\
  (forall k, 1 <= k <= lv c -> child_position (code c) k = Some (ix (anc k c) mod 4)).
Proof.
  intros c H. repeat split.
  - exact (level_code c H).
  - exact (face_code c H).
  - exact (pos_code c H).
  - rewrite (pos_code c H), <- (face_code c H), face_small
      by (pose proof (code_bounds c H); lia).
    rewrite Z.mul_comm. apply Z.div_mod. discriminate.
  - exact (is_leaf_code c H).
  - exact (is_face_code c H).
  - exact (lsb_code c H).
  - exact (distance_code c H).
  - exact (fun k => child_position_code c k H).
Qed.
Example C02_example :
  level (code ex_cell) = Some 2 /\ face (code ex_cell) = 4 /\
  child_position (code ex_cell) 1 = Some 3 /\ child_position (code ex_cell) 2 = Some 1.
Proof. vm_compute. auto. Qed.
Print Assumptions C02_accessors.

(** C03 *)
Theorem C03_parent : forall c L, wf c -> 0 <= L <= lv c ->
  (exists a, parent (code c) L = Some (code a) /\ wf a /\ lv a = L /\
     ancestor_or_self a c /\
     (forall b, wf b -> lv b = L -> ancestor_or_self b c -> b = a)) /\
  parent (code c) (lv c) = Some (code c) /\
  (forall L', 0 <= L' <= L ->
     (let* p := parent (code c) L in parent p L') = parent (code c) L') /\
  (0 < lv c -> immediate_parent (code c) = parent (code c) (lv c - 1)).
Proof.
  intros c L H HL. split; [|split; [|split]].
  - exists (anc L c). split; [exact (parent_code c L H HL)|].
    split; [exact (wf_anc c L H HL)|]. split; [reflexivity|].
    split; [exact (anc_is_ancestor c L HL)|].
    intros b _ <- [_ E]. symmetry. exact E.
  - rewrite parent_code by (auto; lia). rewrite anc_self. reflexivity.
  - intros L' HL'. rewrite (parent_code c L), (parent_code c L') by (auto; lia).
    rewrite parent_code by (auto using wf_anc; cbn; lia).
    rewrite anc_anc by lia. reflexivity.
  - intros Hp. rewrite parent_code by (auto; lia). exact (immediate_parent_code c H Hp).
Qed.
Example C03_example :
  parent (code ex_leaf) 2 = Some (code ex_cell) /\ parent (code ex_cell) 0 = Some (code (Cell 0 4)).
Proof. vm_compute. auto. Qed.
Print Assumptions C03_parent.

(** C04 *)
Theorem C04_children : forall c, wf c -> lv c < 30 ->
  children (code c) = Some (code (child c 0), code (child c 1), code (child c 2), code (child c 3)) /\
  (forall k, 0 <= k < 4 ->
     wf (child c k) /\ lv (child c k) = lv c + 1 /\
     parent (code (child c k)) (lv c) = Some (code c) /\
     child_position (code (child c k)) (lv c + 1) = Some k) /\
  code (child c 0) < code (child c 1) < code (child c 2) /\ code (child c 2) < code (child c 3) /\
  (forall m, leaves c m <-> exists k, 0 <= k < 4 /\ leaves (child c k) m) /\
  (forall j k m, leaves (child c j) m -> leaves (child c k) m -> j = k).
Proof.
  intros c H L. split; [exact (children_code c H L)|]. split.
  - intros k Hk. pose proof (wf_child c k H L Hk) as W. split; [exact W|]. split; [reflexivity|].
    split.
    + rewrite parent_code by (auto; cbn; destruct H; lia). rewrite anc_child by (destruct H; lia). reflexivity.
    + rewrite child_position_code by (auto; cbn; destruct H; lia).
      change (lv c + 1) with (lv (child c k)). rewrite anc_self. cbn [ix child]. f_equal.
      rewrite Z.add_comm, Z.mul_comm, Z.mod_add by lia. apply Z.mod_small. lia.
  - rewrite !code_child by assumption.
    pose proof (pow4_pos (29 - lv c) ltac:(destruct H; lia)).
    split; [lia|]. split; [lia|]. split.
    + exact (fun m => children_partition c m H L).
    + exact (fun j k m => children_disjoint c j k m H L).
Qed.
(* children() of a leaf: four equal ids, as its comment says, no panic. *)
Theorem C04_children_of_leaf : forall c, wf c -> lv c = 30 ->
  children (code c) = Some (code c - 1, code c - 1, code c - 1, code c - 1).
Proof. exact children_leaf. Qed.
Example C04_example :
  wf ex_cell /\ lv ex_cell < 30 /\ wf ex_leaf /\ lv ex_leaf = 30 /\
  children (code ex_cell) = Some (code (Cell 3 308), code (Cell 3 309), code (Cell 3 310), code (Cell 3 311)).
Proof. vm_compute. intuition congruence. Qed.
Print Assumptions C04_children.
Print Assumptions C04_children_of_leaf.

(** C05.  The fuel only bounds the number of items the caller may pull. *)
Theorem C05_child_iteration : forall c L fuel, wf c ->
  (lv c <= L <= 30 -> (Z.to_nat (4 ^ (L - lv c)) <= fuel)%nat ->
   exists l, child_iter_at_level fuel (code c) L = Some l /\
     Z.of_nat (length l) = 4 ^ (L - lv c) /\
     StronglySorted Z.lt l /\
     (forall x, In x l <-> exists d, wf d /\ lv d = L /\ ancestor_or_self c d /\ x = code d)) /\
  (L < lv c -> child_iter_at_level fuel (code c) L = None) /\
  (lv c < 30 -> (4 <= fuel)%nat ->
   exists a b d e, children (code c) = Some (a, b, d, e) /\
                   child_iter fuel (code c) = Some [a; b; d; e]).
Proof.
  intros c L fuel H. split; [|split].
  - exact (child_iter_at_level_correct c L fuel H).
  - exact (child_iter_at_level_assert c L fuel H).
  - intros Hl Hf. do 4 eexists. split; [exact (children_code c H Hl)|].
    exact (child_iter_code c fuel H Hl Hf).
Qed.
Example C05_example :
  exists l, child_iter_at_level 16 (code ex_cell) 4 = Some l /\ length l = 16%nat /\
            hd 0 l = code (Cell 4 1232).
Proof. eexists. split; [vm_compute; reflexivity|]. vm_compute. auto. Qed.
Print Assumptions C05_child_iteration.

(** C06 *)
Theorem C06_contains : forall a b, wf a -> wf b ->
  (exists r, contains (code a) (code b) = Some r /\
     (r = true <-> ancestor_or_self a b) /\
     (r = true <-> forall m, leaves b m -> leaves a m)) /\
  contains (code a) (code a) = Some true /\
  (contains (code a) (code b) = Some true -> contains (code b) (code a) = Some true ->
   code a = code b) /\
  (forall c, wf c -> contains (code a) (code b) = Some true ->
     contains (code b) (code c) = Some true -> contains (code a) (code c) = Some true).
Proof.
  intros a b Ha Hb.
  assert (K : forall x y, wf x -> wf y -> contains (code x) (code y) = Some true <-> ancestor_or_self x y).
  { intros x y Hx Hy. destruct (contains_code x y Hx Hy) as (r & E & V). rewrite E, <- V.
    split; congruence. }
  split; [|split; [|split]].
  - destruct (contains_code a b Ha Hb) as (r & E & V). exists r. split; [exact E|].
    split; [exact V|]. exact (iff_trans V (ancestor_leaves a b Ha Hb)).
  - apply K; auto. split; [lia|]. apply anc_self.
  - rewrite !K by assumption. intros A B. f_equal. exact (ancestor_antisym a b A B).
  - intros c Hc. rewrite !K by assumption. apply ancestor_trans. destruct Ha; lia.
Qed.
Example C06_example :
  contains (code ex_cell) (code ex_leaf) = Some true /\
  contains (code ex_leaf) (code ex_cell) = Some false /\
  contains (code ex_cell) (code (Cell 2 78)) = Some false.
Proof. vm_compute. auto. Qed.
Print Assumptions C06_contains.

(** C07 *)
Theorem C07_intersects : forall a b, wf a -> wf b ->
  exists r, intersects (code a) (code b) = Some r /\
    (r = true <-> exists m, leaves a m /\ leaves b m) /\
    (r = true <-> contains (code a) (code b) = Some true \/ contains (code b) (code a) = Some true) /\
    (r = false ->
       (forall x y lo hi lo' hi', range_min (code a) = Some lo -> range_max (code a) = Some hi ->
          range_min (code b) = Some lo' -> range_max (code b) = Some hi' ->
          lo <= x <= hi -> lo' <= y <= hi' -> x < y) \/
       (forall x y lo hi lo' hi', range_min (code a) = Some lo -> range_max (code a) = Some hi ->
          range_min (code b) = Some lo' -> range_max (code b) = Some hi' ->
          lo <= x <= hi -> lo' <= y <= hi' -> y < x)).
Proof.
  intros a b Ha Hb. destruct (intersects_code a b Ha Hb) as (r & E & V).
  assert (K : forall x y, wf x -> wf y -> contains (code x) (code y) = Some true <-> ancestor_or_self x y).
  { intros x y Hx Hy. destruct (contains_code x y Hx Hy) as (q & Q & W). rewrite Q, <- W.
    split; congruence. }
  exists r. split; [exact E|]. split; [exact V|]. split.
  - rewrite V, !K by assumption. split.
    + intros (m & A & B). destruct (leaves_laminar a b Ha Hb) as [L|[L|L]]; auto.
      exfalso. exact (L m A B).
    + intros [L|L]; rewrite ancestor_leaves in L by assumption.
      * exists (ix b * 4 ^ (30 - lv b)). pose proof (leaves_nonempty b Hb). auto.
      * exists (ix a * 4 ^ (30 - lv a)). pose proof (leaves_nonempty a Ha). auto.
  - intros R. assert (N : forall m, leaves a m -> leaves b m -> False).
    { intros m A B. assert (r = true) by (apply V; eauto). congruence. }
    rewrite !range_min_code, !range_max_code by assumption.
    destruct (not_intersecting_ordered a b Ha Hb N) as [O|O]; [left|right];
      intros x y lo hi lo' hi' E1 E2 E3 E4;
      injection E1 as <-; injection E2 as <-; injection E3 as <-; injection E4 as <-; lia.
Qed.
Example C07_example :
  intersects (code ex_leaf) (code ex_cell) = Some true /\
  intersects (code ex_leaf) (code (Cell 2 78)) = Some false.
Proof. vm_compute. auto. Qed.
Print Assumptions C07_intersects.

(** C08 *)
Theorem C08_ranges : forall c, wf c ->
  exists lo hi, range_min (code c) = Some (code (leaf lo)) /\
    range_max (code c) = Some (code (leaf hi)) /\
    wf (leaf lo) /\ wf (leaf hi) /\
    (forall m, leaves c m <-> lo <= m <= hi) /\
    (forall m, wf (leaf m) ->
       (contains (code c) (code (leaf m)) = Some true <->
        code (leaf lo) <= code (leaf m) <= code (leaf hi))) /\
    2 * code c = code (leaf lo) + code (leaf hi).
Proof.
  intros c H. exists (ix c * 4 ^ (30 - lv c)), ((ix c + 1) * 4 ^ (30 - lv c) - 1).
  rewrite !code_leaf. split; [exact (range_min_code c H)|]. split; [exact (range_max_code c H)|].
  destruct (wf_data c H) as (P & Q & EP & EQ & HP & HQ & E & Hi & EC).
  rewrite <- EP. unfold wf, leaf; cbn [lv ix]. rewrite <- E.
  split; [nia|]. split; [nia|]. split; [unfold leaves; rewrite <- EP; lia|]. split.
  - intros m Hm.
    assert (Wm : wf (leaf m)) by (split; cbn; rewrite <- ?E; lia).
    destruct (contains_code c (leaf m) H Wm) as (r & R & V).
    change (Cell 30 m) with (leaf m). rewrite R.
    rewrite <- (code_between c (leaf m) H Wm) in V. rewrite code_leaf, <- EP in *.
    rewrite <- V. split; congruence.
  - rewrite EC. lia.
Qed.
Example C08_example :
  range_min (code ex_cell) = Some (code (leaf (77 * 4 ^ 28))) /\
  range_max (code ex_cell) = Some (code (leaf (78 * 4 ^ 28 - 1))).
Proof. vm_compute. auto. Qed.
Print Assumptions C08_ranges.

(** C09 *)
Theorem C09_next_prev :
  (forall c, wf c ->
     (ix c + 1 < 6 * 4 ^ lv c -> next (code c) = Some (code (Cell (lv c) (ix c + 1)))) /\
     (0 < ix c -> prev (code c) = Some (code (Cell (lv c) (ix c - 1)))) /\
     (forall d, wf d -> lv d = lv c -> code c < code d -> code (Cell (lv c) (ix c + 1)) <= code d) /\
     (forall d, wf d -> lv d = lv c -> code d < code c -> code d <= code (Cell (lv c) (ix c - 1)))) /\
  (forall x, 0 <= x < 2 ^ 64 -> x <> 2 ^ 63 ->
     (exists y, next x = Some y /\ 0 <= y < 2 ^ 64 /\ prev y = Some x) /\
     (exists y, prev x = Some y /\ 0 <= y < 2 ^ 64 /\ next y = Some x)).
Proof.
  split; [|exact next_prev_inverse].
  intros c H. split; [|split; [|split]].
  - intros _. exact (next_code c H).
  - exact (prev_code c H).
  - intros d Hd E. unfold code; cbn [lv ix]. rewrite E.
    pose proof (pow4_pos (30 - lv c) ltac:(destruct H; lia)).
    intros Lt. apply Z.mul_lt_mono_pos_r in Lt; [|lia]. apply Z.mul_le_mono_nonneg_r; lia.
  - intros d Hd E. unfold code; cbn [lv ix]. rewrite E.
    pose proof (pow4_pos (30 - lv c) ltac:(destruct H; lia)).
    intros Lt. apply Z.mul_lt_mono_pos_r in Lt; [|lia]. apply Z.mul_le_mono_nonneg_r; lia.
Qed.
Example C09_example : next (code ex_cell) = Some (code (Cell 2 78)) /\
  prev (code ex_cell) = Some (code (Cell 2 76)) /\ next (code (Cell 2 76)) = Some (code ex_cell).
Proof. vm_compute. auto. Qed.
Print Assumptions C09_next_prev.

(** C10 *)
Theorem C10_wrap : forall c, wf c ->
  let N := 6 * 4 ^ lv c in
  let up := Cell (lv c) ((ix c + 1) mod N) in
  let down := Cell (lv c) ((ix c - 1) mod N) in
  next_wrap (code c) = Some (code up) /\ wf up /\
  prev_wrap (code c) = Some (code down) /\ wf down /\
  prev_wrap (code up) = Some (code c) /\ next_wrap (code down) = Some (code c).
Proof.
  intros c H N up down. pose proof (level_data c H) as HN. fold N in HN.
  assert (Wu : wf up) by (split; cbn; [apply H|apply Z.mod_pos_bound; lia]).
  assert (Wd : wf down) by (split; cbn; [apply H|apply Z.mod_pos_bound; lia]).
  split; [exact (next_wrap_code c H)|]. split; [exact Wu|].
  split; [exact (prev_wrap_code c H)|]. split; [exact Wd|].
  destruct (H) as [Hl Hi]. fold N in Hi. split.
  - rewrite prev_wrap_code by assumption. cbn [lv ix up]. fold N.
    rewrite Zminus_mod_idemp_l. replace (ix c + 1 - 1) with (ix c) by lia.
    rewrite Z.mod_small by lia. destruct c; reflexivity.
  - rewrite next_wrap_code by assumption. cbn [lv ix down]. fold N.
    rewrite Zplus_mod_idemp_l. replace (ix c - 1 + 1) with (ix c) by lia.
    rewrite Z.mod_small by lia. destruct c; reflexivity.
Qed.
Example C10_example :
  wf (Cell 2 95) /\ next_wrap (code (Cell 2 95)) = Some (code (Cell 2 0)) /\
  prev_wrap (code (Cell 2 0)) = Some (code (Cell 2 95)).
Proof. vm_compute. intuition congruence. Qed.
Print Assumptions C10_wrap.

(** C11 *)
Theorem C11_advance : forall c k, wf c -> - 2 ^ 63 <= k < 2 ^ 63 ->
  advance (code c) k =
  Some (code (Cell (lv c) (Z.max 0 (Z.min (6 * 4 ^ lv c) (ix c + k))))).
Proof. exact advance_code. Qed.
Example C11_example :
  advance (code ex_cell) 10 = Some (code (Cell 2 87)) /\
  advance (code ex_cell) (- 2 ^ 63) = Some (code (Cell 2 0)) /\
  advance (code ex_cell) 1000 = Some (code (Cell 2 96)).
Proof. vm_compute. auto. Qed.
Print Assumptions C11_advance.

(** C12 *)
Theorem C12_advance_wrap : forall c k, wf c -> - 2 ^ 63 <= k < 2 ^ 63 ->
  let d := Cell (lv c) ((ix c + k) mod (6 * 4 ^ lv c)) in
  advance_wrap (code c) k = Some (code d) /\ wf d.
Proof.
  intros c k H Hk d. split; [exact (advance_wrap_code c k H Hk)|].
  pose proof (level_data c H). split; cbn; [apply H|apply Z.mod_pos_bound; lia].
Qed.
Example C12_example :
  advance_wrap (code ex_cell) 20 = Some (code (Cell 2 1)) /\
  advance_wrap (code ex_cell) (- 2 ^ 63) = Some (code (Cell 2 45)).
Proof. vm_compute. auto. Qed.
Print Assumptions C12_advance_wrap.

(** C13 *)
Theorem C13_common_ancestor : forall a b, wf a -> wf b ->
  exists r, common_ancestor_level (code a) (code b) = Some r /\
    common_ancestor_level (code b) (code a) = Some r /\
    (r = None <-> face_of a <> face_of b) /\
    (forall k, r = Some k ->
       0 <= k <= Z.min (lv a) (lv b) /\ anc k a = anc k b /\
       forall k', k < k' <= Z.min (lv a) (lv b) -> anc k' a <> anc k' b).
Proof.
  intros a b Ha Hb.
  destruct (common_ancestor_level_code a b Ha Hb) as (r & E & V).
  exists r. split; [exact E|]. split.
  - destruct (common_ancestor_level_sym (code b) (code a)) as [S|[S|S]].
    + rewrite S. exact E.
    + rewrite lsb_code in S by assumption. discriminate.
    + rewrite lsb_code in S by assumption. discriminate.
  - split.
    + split; [intros ->; exact V|]. intros N. destruct r as [k|]; [exfalso|reflexivity].
      destruct V as (Hk & A & _). apply N.
      assert (A0 : anc 0 a = anc 0 b).
      { rewrite <- (anc_anc a k 0), <- (anc_anc b k 0) by lia. f_equal. exact A. }
      unfold anc in A0. unfold face_of. rewrite !Z.sub_0_r in A0. congruence.
    + intros k ->. exact V.
Qed.
Example C13_example :
  common_ancestor_level (code ex_leaf) (code (Cell 2 78)) = Some (Some 1) /\
  common_ancestor_level (code ex_leaf) (code (Cell 2 3)) = Some None.
Proof. vm_compute. auto. Qed.
Print Assumptions C13_common_ancestor.

(** C18 *)
Theorem C18_order : forall a b, wf a -> wf b ->
  ((forall m, leaves a m -> leaves b m -> False) ->
   (code a < code b <-> forall m m', leaves a m -> leaves b m' -> m < m')) /\
  (lv a < 30 -> code (child a 1) < code a < code (child a 2)).
Proof.
  intros a b Ha Hb. split; [exact (disjoint_order a b Ha Hb)|].
  intros L. rewrite !code_child by assumption.
  pose proof (pow4_pos (29 - lv a) ltac:(destruct Ha; lia)).
  assert (4 ^ (30 - lv a) = 4 * 4 ^ (29 - lv a)) as E.
  { destruct Ha. rewrite <- pow4_succ by lia. f_equal; lia. }
  lia.
Qed.
Example C18_example :
  wf ex_leaf /\ wf (Cell 2 78) /\ (forall m, leaves ex_leaf m -> leaves (Cell 2 78) m -> False) /\
  code ex_leaf < code (Cell 2 78).
Proof.
  split; [exact (proj1 ex_leaf_wf)|]. split; [vm_compute; intuition congruence|].
  split; [|reflexivity].
  intros m A B. unfold leaves, ex_leaf, leaf in *. cbn [lv ix] in *.
  change (30 - 30) with 0 in A. change (30 - 2) with 28 in B. lia.
Qed.
Print Assumptions C18_order.

(** C19 *)
Theorem C19_constructors :
  (forall f, 0 <= f < 6 ->
     from_face f = Some (code (Cell 0 f)) /\ wf (Cell 0 f) /\ face_of (Cell 0 f) = f) /\
  (forall f p L, 0 <= f < 6 -> 0 <= p < 2 ^ 61 -> 0 <= L <= 30 ->
     exists c l, from_face_pos_level f p L = Some (code c) /\ wf c /\ lv c = L /\ face_of c = f /\
       (* l is the leaf whose position within face f is p|1, and c contains it *)
       wf (leaf l) /\ code (leaf l) = f * 2 ^ 61 + Z.lor p 1 /\ leaves c l).
Proof.
  split.
  - intros f Hf. split; [exact (from_face_ok f Hf)|]. split; [split; cbn; rewrite ?Z.pow_0_r; lia|].
    unfold face_of; cbn. rewrite Z.pow_0_r. apply Z.div_1_r.
  - intros f p L Hf Hp HL.
    pose proof (Z.div_mod p 2 ltac:(lia)). pose proof (Z.mod_pos_bound p 2 ltac:(lia)).
    assert (W : wf (leaf (f * 4 ^ 30 + p / 2))).
    { split; cbn; [lia|]. rewrite pow4_30. lia. }
    exists (anc L (leaf (f * 4 ^ 30 + p / 2))), (f * 4 ^ 30 + p / 2).
    split; [exact (from_face_pos_level_ok f p L Hf Hp HL)|].
    split; [apply wf_anc; auto|]. split; [reflexivity|]. split.
    + unfold face_of, anc; cbn [lv ix leaf].
      pose proof (pow4_pos (30 - L) ltac:(lia)). pose proof (pow4_pos L ltac:(lia)).
      rewrite Z.div_div by lia. rewrite <- pow4_add by lia. replace (30 - L + L) with 30 by lia.
      rewrite Z.div_add_l by (rewrite pow4_30; lia). rewrite Z.div_small; [lia|].
      rewrite pow4_30. lia.
    + split; [exact W|]. split.
      * rewrite code_leaf, lor_1 by lia. rewrite pow4_30. lia.
      * apply leaves_div; [apply wf_anc; auto|]. cbn [lv ix anc leaf]. reflexivity.
Qed.
Example C19_example :
  from_face_pos_level 4 (2 ^ 60 + 5) 30 = Some (code (leaf (4 * 4 ^ 30 + 2 ^ 59 + 2))).
Proof. vm_compute. auto. Qed.
Print Assumptions C19_constructors.

(** C57: the id operations are NOT total on u64.  The exact panic sets: *)
Theorem C57_panics_exactly : forall x, 0 <= x < 2 ^ 64 ->
  (lsb x = None <-> x = 2 ^ 63) /\
  (is_valid x = None <-> x = 2 ^ 63) /\
  (level x = None <-> exists q, x = q * 2 ^ 62) /\
  (range_min x = None <-> x = 0 \/ x = 2 ^ 63) /\
  (range_max x = None <-> x = 0 \/ x = 2 ^ 63).
Proof.
  intros x Hx. split; [exact (lsb_none_iff x Hx)|]. split; [exact (is_valid_none_iff x Hx)|].
  split; [exact (level_none_iff x Hx)|]. exact (range_none_iff x Hx).
Qed.
Theorem C57_total_refuted :
  exists x, 0 <= x < 2 ^ 64 /\ is_valid x = None.
Proof. exists (2 ^ 63). vm_compute. intuition congruence. Qed.
Example C57_example : lsb 12 = Some 4 /\ is_valid 12 = Some true /\ level 0 = None.
Proof. vm_compute. auto. Qed.
Print Assumptions C57_panics_exactly.
Print Assumptions C57_total_refuted.
