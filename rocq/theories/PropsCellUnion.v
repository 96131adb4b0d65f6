(** Property theorems for CellUnion and range tiling: C14, C15, C27-C39, C46.
    Each theorem is followed by a concrete case meeting its hypotheses. *)
From Verif Require Import Base Spec CellIdModel CellIdArith CellIdProofs CellOrder
  CellUnionModel CellUnionProofs CellUnionNormalize CellUnionOps CellUnionMore.
From Coq Require Import Permutation.

Lemma forall_wf_compute cs :
  forallb (fun c => (0 <=? lv c) && (lv c <=? 30) && (0 <=? ix c) && (ix c <? 6 * 4 ^ lv c)) cs = true ->
  Forall wf cs.
Proof.
  intros H. rewrite Forall_forall. rewrite forallb_forall in H. intros c I. specialize (H c I).
  rewrite !andb_true_iff in H. split; lia.
Qed.

Lemma normalized_compute cs : is_normalized (map code cs) = Some true -> Forall wf cs -> normalized_cells cs.
Proof. intros E F. destruct (is_normalized_code cs F) as (r & E' & R). apply R. congruence. Qed.

(* An unsorted list with a duplicate, a contained cell and four siblings. *)
Definition ex_messy : list cell :=
  [Cell 3 21; Cell 2 77; Cell 3 20; leaf (77 * 4 ^ 28 + 5); Cell 3 23; Cell 3 22; Cell 2 77; Cell 0 2].
Example ex_messy_wf : Forall wf ex_messy.
Proof. apply forall_wf_compute. vm_compute. reflexivity. Qed.
(* its normal form *)
Definition ex_norm : list cell := [Cell 2 5; Cell 0 2; Cell 2 77].
Example ex_norm_ok : normalized_cells ex_norm.
Proof. apply normalized_compute; [vm_compute; reflexivity|apply forall_wf_compute; vm_compute; reflexivity]. Qed.
Definition ex_norm2 : list cell := [Cell 0 0; Cell 3 (2 * 64 + 7); leaf (77 * 4 ^ 28 + 5); Cell 4 (77 * 16 + 8)].
Example ex_norm2_ok : normalized_cells ex_norm2.
Proof. apply normalized_compute; [vm_compute; reflexivity|apply forall_wf_compute; vm_compute; reflexivity]. Qed.

(** C14: in terms of ids and range_min/range_max.  The limit is a valid cell or
    the end position of a level. *)
Theorem C14_max_tile : forall c l, wf c -> 0 <= lv l <= 30 -> 0 <= ix l <= 6 * 4 ^ lv l ->
  exists cmin lmin, range_min (code c) = Some cmin /\ range_min (code l) = Some lmin /\
  (lmin <= cmin -> max_tile (code c) (code l) = Some (code l)) /\
  (cmin < lmin ->
     exists t tmax, max_tile (code c) (code l) = Some (code t) /\ wf t /\
       range_min (code t) = Some cmin /\ range_max (code t) = Some tmax /\ tmax < lmin /\
       forall t' tmax', wf t' -> range_min (code t') = Some cmin ->
         range_max (code t') = Some tmax' -> tmax' < lmin -> ancestor_or_self t t').
Proof.
  intros c l W A B. assert (E : wfe l) by (split; auto).
  exists (2 * lo c + 1), (2 * lo l + 1). rewrite !range_min_e by auto using wf_wfe.
  split; [auto|]. split; [auto|]. split.
  - intros L. apply max_tile_none; auto using wf_wfe. lia.
  - intros L. destruct (max_tile_correct c l W E ltac:(lia)) as (t & Et & Wt & Lt & Ht & M).
    exists t, (2 * hi t - 1). rewrite range_min_lo, range_max_hi by auto.
    split; [auto|]. split; [auto|]. split; [f_equal; lia|]. split; [auto|]. split; [lia|].
    intros t' tmax' W' R1 R2 L'. rewrite range_min_lo in R1 by auto. rewrite range_max_hi in R2 by auto.
    injection R1 as R1. injection R2 as R2. apply anc_iff; auto. split; [lia|]. apply M; auto; lia.
Qed.
Example C14_example :
  max_tile (code (leaf 1024)) (code (leaf 2050)) = Some (code (Cell 25 1)) /\
  max_tile (code (Cell 0 0)) (code (leaf 3)) = Some (code (leaf 0)) /\
  max_tile (code (leaf 0)) (code (leaf (6 * 4 ^ 30))) = Some (code (Cell 0 0)) /\
  max_tile (code (leaf 9)) (code (leaf 9)) = Some (code (leaf 9)).
Proof. vm_compute. auto. Qed.
Print Assumptions C14_max_tile.

(** C15: the loop is run on fuel; fuel equal to the number of result cells is
    enough, and more fuel changes nothing. *)
Theorem C15_from_range : forall b e, 0 <= b <= e -> e <= 6 * 4 ^ 30 ->
  exists zs,
    (forall fuel, (length zs <= fuel)%nat ->
       from_range fuel (code (leaf b)) (code (leaf e)) = Some (map code zs)) /\
    normalized_cells zs /\ forall m, cov zs m <-> b <= m < e.
Proof. exact from_range_correct. Qed.
Example C15_example :
  from_range 6 (code (leaf 3)) (code (leaf 21)) =
    Some (map code [leaf 3; Cell 29 1; Cell 29 2; Cell 29 3; Cell 29 4; leaf 20]).
Proof. vm_compute. reflexivity. Qed.
Print Assumptions C15_from_range.

(** C27, C28: normalize never panics, keeps the leaves, and yields a normalized
    union that is_normalized accepts. *)
Theorem C27_C28_normalize : forall v, Forall wf v ->
  exists cs, normalize (map code v) = Some (map code cs) /\
    (forall m, cov cs m <-> cov v m) /\
    normalized_cells cs /\
    StronglySorted Z.lt (map code cs) /\
    is_normalized (map code cs) = Some true.
Proof.
  intros v F. destruct (normalize_correct v F) as (cs & E & N & C). exists cs.
  split; [auto|]. split; [auto|]. split; [auto|]. split.
  - destruct N as [V _]. clear -V. induction cs as [|c cs IH]; cbn [map]; constructor.
    + apply IH. apply valid_cells_cons in V. tauto.
    + rewrite Forall_forall. intros x I. apply in_map_iff in I. destruct I as (d & <- & I).
      apply (valid_sorted_code cs c d V I).
  - destruct (is_normalized_code cs) as (r & -> & R); [apply N|]. f_equal. apply R. auto.
Qed.
Example C27_example : normalize (map code ex_messy) = Some (map code ex_norm).
Proof. vm_compute. reflexivity. Qed.
Print Assumptions C27_C28_normalize.

(** C29: canonical, idempotent, independent of order, fewest cells. *)
Theorem C29_canonical :
  (forall a b, Forall wf a -> Forall wf b -> (forall m, cov a m <-> cov b m) ->
     normalize (map code a) = normalize (map code b)) /\
  (forall a b, Forall wf a -> Permutation a b -> normalize (map code a) = normalize (map code b)) /\
  (forall a l, Forall wf a -> normalize (map code a) = Some l -> normalize l = Some l) /\
  (forall a l b, Forall wf a -> normalize (map code a) = Some l -> Forall wf b ->
     (forall m, cov a m <-> cov b m) -> (length l <= length b)%nat).
Proof.
  assert (K : forall a b, Forall wf a -> Forall wf b -> (forall m, cov a m <-> cov b m) ->
     normalize (map code a) = normalize (map code b)).
  { intros a b Fa Fb E. destruct (normalize_correct a Fa) as (ca & -> & Na & Ca).
    destruct (normalize_correct b Fb) as (cb & -> & Nb & Cb). do 2 f_equal.
    apply canonical; auto. intros m. rewrite Ca, Cb. auto. }
  split; [exact K|]. split; [|split].
  - intros a b Fa P. apply K; auto.
    + rewrite Forall_forall in *. intros c I. apply Fa. apply (Permutation_in _ (Permutation_sym P) I).
    + intros m. apply cov_ext_perm. intros c. split; apply Permutation_in; auto using Permutation_sym.
  - intros a l Fa E. destruct (normalize_correct a Fa) as (ca & E' & Na & Ca).
    rewrite E' in E. injection E as <-. apply normalize_idempotent; auto.
  - intros a l b Fa E Fb C. destruct (normalize_correct a Fa) as (ca & E' & Na & Ca).
    rewrite E' in E. injection E as <-. rewrite map_length. apply minimal; auto.
    intros m. rewrite Ca. auto.
Qed.
Example C29_example :
  normalize (map code (rev ex_messy)) = normalize (map code ex_messy) /\
  normalize (map code ex_norm) = Some (map code ex_norm).
Proof. vm_compute. auto. Qed.
Print Assumptions C29_canonical.

(** C30 *)
Theorem C30_contains_cellid : forall cs c, normalized_cells cs -> wf c ->
  exists r, contains_cellid (map code cs) (code c) = Some r /\
    (r = true <-> forall m, leaves c m -> cov cs m).
Proof. exact contains_cellid_normalized. Qed.
Example C30_example :
  contains_cellid (map code ex_norm) (code (leaf (77 * 4 ^ 28 + 5))) = Some true /\
  contains_cellid (map code ex_norm) (code (Cell 1 19)) = Some false.
Proof. vm_compute. auto. Qed.
Print Assumptions C30_contains_cellid.

(** C31 *)
Theorem C31_intersects_cellid : forall cs c, valid_cells cs -> wf c ->
  exists r, intersects_cellid (map code cs) (code c) = Some r /\
    (r = true <-> exists m, leaves c m /\ cov cs m).
Proof.
  intros cs c V W. destruct (intersects_cellid_correct cs c V W) as (r & E & R). exists r.
  split; [auto|]. rewrite R. apply overlap_leaves; auto. apply V.
Qed.
Example C31_example :
  intersects_cellid (map code ex_norm) (code (Cell 1 19)) = Some true /\
  intersects_cellid (map code ex_norm) (code (Cell 1 18)) = Some false.
Proof. vm_compute. auto. Qed.
Print Assumptions C31_intersects_cellid.

(** C32: on every vector of u64 values for which lsb is defined. *)
Theorem C32_union_validity : forall v, Forall (fun x => 0 <= x < 2 ^ 64 /\ x <> 2 ^ 63) v ->
  (exists r, union_is_valid v = Some r /\ (r = true <-> exists cs, v = map code cs /\ valid_cells cs)) /\
  (exists r, is_normalized v = Some r /\ (r = true <-> exists cs, v = map code cs /\ normalized_cells cs)).
Proof. intros v F. split; [exact (union_is_valid_any v F)|exact (is_normalized_any v F)]. Qed.
Example C32_example :
  union_is_valid (map code [Cell 3 20; Cell 3 21; Cell 3 22; Cell 3 23]) = Some true /\
  is_normalized (map code [Cell 3 20; Cell 3 21; Cell 3 22; Cell 3 23]) = Some false /\
  is_normalized (map code [Cell 3 21; Cell 3 22; Cell 3 23; Cell 3 24]) = Some true /\
  union_is_valid (map code [Cell 3 21; Cell 3 20]) = Some false /\
  union_is_valid [2] = Some false.
Proof. vm_compute. auto 6. Qed.
Print Assumptions C32_union_validity.

(** C33 *)
Theorem C33_merge : forall css, Forall (Forall wf) css ->
  exists cs, merge (map (map code) css) = Some (map code cs) /\ normalized_cells cs /\
    forall m, cov cs m <-> exists l, In l css /\ cov l m.
Proof. exact merge_correct. Qed.
Theorem C33_union : forall a b, Forall wf a -> Forall wf b ->
  exists cs, union (map code a) (map code b) = Some (map code cs) /\ normalized_cells cs /\
    forall m, cov cs m <-> cov a m \/ cov b m.
Proof.
  intros a b Fa Fb. destruct (merge_correct [a; b]) as (cs & E & N & C); [auto|].
  exists cs. split; [exact E|]. split; [auto|]. intros m. rewrite C. split.
  - intros (l & [<-|[<-|[]]] & A); auto.
  - intros [A|A]; [exists a|exists b]; cbn; auto.
Qed.
Example C33_example :
  union (map code ex_norm) (map code ex_norm2) =
    Some (map code [Cell 0 0; Cell 0 2; Cell 2 77]).
Proof. vm_compute. reflexivity. Qed.
Print Assumptions C33_merge.
Print Assumptions C33_union.

(** C34: [Some] means that no assertion failed and no index was out of range. *)
Theorem C34_intersection : forall x y, valid_cells x -> valid_cells y ->
  exists z, intersection (map code x) (map code y) = Some (map code z) /\
    valid_cells z /\ (forall m, cov z m <-> cov x m /\ cov y m) /\
    (normalized_cells x -> normalized_cells y -> normalized_cells z).
Proof. exact intersection_correct. Qed.
Example C34_example :
  intersection (map code ex_norm) (map code ex_norm2) =
    Some (map code [Cell 2 5; Cell 3 (2 * 64 + 7); leaf (77 * 4 ^ 28 + 5); Cell 4 (77 * 16 + 8)]).
Proof. vm_compute. reflexivity. Qed.
Print Assumptions C34_intersection.

(** C35 *)
Theorem C35_intersection_with_cell : forall x c, valid_cells x -> wf c ->
  exists z, intersection_with_cell_id (map code x) (code c) = Some (map code z) /\
    valid_cells z /\ (forall m, cov z m <-> cov x m /\ leaves c m) /\
    (normalized_cells x -> normalized_cells z).
Proof. exact intersection_with_cell_id_correct. Qed.
Example C35_example :
  intersection_with_cell_id (map code ex_norm2) (code (Cell 2 77)) =
    Some (map code [leaf (77 * 4 ^ 28 + 5); Cell 4 (77 * 16 + 8)]) /\
  intersection_with_cell_id (map code ex_norm2) (code (Cell 5 7)) = Some [code (Cell 5 7)].
Proof. vm_compute. auto. Qed.
Print Assumptions C35_intersection_with_cell.

(** C36: x any list of valid ids, y sorted and disjoint. *)
Theorem C36_difference : forall x y, Forall wf x -> valid_cells y ->
  exists z, difference (map code x) (map code y) = Some (map code z) /\
    Forall wf z /\ (forall m, cov z m <-> cov x m /\ ~ cov y m) /\
    (valid_cells x -> valid_cells z) /\ (normalized_cells x -> normalized_cells z).
Proof. exact difference_correct. Qed.
Example C36_example :
  difference (map code [Cell 0 2; Cell 2 77]) (map code [Cell 1 9; Cell 4 (77 * 16 + 8)]) =
    Some (map code [Cell 1 8; Cell 1 10; Cell 1 11; Cell 3 308; Cell 3 309;
                    Cell 4 (77 * 16 + 9); Cell 4 (77 * 16 + 10); Cell 4 (77 * 16 + 11); Cell 3 311]).
Proof. vm_compute. reflexivity. Qed.
Print Assumptions C36_difference.

(** C37 *)
Theorem C37_union_relations : forall a b, normalized_cells a -> normalized_cells b ->
  (exists r, contains_cell_union (map code a) (map code b) = Some r /\
     (r = true <-> forall m, cov b m -> cov a m)) /\
  (exists r, intersects_cell_union (map code a) (map code b) = Some r /\
     (r = true <-> exists m, cov a m /\ cov b m)).
Proof.
  intros a b Na Nb. split.
  - apply contains_cell_union_correct; auto. apply Nb.
  - apply intersects_cell_union_correct; [apply Na|apply Nb].
Qed.
Example C37_example :
  contains_cell_union (map code ex_norm) (map code ex_norm2) = Some false /\
  intersects_cell_union (map code ex_norm) (map code ex_norm2) = Some true /\
  contains_cell_union (map code ex_norm) (map code [Cell 5 (5 * 64 + 3); Cell 30 (77 * 4 ^ 28)]) = Some true.
Proof. vm_compute. auto. Qed.
Print Assumptions C37_union_relations.

(** C38: every output cell sits at the least permitted level at or below its
    input cell.  Child iteration runs on fuel; the number of output cells is enough. *)
Theorem C38_denormalize : forall cs mn md, Forall wf cs -> 0 <= mn <= 30 -> 1 <= md <= 3 ->
  exists ds,
    (forall fuel, (length ds <= fuel)%nat -> denormalize fuel (map code cs) mn md = Some (map code ds)) /\
    Forall wf ds /\
    (forall m, cov ds m <-> cov cs m) /\
    (forall d, In d ds -> permitted mn md (lv d) /\ exists c, In c cs /\ ancestor_or_self c d /\
        forall l, lv c <= l <= 30 -> permitted mn md l -> lv d <= l) /\
    (valid_cells cs -> valid_cells ds).
Proof. exact denormalize_correct. Qed.
Example C38_example :
  denormalize 17 (map code [Cell 2 77; Cell 4 9]) 1 3 =
    Some (map code (map (fun i => Cell 4 (77 * 16 + Z.of_nat i)) (seq 0 16) ++ [Cell 4 9])).
Proof. vm_compute. reflexivity. Qed.
Print Assumptions C38_denormalize.

(** C39 *)
Theorem C39_leaf_count : forall cs, valid_cells cs ->
  exists l, leaf_cell_covered (map code cs) = Some (Z.of_nat (length l)) /\
    NoDup l /\ (forall m, In m l <-> cov cs m) /\ Z.of_nat (length l) <= 6 * 2 ^ 60.
Proof. exact leaf_cell_covered_correct. Qed.
Example C39_example :
  leaf_cell_covered (map code ex_norm) = Some (4 ^ 28 + 4 ^ 30 + 4 ^ 28) /\
  (let* v := whole_sphere in leaf_cell_covered v) = Some (6 * 2 ^ 60).
Proof. split; vm_compute; reflexivity. Qed.
Print Assumptions C39_leaf_count.

(** C46: [f k = Some (p k)] only for k < len, so the closure may be undefined
    (panic) outside; the second part covers non-monotone predicates. *)
Theorem C46_search : forall p f len, (forall k, (k < len)%nat -> f k = Some (p k)) ->
  ((forall i j, (i <= j < len)%nat -> p i = true -> p j = true) ->
   exists r, search_lower_by len f = Some r /\ (r <= len)%nat /\
     (forall k, (k < r)%nat -> p k = false) /\ (forall k, (r <= k < len)%nat -> p k = true)) /\
  (exists r, search_lower_by len f = Some r /\ (r <= len)%nat /\
     (r = 0%nat \/ p (r - 1)%nat = false) /\ (r = len \/ p r = true)).
Proof.
  intros p f len H. split; [exact (search_lower_by_mono p f len H)|exact (search_lower_by_any p f len H)].
Qed.
Example C46_example :
  search_lower_by 10 (fun i => if (i <? 10)%nat then Some (7 <=? i)%nat else None) = Some 7%nat /\
  search_lower_by 10 (fun i => if (i <? 10)%nat then Some false else None) = Some 10%nat.
Proof. vm_compute. auto. Qed.
Print Assumptions C46_search.
