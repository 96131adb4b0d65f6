(** C99, C100: the bounds and the coverings of cells and of unions of cells. *)
From Coq Require Import ZArith Reals Lra Lia Psatz List Bool Sorted.
From Flocq Require Import Core.
From Verif Require Import Base Spec F64 F64Facts IntervalSpec F64Arith F64Error S1Proofs VectorModel StuvModel R1Model
  CellIdModel CellIdArith CellIdProofs CellOrder CellUnionModel CellUnionProofs HilbertModel HilbertSpec HilbertGeom CellSpec CellModel StuvError CellProofs CellPoint CellVertex
  MetricModel PredicatesFloat CapSpec CapModel ChordProofs CapProofs CapError PropsCap CapCell CapEdgeFloat CapEdgeMain PropsCapCell
  CovererModel CovererSpec PropsCellId PropsCoverer CoverCell RegionModel RegionSpec CoverProofs CellBound UnionBound PropsRegion.
Import ListNotations.
Open Scope R_scope.

(** C99: the bounding cap of a cell contains the cell: the four vertices as the library
    answers, every real point of the cell up to 2^-41; and no smaller cap about the same
    centre contains the four vertices. *)
Theorem C99_cell_cap_bound : forall c, wf c -> exists s cp,
  cell_from_cellid (code c) = Some s /\ cell_cap_bound s = Some cp /\ valid_cap cp /\ 0 <= B2R (radius cp) /\
  (forall k p, (0 <= k < 4)%Z -> cell_vertex s k = Some p -> cap_contains_point cp p = true) /\
  (exists k p, (0 <= k < 4)%Z /\ cell_vertex s k = Some p /\ B2R (radius cp) = B2R (chordangle (center cp) p)) /\
  (forall d, cell_patch s d -> sqrt (dist2 (direction (center cp)) d) <= sqrt (B2R (radius cp)) + 1 / 2 ^ 41).
Proof.
  intros c W. destruct (cell_bound_ok c W) as (cp & E & V & R0 & HV & (k & p & Hk & Ek & T) & HP & _). exists (cell_of c), cp.
  split; [apply cell_from_ok; exact W|]. split; [exact E|]. split; [exact V|]. split; [exact R0|]. split; [exact HV|]. split; [|exact HP].
  exists k, p. split; [exact Hk|]. split; [exact Ek|]. specialize (HV k p Hk Ek). unfold cap_contains_point in HV. destruct (valid_cap_facts cp V) as (_ & _ & Fr & _).
  destruct (chordangle_range (center cp) p) as [Fc _]. destruct (fle_R _ _ Fc Fr) as [L|L]; [lra|discriminate].
Qed.
Print Assumptions C99_cell_cap_bound.

(* the bounding cap of a union contains every point of every cell, up to 2^-38; the cap of
   the empty union is empty *)
Theorem C99_union_cap_bound : forall cs, Forall wf cs -> exists cp,
  union_cap_bound (map code cs) = Some cp /\ valid_cap cp /\ (cap_is_empty cp = true <-> cs = []) /\
  (forall c s d, In c cs -> cell_from_cellid (code c) = Some s -> cell_patch s d -> in_disc (center cp) (B2R (radius cp) + 1 / 2 ^ 38) d).
Proof.
  intros cs W. destruct cs as [|c0 t].
  - exists cap_empty. split; [reflexivity|]. split; [split; [vm_compute; reflexivity|reflexivity]|]. split; [split; [reflexivity|intros; vm_compute; reflexivity]|intros ? ? ? []].
  - destruct (union_bound_ok (c0 :: t) W ltac:(discriminate)) as (cp & E & V & R0 & _ & HP). exists cp. split; [exact E|]. split; [exact V|]. split.
    + destruct (valid_cap_facts cp V) as (_ & _ & Fr & _). destruct (empty_R cp Fr) as [K|K]; [lra|]. split; discriminate.
    + intros c s d I Es P. rewrite Forall_forall in W. rewrite (cell_from_ok c (W c I)) in Es. apply Some_inj in Es. subst s. apply (HP c d I P).
Qed.
Print Assumptions C99_union_cap_bound.

(** C100: coverings of unions of cells are exact. *)
Lemma exact_of pr r R : allowed pr -> detects r R -> inside r R -> valid_bound r -> bounds r R -> exact_coverings pr r R.
Proof.
  intros A D I V B tie. destruct (C41_covering_covers tie pr r R A D V B) as (ns & ds & Y1 & N1 & C1 & Y2 & V2 & C2).
  destruct (C42_interior_inside tie pr r R A V I) as (ns' & ds' & Y3 & N3 & C3 & Y4 & V4 & C4). destruct (C45_fast_covering pr r A V) as (fs & Y5 & V5 & C5 & _).
  exists (map code ns), (map code ds), (map code fs), (map code ns'), (map code ds'). split; [exact Y1|]. split; [exact Y2|]. split; [exact Y5|]. split; [exact Y3|]. split; [exact Y4|]. split.
  - intros m Rm. rewrite !covered_map; [|apply V5|apply V2|apply N1]. auto.
  - intros m. rewrite !covered_map; [|apply V4|apply N3]. intros [K|K]; auto.
Qed.
Lemma cap_bounds fasin cp : accurate_asin fasin -> valid_cap cp -> exists bs, cap_cell_union_bound fasin cp = Some (map code bs) /\ Forall wf bs /\
  (0 <= B2R (radius cp) -> forall m, wf (leaf m) -> caught cp m -> cov bs m).
Proof.
  intros A V. destruct (cap_bound_ok fasin cp A V) as (bs & E & W & H & H'). exists bs. split; [exact E|]. split; [exact W|].
  intros R0 m Wm [K|(d & P & K)]; [auto|]. apply (H R0 m d Wm P). lra.
Qed.
Lemma map_valid bs : Forall wf bs -> Forall valid_id (map code bs).
Proof. intros W. apply Forall_forall. intros x I. apply in_map_iff in I. destruct I as (c & <- & I). rewrite Forall_forall in W. exists c. auto. Qed.

Theorem C100_union_coverings : forall fasin pr cs, accurate_asin fasin -> allowed pr -> valid_cells cs ->
  exact_coverings pr (cellunion_region fasin (map code cs)) (cov cs) /\
  exists bs, cellunion_bound fasin (map code cs) = Some bs /\ forall m, cov cs m -> covered bs m.
Proof.
  intros fasin pr cs A Al VC. pose proof (proj1 VC) as W.
  assert (EB : exists bs, cellunion_bound fasin (map code cs) = Some (map code bs) /\ Forall wf bs /\ forall m, cov cs m -> cov bs m).
  { unfold cellunion_bound. destruct cs as [|c0 t].
    - destruct (cap_bounds fasin cap_empty A ltac:(split; vm_compute; reflexivity)) as (bs & E & Wb & _). exists bs. split; [exact E|]. split; [exact Wb|]. intros m (c & [] & _).
    - destruct (union_bound_ok (c0 :: t) W ltac:(discriminate)) as (cp & E & V & R0 & HC & _). rewrite E. destruct (cap_bounds fasin cp A V) as (bs & Eb & Wb & H). exists bs. split; [exact Eb|]. split; [exact Wb|].
      intros m (c & I & L). assert (Wm : wf (leaf m)). { apply leaf_wf. apply (leaves_bounds c); auto. rewrite Forall_forall in W. auto. } apply (H R0 m Wm). apply (HC c); auto. }
  destruct EB as (bs & EB & Wb & HB). split.
  - apply exact_of; auto.
    + intros c m Wc L Cm. cbn [intersects_cell cellunion_region]. destruct (intersects_cellid_correct cs c VC Wc) as (b & -> & B). apply B. apply overlap_leaves; auto. eauto.
    + intros c Wc H m L. cbn [contains_cell cellunion_region] in H. destruct (contains_cellid_single cs c VC Wc) as (b & E & B). rewrite E in H. cbn [answer] in H. subst b.
      destruct (proj1 B eq_refl) as (d & I & L1 & L2). exists d. split; [exact I|]. unfold leaves, lo, hi in *. lia.
    + unfold valid_bound. cbn [cell_union_bound cellunion_region]. rewrite EB. apply map_valid, Wb.
    + intros m Cm. cbn [cell_union_bound cellunion_region]. rewrite EB. cbn [bound_list]. apply covered_map; auto.
  - exists (map code bs). split; [exact EB|]. intros m Cm. apply covered_map; auto.
Qed.
Print Assumptions C100_union_coverings.

(* ... and so are those of a single cell. *)
Theorem C100_cell_coverings : forall fasin pr c, accurate_asin fasin -> allowed pr -> wf c ->
  exact_coverings pr (cell_region fasin (code c)) (leaves c) /\
  exists bs, cell_bound fasin (code c) = Some bs /\ forall m, leaves c m -> covered bs m.
Proof.
  intros fasin pr c A Al W.
  assert (EB : exists bs, cell_bound fasin (code c) = Some (map code bs) /\ Forall wf bs /\ forall m, leaves c m -> cov bs m).
  { unfold cell_bound. rewrite (cell_from_ok c W). destruct (cell_bound_ok c W) as (cp & -> & V & R0 & _ & _ & _ & HC). destruct (cap_bounds fasin cp A V) as (bs & Eb & Wb & H).
    exists bs. split; [exact Eb|]. split; [exact Wb|]. intros m L. assert (Wm : wf (leaf m)) by (apply leaf_wf; apply (leaves_bounds c); auto).
    apply (H R0 m Wm). right. destruct (HC m L Wm) as (d & P & D). exists d. split; [exact P|]. lra. }
  destruct EB as (bs & EB & Wb & HB). split.
  - apply exact_of; auto.
    + intros c' m Wc L Cm. cbn [intersects_cell cell_region]. destruct (C07_intersects c c' W Wc) as (b & -> & B & _). apply B. eauto.
    + intros c' Wc H m L. cbn [contains_cell cell_region] in H. destruct (C06_contains c c' W Wc) as ((b & E & _ & B) & _). rewrite E in H. cbn [answer] in H. apply B; auto.
    + unfold valid_bound. cbn [cell_union_bound cell_region]. rewrite EB. apply map_valid, Wb.
    + intros m Cm. cbn [cell_union_bound cell_region]. rewrite EB. cbn [bound_list]. apply covered_map; auto.
  - exists (map code bs). split; [exact EB|]. intros m Cm. apply covered_map; auto.
Qed.
Print Assumptions C100_cell_coverings.

(* Asking a union or a cell about a cell does not panic. *)
Theorem C100_no_panic : forall cs c, valid_cells cs -> wf c ->
  (exists b, intersects_cellid (map code cs) (code c) = Some b) /\ (exists b, contains_cellid (map code cs) (code c) = Some b) /\
  forall d, wf d -> (exists b, intersects (code d) (code c) = Some b) /\ (exists b, contains (code d) (code c) = Some b).
Proof.
  intros cs c V W. destruct (intersects_cellid_correct cs c V W) as (b & E & _). destruct (contains_cellid_single cs c V W) as (b' & E' & _). split; [eauto|]. split; [eauto|].
  intros d Wd. destruct (C07_intersects d c Wd W) as (x & Ex & _). destruct (C06_contains d c Wd W) as ((y & Ey & _) & _). eauto.
Qed.
Print Assumptions C100_no_panic.

(* a cell, and three cells of two faces (ex_cells): their bounds are neither points nor the
   whole sphere *)
Definition proper (o : option cap) (r : f64) : bool := match o with Some cp => negb (cap_is_full cp) && fgt (radius cp) r | None => false end.
Example C99_example : wf (Cell 2 7) /\ proper (let* s := cell_from_cellid (code (Cell 2 7)) in cell_cap_bound s) f0 = true /\
  Forall wf ex_cells /\ proper (union_cap_bound (map code ex_cells)) fhalf = true.
Proof. split; [vm_compute; intuition congruence|]. split; [vm_compute; reflexivity|]. split; [apply ex_cells_ok|]. vm_compute. reflexivity. Qed.
Example C100_hyps : accurate_asin cut_asin /\ allowed (Params 1 5 2 8) /\ valid_cells ex_cells /\ cov ex_cells (4 ^ 28) /\ ~ cov ex_cells 0 /\ leaves (Cell 2 1) (4 ^ 28).
Proof.
  split; [exact cut_asin_ok|]. split; [vm_compute; intuition congruence|]. split; [apply ex_cells_ok|]. split; [exists (Cell 2 1); split; [left; reflexivity|vm_compute; intuition congruence]|].
  split; [|vm_compute; intuition congruence]. intros (c & [<-|[<-|[<-|[]]]] & L); vm_compute in L; intuition congruence.
Qed.
