(** C97, C98: coverings of caps, end to end. *)
From Coq Require Import ZArith Reals Lra Lia Psatz List Bool.
From Flocq Require Import Core.
From Verif Require Import Base Spec F64 F64Facts IntervalSpec F64Arith F64Error S1Proofs VectorModel StuvModel R1Model
  CellIdModel CellIdArith CellIdProofs CellUnionModel HilbertModel HilbertSpec HilbertGeom CellSpec CellModel StuvError CellProofs CellPoint
  MetricModel PredicatesFloat CapSpec CapModel ChordProofs CapProofs CapError PropsCap CapCell CapEdgeFloat CapEdgeMain PropsCapCell
  CovererModel CovererSpec PropsCellId PropsCoverer CoverCell RegionModel RegionSpec CoverProofs.
Import ListNotations.
Open Scope R_scope.

Lemma contains_leaf c m : wf c -> wf (leaf m) -> (contains (code c) (code (leaf m)) = Some true <-> leaves c m).
Proof.
  intros W Wm. destruct (C06_contains c (leaf m) W Wm) as ((r & E & _ & H) & _). rewrite E. split.
  - intros K. apply Some_inj in K. subst r. apply H; [reflexivity|]. unfold leaves, leaf. cbn [lv ix]. change (4 ^ (30 - 30))%Z with 1%Z. lia.
  - intros K. f_equal. apply H. intros m' L. unfold leaves, leaf in L. cbn [lv ix] in L. change (4 ^ (30 - 30))%Z with 1%Z in L. replace m' with m by lia. exact K.
Qed.
Lemma covers_cov cs p m : Forall wf cs -> wf (leaf m) -> cellid_from_point p = Some (code (leaf m)) -> (covers_point (map code cs) p <-> cov cs m).
Proof.
  intros W Wm E. rewrite Forall_forall in W. split.
  - intros (x & id & Ex & I & C). rewrite E in Ex. apply Some_inj in Ex. subst x. apply in_map_iff in I. destruct I as (c & <- & I).
    exists c. split; [exact I|]. apply contains_leaf; auto.
  - intros (c & I & L). exists (code (leaf m)), (code c). split; [exact E|]. split; [apply in_map; exact I|]. apply contains_leaf; auto.
Qed.

Lemma answers cp c : wf c -> exists s, cell_from_cellid (code c) = Some s /\ s = cell_of c /\
  (exists b, cap_intersects_id cp (code c) = Some b /\ cap_intersects_cell cp s = Some b) /\ (exists b, cap_contains_id cp (code c) = Some b /\ cap_contains_cell cp s = Some b).
Proof.
  intros W. exists (cell_of c). pose proof (cell_from_ok c W) as E. split; [exact E|]. split; [reflexivity|]. destruct (C79_answers c (cell_of c) cp W E) as ([b1 E1] & [b2 E2] & _).
  unfold cap_intersects_id, cap_contains_id. rewrite E. split; eauto.
Qed.

(** C97: the covering of a cap covers the cap.  The loss of accuracy is that of C79 (2^-38
    for most caps, 2^-20 for radii just below a hemisphere), plus 2^-44. *)
Theorem C97_cap_covering : forall fasin tie pr cp, accurate_asin fasin -> allowed pr -> valid_cap cp ->
  let r := B2R (radius cp) in
  exists us cs,
    yields (fun fuel => cellunion fuel tie pr (cap_region fasin cp)) us /\
    yields (fun fuel => covering fuel tie pr (cap_region fasin cp)) cs /\
    forall p, finite_point p -> from_center cp p < sqrt r - slack r (1 / 2 ^ 20) - 1 / 2 ^ 44 ->
      covers_point us p /\ covers_point cs p.
Proof.
  intros fasin tie pr cp A Al VC. cbv zeta. set (r := B2R (radius cp)). destruct (cap_bound_ok fasin cp A VC) as (bs & EB & WB & HB & _). fold r in HB.
  set (R := fun m => wf (leaf m) /\ 0 <= r /\ exists d, patch (cell_of (leaf m)) d /\ chd (direction (center cp)) d < sqrt r - slack r (1 / 2 ^ 20) - 1 / 2 ^ 45).
  assert (S0 : 0 <= slack r (1 / 2 ^ 20)) by (unfold slack; destruct (Rlt_dec _ _); [destruct (Rlt_dec _ _)|]; lra).
  destruct (C41_covering_covers tie pr (cap_region fasin cp) R Al) as (ns & ds & Y1 & N1 & C1 & Y2 & V2 & C2).
  - intros c m W L (Wm & R0 & d & P & D). cbn [intersects_cell cap_region]. destruct (answers cp c W) as (s & E & Es & (b & Eb & Eb') & _). rewrite Eb. cbn [answer].
    destruct b; [reflexivity|exfalso]. destruct (C79_intersects_cell c s cp W E VC R0) as [_ H]. subst s. specialize (H Eb' d (patch_nest c m d W L Wm P)). fold r in H. unfold chd in D. lra.
  - unfold valid_bound. cbn [cell_union_bound cap_region]. rewrite EB. cbn [bound_list]. apply Forall_forall. intros x I. apply in_map_iff in I. destruct I as (c & <- & I).
    rewrite Forall_forall in WB. exists c. split; [apply WB; exact I|reflexivity].
  - intros m (Wm & R0 & d & P & D). cbn [cell_union_bound cap_region]. rewrite EB. cbn [bound_list]. destruct (HB R0 m d Wm P ltac:(lra)) as (c & I & L).
    rewrite Forall_forall in WB. exists c. auto using in_map.
  - exists (map code ns), (map code ds). split; [exact Y1|]. split; [exact Y2|]. intros p Fp D.
    destruct (near_leaf p Fp) as (m & Em & Wm & d & P & Dd).
    assert (RR : R m).
    { split; [exact Wm|]. unfold from_center in D. pose proof (sqrt_pos (dist2 (direction (center cp)) (direction p))) as SP. split.
      - destruct (Rle_dec 0 r) as [|N]; [assumption|exfalso]. rewrite (sqrt_neg_0 r) in D by lra. lra.
      - exists d. split; [exact P|]. pose proof (chd_tri (direction (center cp)) (direction p) d) as T. unfold chd in T at 2. lra. }
    split; (eapply covers_cov; [|exact Wm|exact Em|]); auto; [apply N1|apply V2].
Qed.

(* cell_union_bound and fast_covering, which do not look at single cells, are more accurate. *)
Theorem C97_cap_bound : forall fasin pr cp, accurate_asin fasin -> allowed pr -> valid_cap cp ->
  exists bs fs,
    cap_cell_union_bound fasin cp = Some bs /\
    yields (fun fuel => fast_covering fuel pr (cap_region fasin cp)) fs /\
    forall p, finite_point p -> from_center cp p < sqrt (B2R (radius cp)) - 1 / 2 ^ 44 ->
      covers_point bs p /\ covers_point fs p.
Proof.
  intros fasin pr cp A Al VC. set (r := B2R (radius cp)). destruct (cap_bound_ok fasin cp A VC) as (bs & EB & WB & HB & _). fold r in HB.
  assert (VB : valid_bound (cap_region fasin cp)).
  { unfold valid_bound. cbn [cell_union_bound cap_region]. rewrite EB. cbn [bound_list]. apply Forall_forall. intros x I. apply in_map_iff in I. destruct I as (c & <- & I).
    rewrite Forall_forall in WB. exists c. split; [apply WB; exact I|reflexivity]. }
  destruct (C45_fast_covering pr (cap_region fasin cp) Al VB) as (ds & Y & V & C & _). cbn [cell_union_bound cap_region] in C. rewrite EB in C. cbn [bound_list] in C.
  exists (map code bs), (map code ds). split; [exact EB|]. split; [exact Y|]. intros p Fp D.
  destruct (near_leaf p Fp) as (m & Em & Wm & d & P & Dd). unfold from_center in D. pose proof (sqrt_pos (dist2 (direction (center cp)) (direction p))) as SP.
  assert (R0 : 0 <= r). { destruct (Rle_dec 0 r) as [|N]; [assumption|exfalso]. rewrite (sqrt_neg_0 r) in D by lra. lra. }
  assert (CV : cov bs m). { apply (HB R0 m d Wm P). pose proof (chd_tri (direction (center cp)) (direction p) d) as T. unfold chd in T at 2. lra. }
  split; (eapply covers_cov; [|exact Wm|exact Em|]); auto; [apply V|].
  apply C. destruct CV as (c & I & L). rewrite Forall_forall in WB. exists c. auto using in_map.
Qed.
Print Assumptions C97_cap_bound.

(* Asking a cap about any cell, and for its bound, does not panic: the coverer never sees the
   default answers of cap_region. *)
Theorem C97_no_panic : forall fasin cp, accurate_asin fasin -> valid_cap cp ->
  (exists l, cap_cell_union_bound fasin cp = Some l) /\
  forall c, wf c -> (exists b, cap_intersects_id cp (code c) = Some b) /\ (exists b, cap_contains_id cp (code c) = Some b).
Proof.
  intros fasin cp A VC. destruct (cap_bound_ok fasin cp A VC) as (bs & EB & _). split; [eauto|].
  intros c W. destruct (answers cp c W) as (s & _ & _ & (b & E & _) & (b' & E' & _)). eauto.
Qed.
Print Assumptions C97_no_panic.

(** C98: what the interior coverings of a cap cover is inside the cap: a point they cover is,
    up to 2^-48, a point of a disc with the radius of the cap and the accuracy of C79. *)
Theorem C98_cap_interior : forall fasin tie pr cp, accurate_asin fasin -> allowed pr -> valid_cap cp ->
  let r := B2R (radius cp) in
  exists us cs,
    yields (fun fuel => interior_cellunion fuel tie pr (cap_region fasin cp)) us /\
    yields (fun fuel => interior_covering fuel tie pr (cap_region fasin cp)) cs /\
    forall p, finite_point p -> covers_point us p \/ covers_point cs p ->
      0 <= r /\ from_center cp p <= sqrt (r + slack2 r (1 / 2 ^ 18)) + 1 / 2 ^ 48.
Proof.
  intros fasin tie pr cp A Al VC. cbv zeta. set (r := B2R (radius cp)). destruct (cap_bound_ok fasin cp A VC) as (bs & EB & WB & _).
  set (R := fun m => wf (leaf m) -> 0 <= r /\ forall d, patch (cell_of (leaf m)) d -> in_disc (center cp) (r + slack2 r (1 / 2 ^ 18)) d).
  destruct (valid_cap_facts cp VC) as (Uc & Fv & Fr & Br).
  destruct (C42_interior_inside tie pr (cap_region fasin cp) R Al) as (ns & ds & Y1 & N1 & C1 & Y2 & V2 & C2).
  - unfold valid_bound. cbn [cell_union_bound cap_region]. rewrite EB. cbn [bound_list]. apply Forall_forall. intros x I. apply in_map_iff in I. destruct I as (c & <- & I).
    rewrite Forall_forall in WB. exists c. split; [apply WB; exact I|reflexivity].
  - intros c W H m L Wm. cbn [contains_cell cap_region] in H. destruct (answers cp c W) as (s & E & Es & _ & (b & Eb & Eb')). rewrite Eb in H. cbn [answer] in H. subst b.
    destruct (Rle_dec 0 r) as [R0|R0].
    + split; [exact R0|]. intros d P. destruct (C79_contains_cell c s cp W E VC R0) as [K _]. subst s. apply (K Eb'). exact (patch_nest c m d W L Wm P).
    + exfalso. destruct (C79_empty_cap c s cp W E Fr ltac:(fold r; lra)) as [K _]. rewrite K in Eb'. discriminate.
  - exists (map code ns), (map code ds). split; [exact Y1|]. split; [exact Y2|]. intros p Fp CV.
    destruct (near_leaf p Fp) as (m & Em & Wm & d & P & Dd).
    assert (RR : R m). { destruct CV as [K|K]; (apply covers_cov with (m := m) in K; [|first [apply N1|apply V2]|exact Wm|exact Em]); auto. }
    destruct (RR Wm) as [R0 IN]. split; [exact R0|]. destruct (IN d P) as [_ D2]. apply sqrt_le_1_alt in D2.
    pose proof (chd_tri (direction (center cp)) d (direction p)) as T. rewrite (chd_sym d (direction p)) in T. unfold from_center, chd in *. lra.
Qed.

(* an accurate arcsine: the real one, cut to a multiple of 2^-51 *)
Definition cut_asin (x : f64) : f64 := lit (Zfloor (asin (B2R x) * 2 ^ 51)) (-51).
Lemma cut_asin_ok : accurate_asin cut_asin.
Proof.
  intros x Fx Bx. pose proof (asin_bound (B2R x)) as AB. pose proof PI_4 as P4. unfold cut_asin. set (a := asin (B2R x)) in *. set (n := Zfloor (a * 2 ^ 51)).
  pose proof (Zfloor_lb (a * 2 ^ 51)) as L. pose proof (Zfloor_ub (a * 2 ^ 51)) as U. fold n in L, U.
  assert (N : (Z.abs n <= 2 ^ 53)%Z).
  { apply Z.abs_le. assert (N1 : (-2 ^ 53 - 1 < n)%Z) by (apply lt_IZR; change (IZR (-2 ^ 53 - 1)) with (-9007199254740993); lra).
    assert (N2 : (n < 2 ^ 53 + 1)%Z) by (apply lt_IZR; change (IZR (2 ^ 53 + 1)) with (9007199254740993); lra). lia. }
  destruct (lit_val n (-51) N ltac:(lia)) as [F V]. split; [exact F|]. rewrite V. change (bpow radix2 (-51)) with (/ 2251799813685248). apply Rabs_le. lra.
Qed.

(* the cap of squared chord length 1/16 about (1,0,0), and two points of it *)
Example C97_hyps : accurate_asin cut_asin /\ allowed (Params 0 30 1 8) /\ valid_cap small_cap /\
  finite_point CENTER_POINT /\ from_center small_cap CENTER_POINT < sqrt (B2R (radius small_cap)) - slack (B2R (radius small_cap)) (1 / 2 ^ 20) - 1 / 2 ^ 44.
Proof.
  assert (S16 : sqrt (/ 16) = / 4) by (replace (/ 16) with (/ 4 * / 4) by lra; apply sqrt_square; lra).
  destruct C79_edges as (VS & _ & ES & _). split; [exact cut_asin_ok|]. split; [unfold allowed; cbn; lia|]. split; [exact VS|]. rewrite ES, S16. split.
  - unfold finite_point, CENTER_POINT. repeat split; try reflexivity. left. intros H. apply (f_equal (fun x => x)) in H. revert H. destruct f1_val as [_ V]. cbn [vx]. rewrite V. lra.
  - unfold from_center. replace (dist2 (direction (center small_cap)) (direction CENTER_POINT)) with 0 by (unfold small_cap, dist2; cbn [center]; ring).
    rewrite sqrt_0. unfold slack. destruct (Rlt_dec _ _); lra.
Qed.
Print Assumptions C97_cap_covering.

(* the cap contains a cell of level 5 *)
Example C98_hyps : accurate_asin cut_asin /\ allowed (Params 0 30 1 8) /\ valid_cap small_cap /\
  wf (Cell 5 512) /\ cap_contains_id small_cap (code (Cell 5 512)) = Some true /\ cap_contains_id small_cap (code (Cell 0 0)) = Some false.
Proof.
  split; [exact cut_asin_ok|]. split; [unfold allowed; cbn; lia|]. split; [apply C79_edges|]. vm_compute. intuition congruence.
Qed.
Print Assumptions C98_cap_interior.
