(** C120-C122: bounding rectangles of cells and unions, points in rectangles.

    [area] (BoundSpec.v) is the set of points of the sphere in a rectangle, and [near_area]
    the points at most a given chord away from it. *)
From Coq Require Import ZArith Reals Lra Lia Psatz Bool List Classical.
From Flocq Require Import Core.
From Verif Require Import Base Spec F64 F64Facts IntervalSpec CircleSpec RectSpec F64Arith F64Error F64Neg R1Model R1Proofs S1Model S1Proofs S1Ops VectorModel StuvModel AngleModel AngleProofs ExpandProofs CircleProofs PropsInterval PropsCircle
  RectModel RectProofs PropsRect PropsRect2 CapSpec CapModel StuvError CellIdModel HilbertModel HilbertSpec HilbertGeom CellSpec CellModel CellLattice CellProofs CellPoint CellVertex ChordProofs CapError CapCell
  PredicatesError PredicatesFloat PredicatesSound PredicatesStable PredicatesProofs CapEdgeFloat CapEdgeMain PropsCapCell RegionSpec PropsRegion CoverProofs TrigModel TrigSpec TrigProofs TrigWitness PropsTrig PropsCap2 PropsDist
  BoundModel BoundSpec BoundProofs BoundCell BoundFace.
Import ListNotations.
Open Scope R_scope.
Notation lat := AngleModel.lat.
Notation lng := AngleModel.lng.

Definition in_rect (r : rect) : CapSpec.pos -> Prop := area (lo1 (rlat r)) (hi1 (rlat r)) (slo (rlng r)) (shi (rlng r)).
Definition in_rect_interior (r : rect) : CapSpec.pos -> Prop := interior_area (lo1 (rlat r)) (hi1 (rlat r)) (slo (rlng r)) (shi (rlng r)).
Definition near_rectangle (r : rect) : R -> CapSpec.pos -> Prop := near_area (lo1 (rlat r)) (hi1 (rlat r)) (slo (rlng r)) (shi (rlng r)).

Lemma near_more r e e' d : e <= e' -> near_rectangle r e d -> near_rectangle r e' d.
Proof. intros L (d' & A & D). exists d'. split; [exact A|lra]. Qed.

Lemma patch_some c : wf c -> exists d, patch (cell_of c) d.
Proof.
  intros W. destruct (cell_vertices_ok c W) as (p0 & p1 & p2 & p3 & _ & V0 & _). destruct (corner_in_patch c 0 p0 W ltac:(lia) V0) as (_ & d & P & _). exists d. exact P.
Qed.

(** ** C120 The bounding rectangle of a cell *)
Theorem C120_cell_rect_bound : forall fatan2 fasin c, accurate_atan2 fatan2 -> accurate_asin fasin -> wf c ->
  exists s r, cell_from_cellid (code c) = Some s /\ cell_rect_bound fatan2 fasin s = Some r /\ rect_is_valid r = true /\
  forall d, cell_patch s d -> near_rectangle r (1 / 2 ^ 46) d.
Proof.
  intros fatan2 fasin c A B W. destruct (cell_rect_ok fatan2 fasin c A B W) as (r & E & OK & H). exists (cell_of c), r.
  split; [apply cell_from_ok; exact W|]. split; [exact E|]. split; [apply rect_is_valid_spec; exact OK|]. intros d Hd. apply (near_more r (104 * u)); [lra|]. apply H, Hd.
Qed.
Print Assumptions C120_cell_rect_bound.

(* a rectangle that contains the bounding rectangle of a cell contains the cell *)
Theorem C120_contains_cell : forall fatan2 fasin c r s, accurate_atan2 fatan2 -> accurate_asin fasin -> wf c -> rect_is_valid r = true ->
  cell_from_cellid (code c) = Some s ->
  (exists b, rect_contains_cell fatan2 fasin r s = Some b) /\
  (rect_contains_cell fatan2 fasin r s = Some true -> forall d, cell_patch s d -> near_rectangle r (1 / 2 ^ 46) d) /\
  (rect_is_full r = true -> rect_contains_cell fatan2 fasin r s = Some true) /\
  (rect_is_empty r = true -> rect_contains_cell fatan2 fasin r s = Some false).
Proof.
  intros fatan2 fasin c r s A B W V Es. apply rect_is_valid_spec in V. rewrite (cell_from_ok c W) in Es. apply Some_inj in Es. subst s.
  destruct (cell_rect_ok fatan2 fasin c A B W) as (b & E & OK & H). unfold rect_contains_cell. rewrite E.
  destruct (C93_predicates r b V OK) as (PE & PF & _ & _ & _ & PC & _). split; [eexists; reflexivity|]. split; [|split].
  - intros K d Hd. apply Some_inj in K. apply PC in K. apply (near_more r (104 * u)); [lra|]. apply (near_sub _ _ _ _ K). apply H, Hd.
  - intros F. f_equal. apply PC. rewrite PF in F. intros x X. apply F. destruct X as [X1 X2]. apply (lat_range b (fst x) OK). exact X1.
  - intros F. apply PE in F. f_equal. destruct (RectModel.rect_contains r b) eqn:KE; [|reflexivity]. exfalso. pose proof (proj1 PC eq_refl) as K.
    destruct (patch_some c W) as (d & Pd). destruct (H d Pd) as (d' & (p & t & Zd & _) & _). exact (F _ (K _ Zd)).
Qed.
Print Assumptions C120_contains_cell.

(* the hypotheses are met: the third child of face 0 *)
Example C120_hyps : accurate_atan2 cut_atan2 /\ accurate_asin cut_asin /\ wf (Cell 1 2) /\ rect_is_valid rect_full = true.
Proof. split; [exact cut_atan2_ok|]. split; [exact cut_asin_ok|]. split; [unfold wf; cbn; lia|vm_compute; reflexivity]. Qed.

(** ** C121 The bounding rectangle of a union of cells *)
Lemma rects_ok fatan2 fasin cs : accurate_atan2 fatan2 -> accurate_asin fasin -> Forall wf cs -> forall acc, okz acc ->
  exists r, rects_loop fatan2 fasin (map code cs) acc = Some r /\ okz r /\ subset (zset acc) (zset r) /\
  forall c d, In c cs -> patch (cell_of c) d -> near_rectangle r (104 * u) d.
Proof.
  intros A B W. induction W as [|c cs Wc W IH]; intros acc OK; cbn [map rects_loop].
  - exists acc. split; [reflexivity|]. split; [exact OK|]. split; [intros x X; exact X|]. intros c d [].
  - rewrite (cell_from_ok c Wc). destruct (cell_rect_ok fatan2 fasin c A B Wc) as (b & E & OB & H). rewrite E. destruct (C94_union acc b OK OB) as (OU & SU & _).
    destruct (IH (rect_union acc b) OU) as (r & Er & OR & SR & HR). exists r. split; [exact Er|]. split; [exact OR|]. split.
    + intros x X. apply SR, SU. auto.
    + intros c' d [<-|I] Hd; [|apply (HR c' d I Hd)]. apply (near_sub (rect_union acc b) r _ _ SR). apply (near_sub b (rect_union acc b)); [intros x X; apply SU; auto|]. apply H, Hd.
Qed.
Theorem C121_union_rect_bound : forall fatan2 fasin cs, accurate_atan2 fatan2 -> accurate_asin fasin -> Forall wf cs ->
  exists r, union_rect_bound fatan2 fasin (map code cs) = Some r /\ rect_is_valid r = true /\ (rect_is_empty r = true <-> cs = []) /\
  forall c s d, In c cs -> cell_from_cellid (code c) = Some s -> cell_patch s d -> near_rectangle r (1 / 2 ^ 46) d.
Proof.
  intros fatan2 fasin cs A B W. destruct (rects_ok fatan2 fasin cs A B W rect_empty empty_ok) as (r & E & OK & _ & H). exists r. split; [exact E|]. split; [apply rect_is_valid_spec; exact OK|]. split.
  - destruct (C93_predicates r r OK OK) as (PE & _). rewrite PE. split.
    + destruct cs as [|c t]; [reflexivity|]. intros V. exfalso. rewrite Forall_forall in W. pose proof (W c (or_introl eq_refl)) as Wc.
      destruct (patch_some c Wc) as (d & Pd). destruct (H c d (or_introl eq_refl) Pd) as (d' & (p & t' & Zd & _) & _). exact (V _ Zd).
    + intros ->. cbn in E. apply Some_inj in E. subst r. apply empty_void.
  - intros c s d I Es Hd. rewrite Forall_forall in W. rewrite (cell_from_ok c (W c I)) in Es. apply Some_inj in Es. subst s. apply (near_more r (104 * u)); [lra|]. apply (H c d I Hd).
Qed.
Print Assumptions C121_union_rect_bound.
Example C121_hyps : Forall wf [Cell 1 2; Cell 0 3].
Proof. repeat constructor; unfold wf; cbn; lia. Qed.

(** ** C122 Points in rectangles *)
(* a latitude in the open range and a longitude in the open circle determine the point *)
Lemma sphere_at_inj p t p' t' : - (PI / 2) < p < PI / 2 -> - (PI / 2) <= p' <= PI / 2 -> Rabs t < PI -> Rabs t' <= PI -> sphere_at p t = sphere_at p' t' -> p' = p /\ t' = t.
Proof.
  intros P P' T T' E. unfold sphere_at in E. injection E as E1 E2 E3. assert (EP : p' = p). { rewrite <- (asin_sin p), <- (asin_sin p') by lra. rewrite E3. reflexivity. }
  subst p'. split; [reflexivity|]. assert (C0 : 0 < cos p) by (apply cos_gt_0; lra). apply Rmult_eq_reg_r in E1; [|lra]. apply Rmult_eq_reg_r in E2; [|lra].
  destruct (same_angle t' t) as (k & K); [congruence|congruence|]. pose proof PI_tight as PT. apply Rabs_def2 in T. apply Rabs_le_inv in T'.
  assert (k = 0%Z). { assert (-1 < IZR k < 1) by (split; apply (Rmult_lt_reg_r (2 * PI)); lra). destruct (Z.lt_trichotomy k 0) as [L|[L|L]]; [|exact L|]; apply Zlt_le_succ in L; apply IZR_le in L; unfold Z.succ in L; rewrite ?plus_IZR in L; lra. }
  subst k. lra.
Qed.
Lemma elt_le x y : elt x y -> ele x y. Proof. destruct x, y; unfold elt, ele; intros; try exact I; try contradiction; lra. Qed.
Lemma okz_place r p d : okz r -> okp p -> d = place p -> (in_rect r d <-> zset r (lat_lng (lat p) (lng p))) /\ (in_rect_interior r d <-> zint r (lat_lng (lat p) (lng p))).
Proof.
  intros OK (F1 & F2 & B1 & B2) ->. pose proof pi_PI as PP. assert (TT : Rabs (B2R (lng p)) < PI) by (apply Rabs_def1; lra).
  assert (I : forall q t, - (pi / 2) <= q <= pi / 2 -> Rabs t <= PI -> place p = sphere_at q t -> q = B2R (lat p) /\ t = B2R (lng p)).
  { intros q t Q T E. unfold place in E. apply (sphere_at_inj (B2R (lat p)) (B2R (lng p)) q t); try assumption; lra. }
  split; split.
  - intros (q & t & Zq & T & E). destruct (I q t) as [-> ->]; try assumption. apply (lat_range r q OK). apply Zq.
  - intros H. exists (B2R (lat p)), (B2R (lng p)). split; [exact H|]. split; [lra|reflexivity].
  - intros (q & t & Zq & T & E). destruct (I q t) as [-> ->]; try assumption. apply (lat_range r q OK). destruct Zq as [[Z1 Z2] _]. split; apply elt_le; assumption.
  - intros H. exists (B2R (lat p)), (B2R (lng p)). split; [exact H|]. split; [lra|reflexivity].
Qed.
(* contains_point answers for a point within 2^-48 of its argument *)
Theorem C122_contains_point : forall fatan2 r v, accurate_atan2 fatan2 -> rect_is_valid r = true -> is_unit v = true ->
  exists d, apart (direction v) d <= 1 / 2 ^ 48 /\
    (rect_contains_point fatan2 r v = true <-> in_rect r d) /\
    (rect_interior_contains_point fatan2 r v = true <-> in_rect_interior r d).
Proof.
  intros fatan2 r v A V U. apply rect_is_valid_spec in V. destruct (to_latlng_ok fatan2 v A U) as [Vp D]. exists (place (ll_of_point fatan2 v)). split.
  - fold (chd (direction v) (place (ll_of_point fatan2 v))). rewrite chd_sym. lra.
  - apply okp_ll in Vp. destruct (okz_place r _ _ V Vp eq_refl) as [H1 H2]. rewrite H1, H2. destruct (C93_predicates r r V V) as (_ & _ & P1 & _ & P2 & _). unfold rect_contains_point, rect_interior_contains_point. rewrite (P1 _ Vp), (P2 _ Vp). tauto.
Qed.
Print Assumptions C122_contains_point.

(* the bounding rectangle of a point: it has a point, and all its points are within 2^-48
   of the argument.  (At the double pi the model's circle has two names, pi and -pi.) *)
Theorem C122_point_rect_bound_partial : forall fatan2 v, accurate_atan2 fatan2 -> is_unit v = true -> B2R (longitude fatan2 v) <> - pi ->
  rect_is_valid (point_rect_bound fatan2 v) = true /\
  (exists d, in_rect (point_rect_bound fatan2 v) d) /\
  forall d, in_rect (point_rect_bound fatan2 v) d -> apart (direction v) d <= 1 / 2 ^ 48.
Proof.
  intros fatan2 v A U N. destruct (to_latlng_ok fatan2 v A U) as [Vp D]. set (p := ll_of_point fatan2 v) in *. apply okp_ll in Vp. assert (N' : B2R (lng p) <> - pi) by exact N.
  destruct (C96_from_latlng_partial p Vp N') as [OK H]. unfold point_rect_bound. fold p. split; [apply rect_is_valid_spec; exact OK|].
  pose proof Vp as (F1 & F2 & B1 & B2). pose proof pi_PI as PP. pose proof pi_bounds as PB. split.
  - exists (place p), (B2R (lat p)), (B2R (lng p)). split; [apply H; cbn [fst snd]; split; [reflexivity|exists 0%Z; lra]|]. split; [apply Rabs_le; lra|reflexivity].
  - intros d (q & t & Zq & T & E). apply H in Zq. cbn [fst snd] in Zq. destruct Zq as (Eq & k & Ek). apply Rabs_le_inv in T.
    assert (HK : Rabs (t - IZR k * (2 * PI) - B2R (lng p)) <= ulp1 / 2 * 4).
    { assert (K2 : -2 < IZR k < 2). { split; apply (Rmult_lt_reg_r (2 * pi)); lra. } rewrite Ek. replace (B2R (lng p) + 2 * pi * IZR k - IZR k * (2 * PI) - B2R (lng p)) with (2 * (pi - PI) * IZR k) by ring.
      assert (K3 : (-2 < k < 2)%Z) by (split; apply lt_IZR; lra). assert (k = -1 \/ k = 0 \/ k = 1)%Z as [ -> |[ -> | -> ]] by lia; apply Rabs_le; lra. }
    assert (ES : d = sphere_at (B2R (lat p)) (t - IZR k * (2 * PI))). { rewrite E, Eq. replace t with (t - IZR k * (2 * PI) + 2 * PI * IZR k) at 1 by ring. apply sphere_turn. }
    pose proof (place_lip (B2R (lat p)) (t - IZR k * (2 * PI)) (B2R (lat p)) (B2R (lng p))) as PL. rewrite <- ES in PL. fold (place p) in PL. change (apart (direction v) d) with (chd (direction v) d). pose proof (chd_tri (direction v) (place p) d) as TR. rewrite (chd_sym (direction v) (place p)), (chd_sym (place p) d) in TR. rewrite Rminus_eq_0, Rabs_R0 in PL. lra.
Qed.
Print Assumptions C122_point_rect_bound_partial.

(* IEEE 754's atan2 is -pi at (-0, -1), and the rectangle at that longitude is not valid *)
Definition ieee_atan2 (y x : f64) : f64 :=
  if Bsign y && feq y f0 && flt x f0 then fneg PI64 else cut_atan2 y x.
Lemma ieee_atan2_ok : accurate_atan2 ieee_atan2.
Proof.
  intros y x Fy Fx. unfold ieee_atan2. destruct (Bsign y && feq y f0 && flt x f0) eqn:E; [|apply cut_atan2_ok; assumption].
  rewrite !andb_true_iff in E. destruct E as [[_ E] L]. assert (F0 : finite f0) by reflexivity. pose proof (feq_B2R _ _ Fy F0 E) as Y0. change (B2R f0) with 0 in Y0. destruct (flt_R x f0 Fx F0) as [X0|]; [|discriminate]. change (B2R f0) with 0 in X0.
  pose proof pi_bounds as PB. pose proof pi_PI as PP. assert (FM : finite (fneg PI64)) by reflexivity. pose proof mpi_val as VM. rewrite VM. split; [exact FM|]. split; [rewrite Rabs_Ropp, Rabs_pos_eq; lra|]. intros _. split; [lra|].
  exists (- PI). split; [|apply Rabs_le; lra]. unfold polar_angle. rewrite cos_neg, sin_neg, cos_PI, sin_PI, Y0. pose proof PI_tight. split; [lra|].
  replace (B2R x * B2R x + 0 * 0) with (- B2R x * - B2R x) by ring. rewrite sqrt_square by lra. split; ring.
Qed.
Theorem C122_point_rect_bound_refuted : exists fatan2 v, accurate_atan2 fatan2 /\ is_unit v = true /\
  rect_is_valid (point_rect_bound fatan2 v) = false /\ rect_contains_point fatan2 (point_rect_bound fatan2 v) v = false.
Proof.
  exists ieee_atan2, (Vec (of_int (-1)) (fneg f0) f0). split; [exact ieee_atan2_ok|]. split; [vm_compute; reflexivity|].
  assert (E : longitude ieee_atan2 (Vec (of_int (-1)) (fneg f0) f0) = fneg PI64) by reflexivity.
  unfold rect_contains_point, point_rect_bound, ll_of_point. rewrite E. unfold rect_is_valid, rect_contains_ll, rect_of_ll, r1_from_point. cbn [rlat rlng lo1 hi1 lat lng]. set (q := latitude _ _).
  assert (s1_is_valid (S1 (fneg PI64) (fneg PI64)) = false) as -> by (vm_compute; reflexivity). assert (s1_contains (S1 (fneg PI64) (fneg PI64)) (fneg PI64) = false) as -> by (vm_compute; reflexivity).
  rewrite !andb_false_r. split; reflexivity.
Qed.
Print Assumptions C122_point_rect_bound_refuted.
Example C122_hyps : accurate_atan2 ieee_atan2 /\ is_unit (Vec f1 f0 f0) = true /\ rect_is_valid (Rect (R1 f0 f1) (S1 f1 f2)) = true.
Proof. split; [exact ieee_atan2_ok|]. split; vm_compute; reflexivity. Qed.
