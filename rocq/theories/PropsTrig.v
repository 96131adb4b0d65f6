(** C102-C105: conversions between points, latitudes and longitudes, and cells. *)
From Coq Require Import ZArith Reals Lra Lia Psatz Bool.
From Flocq Require Import Core.
From Verif Require Import Base Spec F64 F64Facts IntervalSpec F64Arith F64Error S1Proofs VectorModel AngleModel AngleProofs StuvModel CellIdModel CellIdArith CellIdProofs
  CellUnionProofs R1Model CellSpec CellModel StuvError CellProofs CellPoint PropsCell PropsCellId CapSpec CapModel CapError CapCell CapEdgeFloat CapEdgeMain
  CoverCell CoverProofs TrigModel TrigSpec TrigProofs TrigCell TrigWitness.
Open Scope R_scope.

Lemma apart_chd d e : apart d e = chd d e. Proof. reflexivity. Qed.
Lemma place_on p : on_sphere (place p). Proof. apply sphere_at_on. Qed.

(** C102: the point of a valid latitude and longitude is a unit point within 2^-46 of the true
    position. *)
Theorem C102_point : forall fsin fcos p, accurate fsin sin -> accurate fcos cos -> ll_is_valid p = true ->
  let v := point_of_ll fsin fcos p in is_unit v = true /\ on_sphere (direction v) /\ apart (direction v) (place p) <= 1 / 2 ^ 46.
Proof.
  intros fsin fcos p AS AC V. destruct (to_point_ok fsin fcos p AS AC V) as (U & P & D). cbv zeta in *. rewrite apart_chd. split; [exact U|]. split; [apply direction_sphere; exact P|]. lra.
Qed.
Print Assumptions C102_point.

(** C103: every unit point gets a valid latitude and longitude, within 2^-48 of it. *)
Theorem C103_latlng : forall fatan2 v, accurate_atan2 fatan2 -> is_unit v = true ->
  let p := ll_of_point fatan2 v in ll_is_valid p = true /\ apart (place p) (direction v) <= 1 / 2 ^ 48.
Proof. intros f v A U. destruct (to_latlng_ok f v A U) as [V D]. cbv zeta in *. rewrite apart_chd. split; [exact V|lra]. Qed.
Print Assumptions C103_latlng.

(** C104: there and back. *)
Lemma sin_half t : 0 <= t <= 8 / 5 -> t / 2 <= sin t.
Proof.
  intros H. destruct (sin_bound t 0) as [L _]; [lra|pose proof PI2_1; lra|]. unfold sin_approx, sin_term in L. cbn [Nat.mul Nat.add sum_f_R0 fact pow] in L.
  rewrite !INR_IZR_INZ in L. cbn [Nat.mul Nat.add Z.of_nat Pos.of_succ_nat Pos.succ] in L. nra.
Qed.
Lemma lat_apart p q : ll_is_valid p = true -> ll_is_valid q = true -> Rabs (B2R (lat p) - B2R (lat q)) <= 2 * chd (place p) (place q).
Proof.
  intros Vp Vq. apply valid_ll in Vp, Vq. destruct Vp as (_ & _ & Bp & _). destruct Vq as (_ & _ & Bq & _). apply Rabs_le_inv in Bp, Bq. pose proof pi_bounds as PB. pose proof pi_PI as PP.
  assert (CP : 0 <= cos (B2R (lat p))) by (apply cos_ge_0; lra). assert (CQ : 0 <= cos (B2R (lat q))) by (apply cos_ge_0; lra).
  set (D := B2R (lat p) - B2R (lat q)). assert (SB : Rabs D / 2 / 2 <= Rabs (sin (D / 2))).
  { assert (B : Rabs D <= 16 / 5) by (apply Rabs_le; unfold D; lra). pose proof (Rabs_pos D) as PD. pose proof (sin_half (Rabs D / 2) ltac:(lra)) as S.
    eapply Rle_trans; [exact S|]. destruct (Rle_dec 0 D) as [K|K]; [rewrite (Rabs_pos_eq D) by lra|rewrite (Rabs_left D) by lra; replace (- D / 2) with (- (D / 2)) by field; rewrite sin_neg, <- Rabs_Ropp]; apply Rle_abs. }
  assert (CH : 2 * Rabs (sin (D / 2)) <= chd (place p) (place q)).
  { unfold chd, place. rewrite haversine. fold D. rewrite <- (sqrt_square (2 * Rabs (sin (D / 2)))) by (pose proof (Rabs_pos (sin (D / 2))); lra). apply sqrt_le_1_alt.
    replace (2 * Rabs (sin (D / 2)) * (2 * Rabs (sin (D / 2)))) with (4 * (sin (D / 2) * sin (D / 2))) by (unfold Rabs; destruct (Rcase_abs (sin (D / 2))); ring).
    assert (0 <= cos (B2R (lat p)) * cos (B2R (lat q)) * (sin ((B2R (lng p) - B2R (lng q)) / 2) * sin ((B2R (lng p) - B2R (lng q)) / 2))); [|lra].
    apply Rmult_le_pos; [apply Rmult_le_pos; assumption|apply sq_nonneg]. }
  lra.
Qed.
Theorem C104_latlng_round_trip : forall fsin fcos fatan2 p, accurate fsin sin -> accurate fcos cos -> accurate_atan2 fatan2 -> ll_is_valid p = true ->
  let q := ll_of_point fatan2 (point_of_ll fsin fcos p) in
  ll_is_valid q = true /\ apart (place q) (place p) <= 1 / 2 ^ 46 /\ Rabs (B2R (lat q) - B2R (lat p)) <= 1 / 2 ^ 45.
Proof.
  intros fsin fcos fatan2 p AS AC A V. destruct (to_point_ok fsin fcos p AS AC V) as (U & P & D). destruct (to_latlng_ok fatan2 _ A U) as [W E]. cbv zeta in *.
  set (v := point_of_ll fsin fcos p) in *. set (q := ll_of_point fatan2 v) in *. pose proof (chd_tri (place q) (direction v) (place p)) as T. rewrite apart_chd.
  split; [exact W|]. split; [lra|]. pose proof (lat_apart q p W V). lra.
Qed.
Print Assumptions C104_latlng_round_trip.
Theorem C104_point_round_trip : forall fsin fcos fatan2 v, accurate fsin sin -> accurate fcos cos -> accurate_atan2 fatan2 -> is_unit v = true ->
  let w := point_of_ll fsin fcos (ll_of_point fatan2 v) in is_unit w = true /\ apart (direction w) (direction v) <= 1 / 2 ^ 46.
Proof.
  intros fsin fcos fatan2 v AS AC A U. destruct (to_latlng_ok fatan2 v A U) as [W E]. cbv zeta in *. destruct (to_point_ok fsin fcos _ AS AC W) as (U' & _ & D). cbv zeta in *.
  set (w := point_of_ll fsin fcos _) in *. pose proof (chd_tri (direction w) (place (ll_of_point fatan2 v)) (direction v)). rewrite apart_chd. split; [exact U'|lra].
Qed.
Print Assumptions C104_point_round_trip.

(** C105: the latitude and longitude of a cell lead back to it. *)
Lemma leaf_in c m : wf c -> wf (leaf m) -> leaves c m ->
  contains (code c) (code (leaf m)) = Some true /\ parent (code (leaf m)) (lv c) = Some (code c) /\ (lv c = 30%Z -> code (leaf m) = code c).
Proof.
  intros W Wm L. pose proof W as (HL & _). pose proof (leaves_anc c m W L) as E.
  assert (A : ancestor_or_self c (leaf m)) by (rewrite <- E; apply anc_is_ancestor; cbn [lv leaf]; lia).
  destruct (contains_code c (leaf m) W Wm) as (b & Eb & V). split; [rewrite Eb; f_equal; apply V; exact A|]. split.
  - rewrite parent_code by (auto; cbn [lv leaf]; lia). rewrite E. reflexivity.
  - intros L30. rewrite L30 in E. rewrite <- E. f_equal. unfold anc, leaf. cbn [lv ix]. rewrite Z.sub_diag. change (4 ^ 0)%Z with 1%Z. rewrite Z.div_1_r. reflexivity.
Qed.
Theorem C105_cell_round_trip : forall fsin fcos fatan2 c, accurate fsin sin -> accurate fcos cos -> accurate_atan2 fatan2 -> wf c ->
  exists p x, ll_of_cellid fatan2 (code c) = Some p /\ ll_is_valid p = true /\ cellid_of_ll fsin fcos p = Some x /\
    contains (code c) x = Some true /\ parent x (lv c) = Some (code c) /\ (lv c = 30%Z -> x = code c).
Proof.
  intros fsin fcos fatan2 c AS AC A W. destruct (centre_dir c W) as (q & _ & _ & _ & EP & U & _).
  destruct (to_latlng_ok fatan2 q A U) as [V D]. cbv zeta in *. set (p := ll_of_point fatan2 q) in *. destruct (to_point fsin fcos p AS AC V) as [F E]. cbv zeta in *.
  destruct (centre_found c (point_of_ll fsin fcos p) W F) as (m & Em & Wm & L).
  { intros q' E'. rewrite EP in E'. apply Some_inj in E'. subst q'. pose proof (chd_tri (RV (point_of_ll fsin fcos p)) (place p) (direction q)). lra. }
  exists p, (code (leaf m)). split; [unfold ll_of_cellid; rewrite EP; reflexivity|]. split; [exact V|]. split; [exact Em|]. apply leaf_in; auto.
Qed.
Print Assumptions C105_cell_round_trip.
(* Likewise every point within 2^-41 of the centre of a cell: none of them is lost to a
   neighbour by rounding. *)
Theorem C105_near_centre : forall c q v, wf c -> point_from_cellid (code c) = Some q ->
  finite (vx v) -> finite (vy v) -> finite (vz v) -> apart (Pos (B2R (vx v)) (B2R (vy v)) (B2R (vz v))) (direction q) <= 1 / 2 ^ 41 ->
  exists x, cellid_from_point v = Some x /\ contains (code c) x = Some true /\ parent x (lv c) = Some (code c) /\ (lv c = 30%Z -> x = code c).
Proof.
  intros c q v W EP F1 F2 F3 D. rewrite apart_chd in D. destruct (centre_found c v W (conj F1 (conj F2 F3))) as (m & Em & Wm & L).
  { intros q' E'. rewrite EP in E'. apply Some_inj in E'. subst q'. change (RV v) with (Pos (B2R (vx v)) (B2R (vy v)) (B2R (vz v))). lra. }
  exists (code (leaf m)). split; [exact Em|]. apply leaf_in; auto.
Qed.
Print Assumptions C105_near_centre.
(* The leaf cell of any valid latitude and longitude comes within 2^-46 of the true position,
   and Cell::from returns that cell. *)
Theorem C105_leaf : forall fsin fcos p, accurate fsin sin -> accurate fcos cos -> ll_is_valid p = true ->
  exists c s, wf c /\ lv c = 30%Z /\ cellid_of_ll fsin fcos p = Some (code c) /\
    cell_of_ll fsin fcos p = Some s /\ cell_from_cellid (code c) = Some s /\
    exists d, in_patch (c_face s) (B2R (lo1 (rx (c_uv s)))) (B2R (hi1 (rx (c_uv s)))) (B2R (lo1 (ry (c_uv s)))) (B2R (hi1 (ry (c_uv s)))) d /\
      apart d (place p) <= 1 / 2 ^ 46.
Proof.
  intros fsin fcos p AS AC V. destruct (to_point_ok fsin fcos p AS AC V) as (U & P & D). cbv zeta in *. set (v := point_of_ll fsin fcos p) in *.
  destruct (unit_near v U) as [FV _]. destruct (near_leaf v (center_finite v U FV)) as (m & Em & Wm & d & Pd & Dd).
  exists (leaf m), (cell_of (leaf m)). split; [exact Wm|]. split; [reflexivity|]. split; [exact Em|]. pose proof (cell_from_ok (leaf m) Wm) as CO.
  split; [unfold cell_of_ll, cellid_of_ll; fold v; rewrite Em; exact CO|]. split; [exact CO|]. exists d. split; [exact Pd|]. rewrite apart_chd.
  pose proof (chd_tri d (direction v) (place p)) as T. rewrite (chd_sym d (direction v)) in T. lra.
Qed.
Print Assumptions C105_leaf.

(* functions that meet the assumptions, and a place: latitude 1/2, longitude 2, both radians *)
Definition ex_ll : latlng := LL fhalf f2.
Example C102_hyps : accurate cut_sin sin /\ accurate cut_cos cos /\ accurate_atan2 cut_atan2 /\ ll_is_valid ex_ll = true /\ is_unit CENTER_POINT = true /\ wf (Cell 30 12345).
Proof. split; [exact cut_sin_ok|]. split; [exact cut_cos_ok|]. split; [exact cut_atan2_ok|]. vm_compute. intuition congruence. Qed.
