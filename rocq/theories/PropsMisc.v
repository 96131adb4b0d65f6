(** C138-C141: distances between intervals, average areas, points of a union, planar centroids. *)
From Coq Require Import ZArith Reals Lra Lia Psatz Bool List Sorted.
From Flocq Require Import Core Binary.
From Verif Require Import Base Spec F64 F64Facts IntervalSpec F64Arith F64Error F64Neg R1Model R1Proofs AngleProofs ExpandProofs CellIdModel CellIdProofs CellPoint CellModel CellProofs CellUnionModel HilbertGeom MetricModel MetricProofs PropsMetric PropsCellUnion PropsInterval
  VectorModel PredicatesError PredicatesFloat PredicatesSound PropsCell RegionSpec PropsRegion TrigProofs BoundProofs Near ChordProofs TrigWitness TrigWitness MiscModel.
Import ListNotations.
Open Scope R_scope.

(** ** C138 *)
Lemma finite_nan x : finite x -> is_nan x = false.
Proof. destruct x; try discriminate; reflexivity. Qed.
Lemma result_zero : result f0 0.
Proof. left. split; [reflexivity|]. rewrite rnd_0. split; [reflexivity|]. rewrite Rabs_R0. apply bpow_gt_0. Qed.
Lemma rnd_lt x y : rnd x < rnd y -> x < y.
Proof. intros H. apply Rnot_le_lt. intros L. apply rnd_le in L. lra. Qed.
Lemma result_max x y a b : result x a -> result y b -> result (fmax x y) (Rmax a b).
Proof.
  pose proof (bpow_gt_0 radix2 1024) as PP.
  intros [(Fx & Vx & Bx)|(s & -> & Bx & Sx)] [(Fy & Vy & By)|(t & -> & By & Sy)].
  - destruct (fmax_R x y Fx Fy) as [F V]. left. split; [exact F|]. rewrite V, Vx, Vy. unfold Rmax. destruct (Rle_dec (rnd a) (rnd b)) as [L|L], (Rle_dec a b) as [M|M]; split; auto.
    + apply Rle_antisym; [apply rnd_le; lra|exact L].
    + apply rnd_le in M. lra.
  - apply Rabs_def2 in Bx. unfold fmax. rewrite (finite_nan x Fx). cbn [is_nan]. destruct t.
    + assert (L : rnd b < rnd a). { rewrite Rabs_left1 in By; [lra|]. rewrite <- rnd_0. apply rnd_le. exact Sy. } pose proof (rnd_lt _ _ L). replace (fle x (B754_infinity true)) with false by (destruct x; try discriminate; reflexivity). rewrite Rmax_left by lra. left. split; [exact Fx|]. split; [exact Vx|]. apply Rabs_def1; lra.
    + assert (L : rnd a < rnd b). { rewrite Rabs_pos_eq in By; [lra|]. rewrite <- rnd_0. apply rnd_le. exact Sy. } pose proof (rnd_lt _ _ L). replace (fle x (B754_infinity false)) with true by (destruct x; try discriminate; try destruct s; reflexivity). rewrite Rmax_right by lra. right. exists false. auto.
  - apply Rabs_def2 in By. unfold fmax. rewrite (finite_nan y Fy). cbn [is_nan]. destruct s.
    + assert (L : rnd a < rnd b). { rewrite Rabs_left1 in Bx; [lra|]. rewrite <- rnd_0. apply rnd_le. exact Sx. } pose proof (rnd_lt _ _ L). replace (fle (B754_infinity true) y) with true by (destruct y; try discriminate; try destruct s; reflexivity). rewrite Rmax_right by lra. left. split; [exact Fy|]. split; [exact Vy|]. apply Rabs_def1; lra.
    + assert (L : rnd b < rnd a). { rewrite Rabs_pos_eq in Bx; [lra|]. rewrite <- rnd_0. apply rnd_le. exact Sx. } pose proof (rnd_lt _ _ L). replace (fle (B754_infinity false) y) with false by (destruct y; try discriminate; reflexivity). rewrite Rmax_left by lra. right. exists false. auto.
  - right. destruct s, t; cbn [fmax is_nan].
    + exists true. split; [reflexivity|]. unfold Rmax. destruct Rle_dec; auto.
    + exists false. split; [reflexivity|]. unfold Rmax. destruct Rle_dec; auto. assert (a = 0 /\ b = 0) as [-> ->] by lra. auto.
    + exists false. split; [reflexivity|]. unfold Rmax. destruct Rle_dec; auto. assert (a = 0 /\ b = 0) as [-> ->] by lra. auto.
    + exists false. split; [reflexivity|]. unfold Rmax. destruct Rle_dec; auto.
Qed.

(* a number between the ends of an interval *)
Definition inside (i : r1) (x : R) : Prop := B2R (lo1 i) <= x <= B2R (hi1 i).
(** directed_hausdorff_distance is the directed Hausdorff distance [H] of the two intervals,
    rounded to the nearest double (infinity if it is too large for one). *)
Theorem C138_hausdorff : forall i o : r1, finite (lo1 i) -> finite (hi1 i) -> finite (lo1 o) -> finite (hi1 o) ->
  let h := r1_hausdorff i o in
  (void (inside i) -> h = f0) /\ (~ void (inside i) -> void (inside o) -> h = inf) /\
  (~ void (inside i) -> ~ void (inside o) -> exists H, result h H /\
     (forall p, inside i p -> exists q, inside o q /\ Rabs (p - q) <= H) /\ (exists p, inside i p /\ forall q, inside o q -> H <= Rabs (p - q))).
Proof.
  intros i o F1 F2 F3 F4 h.
  assert (EM : forall k, finite (lo1 k) -> finite (hi1 k) -> void (inside k) <-> r1_is_empty k = true).
  { intros k Fl Fh. unfold r1_is_empty, fgt, flt. rewrite Bltb_correct by assumption. destruct (Rlt_bool_spec (B2R (hi1 k)) (B2R (lo1 k))) as [L|L]; split; intros V; try reflexivity; try discriminate.
    - intros x [A B]. lra.
    - elim (V (B2R (lo1 k))). split; lra. }
  pose proof (EM i F1 F2) as Ei. pose proof (EM o F3 F4) as Eo. unfold h, r1_hausdorff. clear EM h.
  split; [intros V; apply Ei in V; rewrite V; reflexivity|]. split.
  - intros N V. apply Eo in V. rewrite V. destruct r1_is_empty; [elim N; apply Ei; reflexivity|reflexivity].
  - intros N M. destruct (r1_is_empty i); [elim N; apply Ei; reflexivity|]. destruct (r1_is_empty o); [elim M; apply Eo; reflexivity|]. clear Ei Eo.
    assert (Li : B2R (lo1 i) <= B2R (hi1 i)) by (apply Rnot_lt_le; intros L; apply N; intros x [A B]; lra). assert (Lo : B2R (lo1 o) <= B2R (hi1 o)) by (apply Rnot_lt_le; intros L; apply M; intros x [A B]; lra).
    set (e1 := B2R (hi1 i) - B2R (hi1 o)). set (e2 := B2R (lo1 o) - B2R (lo1 i)). exists (Rmax 0 (Rmax e1 e2)).
    split; [apply result_max; [exact result_zero|apply result_max; apply fsub_result; assumption]|]. unfold inside. split.
    + intros p P. destruct (Rle_dec p (B2R (hi1 o))) as [A|A]; [destruct (Rle_dec (B2R (lo1 o)) p) as [B|B]|].
      * exists p. split; [lra|]. rewrite Rminus_diag_eq, Rabs_R0 by reflexivity. apply Rmax_l.
      * exists (B2R (lo1 o)). split; [lra|]. rewrite Rabs_left1 by lra. apply Rle_trans with e2; [unfold e2; lra|]. eapply Rle_trans; [apply Rmax_r|apply Rmax_r].
      * exists (B2R (hi1 o)). split; [lra|]. rewrite Rabs_pos_eq by lra. apply Rle_trans with e1; [unfold e1; lra|]. eapply Rle_trans; [apply Rmax_l|apply Rmax_r].
    + unfold Rmax. destruct (Rle_dec e1 e2) as [A|A].
      * destruct (Rle_dec 0 e2) as [B|B]; (exists (B2R (lo1 i)); split; [lra|]; intros q Q); [|apply Rabs_pos]. unfold e2 in *. rewrite Rabs_left1; lra.
      * destruct (Rle_dec 0 e1) as [B|B]; (exists (B2R (hi1 i)); split; [lra|]; intros q Q); [|apply Rabs_pos]. unfold e1 in *. rewrite Rabs_pos_eq; lra.
Qed.
Print Assumptions C138_hausdorff.
Example C138_hyps : exists i o, finite (lo1 i) /\ finite (hi1 i) /\ finite (lo1 o) /\ finite (hi1 o) /\ ~ void (inside i) /\ ~ void (inside o) /\
  feq (r1_hausdorff i o) (of_int 2) = true /\ feq (r1_hausdorff o i) f1 = true.
Proof.
  exists (R1 f0 (of_int 3)), (R1 (of_int (-1)) f1). do 4 (split; [reflexivity|]). destruct (of_int_val 0 ltac:(lia)) as [_ V0]; change (of_int 0) with f0 in V0. destruct StuvError.f1_val as [_ V1]. destruct (of_int_val 3 ltac:(lia)) as [_ V3]. destruct (of_int_val (-1) ltac:(lia)) as [_ V4].
  split; [intros V; apply (V 0); unfold inside; cbn [lo1 hi1]; rewrite V0, V3; lra|]. split; [intros V; apply (V 0); unfold inside; cbn [lo1 hi1]; rewrite V4, V1; lra|]. split; vm_compute; reflexivity.
Qed.

(** ** C139 *)
Lemma of_int_rnd n : (0 <= n <= 2 ^ 63)%Z -> finite (of_int n) /\ B2R (of_int n) = rnd (IZR n).
Proof.
  intros Hn. unfold of_int, lit. pose proof (binary_normalize_correct 53 1024 eq_refl eq_refl mode_NE n 0 false) as H. unfold F2R in H. cbn [Fnum Fexp] in H. change (bpow radix2 0) with 1 in H. rewrite Rmult_1_r in H.
  rewrite Rlt_bool_true in H; [destruct H as (V & F & _); split; [exact F|exact V]|].
  apply Rle_lt_trans with (pow2 64); [|apply bpow_lt; lia]. apply PredicatesFloat.rnd_abs; [lia|]. rewrite Rabs_pos_eq by (apply IZR_le; lia). change (pow2 64) with (IZR (2 ^ 64)). apply IZR_le. lia.
Qed.
Lemma metric_ok : reasonable AVG_AREAMETRIC.
Proof. split; [right; reflexivity|split; vm_compute; reflexivity]. Qed.
Lemma deriv_val : Rabs (B2R (m_deriv AVG_AREAMETRIC) - 4 * PI / 6) <= 1 / 2 ^ 50.
Proof.
  pose proof pi_PI as PP. pose proof PI_tight as PT. pose proof h_tiny as HT. destruct (of_int_val 4 ltac:(lia)) as [F4 V4]. destruct (of_int_val 6 ltac:(lia)) as [F6 V6]. assert (FP : finite PI64) by reflexivity. unfold AVG_AREAMETRIC. cbn [m_deriv].
  destruct (result_val _ _ 4 ltac:(lia) (fmul_result _ _ F4 FP)) as (F & V & _). { rewrite V4. change (B2R PI64) with IntervalSpec.pi. change (pow2 4) with 16. rewrite Rabs_pos_eq; lra. }
  rewrite V4 in V. change (B2R PI64) with IntervalSpec.pi in V. set (m := fmul (of_int 4) PI64) in *. pose proof (PredicatesError.rnd_rel (4 * IntervalSpec.pi)) as RM. rewrite <- V in RM. rewrite (Rabs_pos_eq (4 * IntervalSpec.pi)) in RM by lra. apply Rabs_le_inv in RM.
  destruct (result_val _ _ 2 ltac:(lia) (fdiv_result m (of_int 6) F F6 ltac:(rewrite V6; lra))) as (_ & V' & _). { rewrite V6. change (pow2 2) with 4. rewrite Rabs_pos_eq; lra. } rewrite V6 in V'. pose proof (PredicatesError.rnd_rel (B2R m / 6)) as RR. rewrite <- V' in RR. rewrite (Rabs_pos_eq (B2R m / 6)) in RR by lra. apply Rabs_le_inv in RR. apply Rabs_le. lra.
Qed.
Lemma area_level l : (0 <= l <= 30)%Z -> finite (value AVG_AREAMETRIC l) /\ B2R (value AVG_AREAMETRIC l) = B2R (m_deriv AVG_AREAMETRIC) / IZR (4 ^ l).
Proof.
  intros Hl. destruct (C54_value AVG_AREAMETRIC l metric_ok ltac:(lia)) as [F V]. split; [exact F|]. rewrite V. change (m_dim AVG_AREAMETRIC) with 2%Z. rewrite Z.pow_mul_r by lia. reflexivity.
Qed.
(** The average area of a cell of level l is the 6 * 4^l-th part of the area 4 pi of the sphere,
    up to 2^-50 (relative), and exactly four times that of each of its children. *)
Theorem C139_cell : forall c s, wf c -> cell_from_cellid (code c) = Some s ->
  finite (cell_average_area s) /\ Rabs (B2R (cell_average_area s) * (6 * IZR (4 ^ lv c)) - 4 * PI) <= 1 / 2 ^ 50 * (4 * PI) /\
  (forall k t, (lv c < 30)%Z -> (0 <= k < 4)%Z -> cell_from_cellid (code (child c k)) = Some t -> B2R (cell_average_area s) = 4 * B2R (cell_average_area t)).
Proof.
  intros c s W E. rewrite (cell_from_ok c W) in E. apply Some_inj in E. subst s. pose proof W as (LV & _). unfold cell_average_area. cbn [cell_of c_level]. destruct (area_level (lv c) LV) as [F V]. pose proof deriv_val as D. pose proof PI_tight as PT. set (m := B2R (m_deriv AVG_AREAMETRIC)) in *.
  assert (P4 : forall l, (0 <= l)%Z -> 0 < IZR (4 ^ l)) by (intros l L; apply IZR_lt, Z.pow_pos_nonneg; lia). split; [exact F|]. split.
  - rewrite V. pose proof (P4 (lv c) ltac:(lia)). replace (m / IZR (4 ^ lv c) * (6 * IZR (4 ^ lv c)) - 4 * PI) with (6 * (m - 4 * PI / 6)) by (field; lra). rewrite Rabs_mult, (Rabs_pos_eq 6) by lra. lra.
  - intros k t L K T. rewrite (cell_from_ok (child c k)) in T by (apply wf_child; auto; lia). apply Some_inj in T. subst t. cbn [cell_of c_level child lv]. destruct (area_level (lv c + 1) ltac:(lia)) as [_ V']. rewrite V, V'. rewrite Z.pow_add_r, mult_IZR by lia. pose proof (P4 (lv c) ltac:(lia)). change (IZR (4 ^ 1)) with 4. fold m. field. lra.
Qed.
Print Assumptions C139_cell.
(** The average area of a valid union is 4 pi times the part of all leaf cells that it covers, up
    to 2^-49 (relative); it is 0 for the empty union, and a union that covers more has no less. *)
Theorem C139_union : forall cs, valid_cells cs -> exists a l, union_average_area (map code cs) = Some a /\ finite a /\
  NoDup l /\ (forall m, In m l <-> cov cs m) /\ let true_area := 4 * PI * INR (length l) / IZR (6 * 4 ^ 30) in
  Rabs (B2R a - true_area) <= 1 / 2 ^ 49 * true_area /\ (cs = [] -> B2R a = 0) /\
  (forall ds b, valid_cells ds -> union_average_area (map code ds) = Some b -> (forall m, cov cs m -> cov ds m) -> B2R a <= B2R b).
Proof.
  intros cs V. pose proof PI_tight as PT. pose proof deriv_val as D. apply Rabs_le_inv in D. destruct (area_level 30 ltac:(lia)) as [Fv Vv]. set (m := B2R (m_deriv AVG_AREAMETRIC)) in *. set (v := value AVG_AREAMETRIC 30) in *.
  assert (P4 : IZR (4 ^ 30) = 1152921504606846976) by reflexivity. assert (P6 : IZR (6 * 4 ^ 30) = 6917529027641081856) by reflexivity.
  assert (K : forall es, valid_cells es -> exists l, NoDup l /\ (forall x, In x l <-> cov es x) /\ leaf_cell_covered (map code es) = Some (Z.of_nat (length l)) /\ (0 <= Z.of_nat (length l) <= 6 * 2 ^ 60)%Z).
  { intros es Ve. destruct (C39_leaf_count es Ve) as (l & E & ND & I & B). exists l. repeat split; try assumption; try apply I; lia. }
  assert (Q : forall n, (0 <= n <= 6 * 2 ^ 60)%Z -> finite (fmul v (of_int n)) /\ B2R (fmul v (of_int n)) = rnd (B2R v * rnd (IZR n)) /\ 0 <= rnd (IZR n) /\ Rabs (rnd (IZR n) - IZR n) <= u * IZR n + h /\ 0 <= IZR n <= 6917529027641081856).
  { intros n Hn. destruct (of_int_rnd n ltac:(lia)) as [Fn Vn]. assert (N0 : 0 <= IZR n <= 6917529027641081856) by (split; apply IZR_le; lia). pose proof (PredicatesError.rnd_rel (IZR n)) as R. rewrite (Rabs_pos_eq (IZR n)) in R by lra. assert (R0 : 0 <= rnd (IZR n)) by (apply ChordProofs.rnd_nonneg; lra).
    destruct (result_val _ _ 66 ltac:(lia) (fmul_result _ _ Fv Fn)) as (F & V' & _). { rewrite Vn, Vv, P4. pose proof h_tiny as HT. apply Rabs_le_inv in R. change (pow2 66) with 73786976294838206464. assert (0 <= m / 1152921504606846976 <= 1) by lra. rewrite Rabs_pos_eq by (apply Rmult_le_pos; lra). assert (m / 1152921504606846976 * rnd (IZR n) <= 1 * rnd (IZR n)) by (apply Rmult_le_compat_r; lra). lra. }
    split; [exact F|]. rewrite <- Vn at 1. auto. }
  destruct (K cs V) as (l & ND & I & E & B). exists (fmul v (of_int (Z.of_nat (length l)))), l. destruct (Q _ B) as (F & Va & R0 & RR & N0). set (n := Z.of_nat (length l)) in *.
  split; [unfold union_average_area; rewrite E; reflexivity|]. split; [exact F|]. split; [exact ND|]. split; [exact I|]. split; [|split].
  - rewrite INR_IZR_INZ. fold n. rewrite Va, Vv, P4, P6. set (x := rnd (IZR n)) in *. pose proof (PredicatesError.rnd_rel (m / 1152921504606846976 * x)) as R1. rewrite (Rabs_pos_eq (m / 1152921504606846976 * x)) in R1 by (apply Rmult_le_pos; lra). 
    assert (Z1 : n = 0%Z \/ 1 <= IZR n) by (destruct (Z.eq_dec n 0) as [Z0|Z0]; [left; exact Z0|right; apply IZR_le; lia]). destruct Z1 as [Z1|Z1].
    + assert (X0 : x = 0) by (unfold x; rewrite Z1; apply rnd_0). rewrite X0, Rmult_0_r, rnd_0, Z1. unfold Rdiv. rewrite !Rmult_0_r, Rmult_0_l, Rminus_0_r, Rabs_R0. lra.
    + assert (HT : h <= / 1329227995784915872903807060280344576) by (apply Rle_trans with (pow2 (-120)); [apply bpow_le; lia|right; reflexivity]). apply Rabs_le_inv in RR, R1.
      set (y := m * x) in *. replace (m / 1152921504606846976 * x) with (y / 1152921504606846976) in * by (unfold y; field).
      assert (YB : Rabs (y - 4 * PI / 6 * IZR n) <= 4 / 2 ^ 51 * IZR n).
      { unfold y. replace (m * x - 4 * PI / 6 * IZR n) with ((m - 4 * PI / 6) * x + 4 * PI / 6 * (x - IZR n)) by ring. eapply Rle_trans; [apply Rabs_triang|]. rewrite !Rabs_mult. assert (A1 : Rabs (m - 4 * PI / 6) <= 1 / 2 ^ 50) by (apply Rabs_le; lra). assert (A2 : Rabs x <= (1 + 2 * u) * IZR n) by (rewrite Rabs_pos_eq; lra). assert (A3 : Rabs (4 * PI / 6) <= 21 / 10) by (rewrite Rabs_pos_eq; lra). assert (A4 : Rabs (x - IZR n) <= 11 / 10 * u * IZR n) by (apply Rabs_le; lra).
        assert (Rabs (m - 4 * PI / 6) * Rabs x <= 1 / 2 ^ 50 * ((1 + 2 * u) * IZR n)) by (apply Rmult_le_compat; try apply Rabs_pos; lra). assert (Rabs (4 * PI / 6) * Rabs (x - IZR n) <= 21 / 10 * (11 / 10 * u * IZR n)) by (apply Rmult_le_compat; try apply Rabs_pos; lra). lra. }
      apply Rabs_le_inv in YB. apply Rabs_le. assert (PN : 314 / 100 * IZR n <= PI * IZR n <= 315 / 100 * IZR n) by (split; apply Rmult_le_compat_r; lra). lra.
  - intros ->. assert (L0 : l = []) by (destruct l as [|z l']; [reflexivity|]; destruct (proj1 (I z) (or_introl eq_refl)) as (c & [] & _)). rewrite Va. unfold n. rewrite L0. cbn [length Z.of_nat]. rewrite rnd_0, Rmult_0_r. apply rnd_0.
  - intros ds b Vd Eb SUB. destruct (K ds Vd) as (l' & ND' & I' & E' & B'). unfold union_average_area in Eb. rewrite E' in Eb. apply Some_inj in Eb. subst b. destruct (Q _ B') as (_ & Vb & _). fold v in Vb |- *. rewrite Va. change (value AVG_AREAMETRIC MAX_LEVEL) with v. rewrite Vb. apply rnd_le. apply Rmult_le_compat_l; [rewrite Vv, P4; lra|]. apply rnd_le, IZR_le. unfold n. apply inj_le, NoDup_incl_length; [exact ND|]. intros z Hz. apply I', SUB, I, Hz.
Qed.
Print Assumptions C139_union.
Example C139_hyps : wf (Cell 2 77) /\ wf (child (Cell 2 77) 3) /\ valid_cells ex_norm /\ valid_cells [Cell 1 3] /\ exists a b, union_average_area (map code ex_norm) = Some a /\ union_average_area (map code [Cell 1 3]) = Some b /\ flt b a = true.
Proof.
  split; [split; vm_compute; intuition congruence|]. split; [split; vm_compute; intuition congruence|]. split; [apply ex_norm_ok|]. split; [split; [repeat constructor; vm_compute; intuition congruence|repeat constructor]|].
  eexists. eexists. split; [reflexivity|]. split; [reflexivity|]. vm_compute. reflexivity.
Qed.

(** ** C140: a normalized union contains a point exactly if one of its ids contains the leaf of
    the point. *)
Theorem C140_contains_point : forall cs p, normalized_cells cs -> exists r, union_contains_point (map code cs) p = Some r /\ (r = true <-> covers_point (map code cs) p).
Proof.
  intros cs p N. destruct (C52_points_to_leaves p) as (x & E & (c & W & EC) & _ & LF & _). subst x. assert (LV : lv c = 30%Z) by (rewrite code_leaf_flag in LF by exact W; apply Z.eqb_eq; exact LF).
  destruct (C30_contains_cellid cs c N W) as (r & Er & Hr). exists r. unfold union_contains_point. rewrite E. split; [exact Er|]. rewrite Hr.
  destruct c as [l i]. cbn [lv] in LV. subst l. change (Cell 30 i) with (leaf i) in *. rewrite (covers_cov cs p i (proj1 (proj1 N)) W E). split.
  - intros A. apply A. unfold leaves, leaf. cbn [lv ix]. lia.
  - intros A m L. unfold leaves, leaf in L. cbn [lv ix] in L. change (4 ^ (30 - 30))%Z with 1%Z in L. replace m with i by lia. exact A.
Qed.
Print Assumptions C140_contains_point.
Example C140_example : normalized_cells ex_norm /\ union_contains_point (map code ex_norm) (Vec (of_int (-1)) f0 fhalf) = Some false /\ union_contains_point (map code ex_norm) (Vec f0 fhalf f1) = Some true.
Proof. split; [exact ex_norm_ok|]. split; vm_compute; reflexivity. Qed.

(** ** C141: every coordinate of planar_centroid is a third of the sum of the coordinates, up to
    2^-48, if the coordinates are at most 2. *)
Theorem C141_planar : forall a b c, (forall v, v = a \/ v = b \/ v = c -> fvec v /\ Rabs (B2R (vx v)) <= 2 /\ Rabs (B2R (vy v)) <= 2 /\ Rabs (B2R (vz v)) <= 2) ->
  let m := planar_centroid a b c in
  fvec m /\ Rabs (B2R (vx m) - (B2R (vx a) + B2R (vx b) + B2R (vx c)) / 3) <= 1 / 2 ^ 48 /\
  Rabs (B2R (vy m) - (B2R (vy a) + B2R (vy b) + B2R (vy c)) / 3) <= 1 / 2 ^ 48 /\ Rabs (B2R (vz m) - (B2R (vz a) + B2R (vz b) + B2R (vz c)) / 3) <= 1 / 2 ^ 48.
Proof.
  intros a b c H m. destruct (H a (or_introl eq_refl)) as ((A1 & A2 & A3) & A4 & A5 & A6). destruct (H b (or_intror (or_introl eq_refl))) as ((B1 & B2 & B3) & B4 & B5 & B6). destruct (H c (or_intror (or_intror eq_refl))) as ((C1 & C2 & C3) & C4 & C5 & C6).
  assert (TH : near (fdiv f1 (of_int 3)) (1 / 3) ulp1).
  { destruct StuvError.f1_val as [F1 V1]. destruct (of_int_val 3 ltac:(lia)) as [F3 V3]. destruct (result_val _ _ 0 ltac:(lia) (fdiv_result _ _ F1 F3 ltac:(rewrite V3; lra))) as (F & V & _). { rewrite V1, V3. change (pow2 0) with 1. rewrite Rabs_pos_eq; lra. } rewrite V1, V3 in V. split; [exact F|]. rewrite V. pose proof (PredicatesError.rnd_rel (1 / 3)) as R. pose proof h_tiny as HT. rewrite (Rabs_pos_eq (1 / 3)) in R by lra. lra. }
  assert (K : forall x y z, finite x -> finite y -> finite z -> Rabs (B2R x) <= 2 -> Rabs (B2R y) <= 2 -> Rabs (B2R z) <= 2 -> near (fmul (fadd (fadd x y) z) (fdiv f1 (of_int 3))) ((B2R x + B2R y + B2R z) / 3) (1 / 2 ^ 48)).
  { intros x y z Fx Fy Fz Bx By Bz. apply Rabs_le_inv in Bx, By, Bz. assert (N1 : near (fadd x y) (B2R x + B2R y) (4 * ulp1)) by (eapply near_weak; [apply near_add; [apply near_val, Fx|apply near_val, Fy|]|lra]; assert (Rabs (B2R x + B2R y) <= 4) by (apply Rabs_le; lra); lra).
    assert (S6 : Rabs (B2R x + B2R y + B2R z) <= 6) by (apply Rabs_le; lra). assert (N2 : near (fadd (fadd x y) z) (B2R x + B2R y + B2R z) (8 * ulp1)) by (eapply near_weak; [apply near_add; [exact N1|apply near_val, Fz|]|]; lra).
    replace ((B2R x + B2R y + B2R z) / 3) with ((B2R x + B2R y + B2R z) * (1 / 3)) by field. eapply near_weak; [apply (near_mul _ _ _ _ _ _ 6 (1 / 3) N2 TH S6)|]; [rewrite Rabs_pos_eq; lra|lra|lra]. }
  destruct (K _ _ _ A1 B1 C1 A4 B4 C4) as [X1 X2]. destruct (K _ _ _ A2 B2 C2 A5 B5 C5) as [Y1 Y2]. destruct (K _ _ _ A3 B3 C3 A6 B6 C6) as [Z1 Z2]. split; [split; [exact X1|split; [exact Y1|exact Z1]]|]. split; [exact X2|]. split; [exact Y2|exact Z2].
Qed.
Print Assumptions C141_planar.
Example C141_hyps : forall v, v = Vec f1 f0 f0 \/ v = Vec f0 f1 f0 \/ v = Vec f0 f0 f1 -> fvec v /\ Rabs (B2R (vx v)) <= 2 /\ Rabs (B2R (vy v)) <= 2 /\ Rabs (B2R (vz v)) <= 2.
Proof.
  destruct (of_int_val 0 ltac:(lia)) as [_ V0]. change (of_int 0) with f0 in V0. destruct StuvError.f1_val as [_ V1].
  intros v [-> | [-> | ->] ]; cbn [vx vy vz]; rewrite V0, V1, Rabs_R0, Rabs_R1; (split; [repeat split; reflexivity|]); lra.
Qed.
