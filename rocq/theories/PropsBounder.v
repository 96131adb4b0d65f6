(** C136: the bounding rectangle of a chain of edges. *)
From Coq Require Import ZArith Reals Lra Lia Psatz Bool List Classical.
From Flocq Require Import Core.
From Verif Require Import Base Spec F64 F64Facts IntervalSpec CircleSpec RectSpec F64Arith F64Error F64Neg R1Model R1Proofs S1Model S1Proofs S1Ops VectorModel AngleModel AngleProofs ExpandProofs CircleProofs PropsInterval PropsCircle
  RectModel RectProofs PropsRect PropsRect2 CapSpec CapModel StuvError ChordProofs CapError PredicatesError PredicatesFloat PredicatesSound PredicatesStable PredicatesProofs NormProofs PropsNorm CapEdgeFloat CapEdgeMain RegionModel RegionSpec PropsRegion TrigModel TrigSpec TrigProofs TrigWitness PropsTrig PropsCap PropsCap2 PropsDist CellLattice
  BoundModel BoundSpec BoundProofs BoundCell BoundFace PropsBound PropsBound2 PropsBound3 CrossProofs PointModel PointSpec PropsPoint Near PropsFrame2 SegModel SegProofs SegFloat PropsSeg BudgetProofs BounderModel BounderSpec BounderFloat BounderLng.
Import ListNotations.
Open Scope R_scope.

(** ** The margin *)
Definition sliver64 : s1 := S1 PI64 (lit (-7074237752028439) (-51)).
Lemma seam_same i : okc i -> seam i -> i = sliver64.
Proof.
  intros (F1 & F2 & _) [A B]. destruct i as [a b]. cbn [slo shi] in *. unfold sliver64. destruct (lit_val (-7074237752028439) (-51) ltac:(lia) ltac:(lia)) as [FL VL].
  assert (K : forall x y : f64, finite x -> finite y -> B2R x <> 0 -> B2R x = B2R y -> x = y).
  { intros x y Fx Fy N E. apply B2R_inj; [| |exact E]; [destruct x|rewrite E in N; destruct y]; try discriminate; try reflexivity; elim N; reflexivity. }
  pose proof pi_bounds as PB. f_equal; apply K; try assumption; try apply PI64_finite.
  - lra.
  - lra.
  - rewrite VL, B. rewrite pi_num. change (pow2 (-51)) with (/ 2251799813685248). lra.
Qed.
Lemma seam_expand : s1_eq (s1_expanded sliver64 f0) sliver64 = true. Proof. vm_compute. reflexivity. Qed.
Lemma get_grow r : okz r -> ~ void (zset r) -> let r' := rect_polar_closure (rect_expanded r (LL (fmul f2 DBL_EPSILON) f0)) in okz r' /\ subset (zset r) (zset r').
Proof.
  intros V N. set (m := LL (fmul f2 DBL_EPSILON) f0). assert (FE : finite (fmul f2 DBL_EPSILON)) by (vm_compute; reflexivity). assert (VE : 0 <= B2R (fmul f2 DBL_EPSILON)). { destruct (lit_val 2 (-52) ltac:(lia) ltac:(lia)) as [Fl Vl]. rewrite (feq_B2R _ (lit 2 (-52)) FE Fl ltac:(vm_compute; reflexivity)), Vl. change (pow2 (-52)) with (/ 4503599627370496). lra. }
  destruct f0_val as [F0 V0]. destruct (okz_ends r V N) as (_ & _ & _ & NW & _).
  assert (G : okz (rect_expanded r m) /\ subset (zset r) (zset (rect_expanded r m))).
  { apply grow_sub; auto; unfold m; cbn [lat lng]; auto. destruct (classic (seam (rlng r))) as [S|S].
    - pose proof (seam_same _ (okz_lng r V) S) as E. rewrite E. pose proof seam_expand as Q. set (j := s1_expanded sliver64 f0) in *. assert (FJ : finite (slo j) /\ finite (shi j)) by (split; vm_compute; reflexivity). assert (FS : finite (slo sliver64) /\ finite (shi sliver64)) by (split; vm_compute; reflexivity). clearbody j. unfold s1_eq in Q. apply andb_true_iff in Q. destruct Q as [Q1 Q2]. destruct FJ as [J1 J2]. destruct FS as [S1' S2']. apply feq_B2R in Q1; auto. apply feq_B2R in Q2; auto.
      intros t T. unfold circ, arc in *. rewrite Q1, Q2. exact T.
    - destruct (C88_expanded_partial (rlng r) f0 (okz_lng r V) NW S F0 ltac:(lra)) as (_ & W & _). exact W. }
  destruct G as [VG SG]. assert (NG : ~ void (zset (rect_expanded r m))) by (intros H; apply N; intros x Hx; apply (H x), SG, Hx). destruct (closure_sub _ VG NG) as [VC SC]. split; [exact VC|]. intros x Hx. apply SC, SG, Hx.
Qed.

(** ** One edge *)
Lemma lng_valid p q : angle (lng p) -> angle (lng q) -> okc (edge_lng p q) /\ ~ void (circ (edge_lng p q)).
Proof.
  intros P Q. destruct C48_s1_construction as (_ & W & _). destruct (W _ _ P Q) as (V & C & _). unfold edge_lng. cbv zeta. destruct fge.
  - split; [apply FULL_valid|]. intros H. apply (H 0). apply Arc_FULL.
  - split; [exact V|]. intros H. apply (H _ C).
Qed.
(* the rectangle of an edge, when its latitudes came out in the right order *)
Lemma edge_rect i l : finite (lo1 i) -> finite (hi1 i) -> - (pi / 2) <= B2R (lo1 i) -> B2R (hi1 i) <= pi / 2 -> B2R (lo1 i) <= B2R (hi1 i) -> okc l -> ~ void (circ l) -> okz (Rect i l) /\ ~ void (zset (Rect i l)).
Proof.
  intros F1 F2 R1 R2 R3 V N. assert (B : between (lo1 i) (hi1 i) (Fin (B2R (lo1 i)))). { unfold between. rewrite !ev_fin by assumption. cbn [ele]. lra. }
  split.
  - split; [exact F1|]. split; [apply finite_number; exact F2|]. cbn [rlat rlng]. split; [lra|]. split; [rewrite ev_fin by exact F2; exact R2|]. split; [exact V|]. split; intros H; exfalso; [apply (H _ B)|apply N; exact H].
  - intros H. apply N. intros t T. apply (H (B2R (lo1 i), t)). split; [exact B|exact T].
Qed.
(* a union with a rectangle whose latitudes came out in the wrong order *)
Lemma union_flat r i l : okz r -> ~ void (zset r) -> finite (lo1 i) -> finite (hi1 i) -> B2R (hi1 i) < B2R (lo1 i) -> okc l ->
  let r' := rect_union r (Rect i l) in okz r' /\ subset (zset r) (zset r') /\ forall p t, between (lo1 (rlat r)) (hi1 (rlat r)) (Fin p) -> circ l t -> zset r' (p, t).
Proof.
  intros V N F1 F2 R3 VL r'. destruct (okz_ends r V N) as (FH & LE & HB & NW & _). pose proof V as (A & B & C & D & E & G).
  assert (EQ : r' = Rect (rlat r) (s1_union (rlng r) l)).
  { unfold r', rect_union. cbn [rlat rlng]. f_equal. unfold r1_union, r1_is_empty, fgt. destruct (flt_R (hi1 (rlat r)) (lo1 (rlat r)) FH A) as [Q|Q]; [lra|]. destruct (flt_R (hi1 i) (lo1 i) F2 F1) as [Q'|Q']; [reflexivity|lra]. }
  rewrite EQ. destruct (C48_s1_union _ _ (okz_lng r V) VL) as (W1 & W2 & _).
  assert (NU : ~ void (circ (s1_union (rlng r) l))) by (intros H; apply NW; intros t T; apply (H t), W2; left; exact T).
  split; [|split].
  - split; [exact A|]. split; [exact B|]. cbn [rlat rlng]. split; [exact C|]. split; [exact D|]. split; [exact W1|]. split; intros H; exfalso; [apply N; intros x [X1 _]; apply (H _ X1)|apply NU; exact H].
  - intros x [X1 X2]. split; [exact X1|]. apply W2. left. exact X2.
  - intros p t P T. split; [exact P|]. apply W2. right. exact T.
Qed.
Lemma along_chord A B t : on_sphere A -> on_sphere B -> let o := angle_between A B in o < PI -> 0 <= t <= o -> on_sphere (along A B t) /\ chd A (along A B t) <= t.
Proof.
  intros SA SB o HP HT. destruct (Req_dec o 0) as [Z0|Z0].
  - replace t with 0 by lra. rewrite along_start. split; [exact SA|]. unfold chd. replace (dist2 A A) with 0 by (unfold dist2; ring). rewrite sqrt_0. lra.
  - destruct (edge_frame A B A SA SB SA) as (EF & _). { fold o. apply sin_gt_0; lra. } cbv zeta in EF. destruct (EF t) as [S1' E]. split; [exact S1'|]. fold o in E. set (n := pmul (/ sin o) (rcross A B)) in *. assert (AA : rdot A A = 1) by exact SA. assert (AN : rdot A (rcross n A) = 0) by (unfold rdot, rcross; cbn [px3 py3 pz3]; ring). rewrite AA, AN in E.
    apply chd_le; [lra|]. rewrite dist2_dot by assumption. rewrite E. pose proof (cos_half t) as CH. pose proof PI_tight as PT. assert (0 <= sin (t / 2)) by (apply sin_ge_0; lra). assert (sin (t / 2) <= t / 2) by (destruct (Req_dec t 0) as [->|]; [replace (0 / 2) with 0 by field; rewrite sin_0; lra|left; apply sin_lt_x; lra]). assert (sin (t / 2) * sin (t / 2) <= t / 2 * (t / 2)) by (apply Rmult_le_compat; lra). lra.
Qed.
Lemma edge_main fsin fasin fatan2 r a p b q : flt (norm (edge_normal a b)) NORM_LIMIT = false ->
  edge_bound fsin fasin fatan2 r a p b q = rect_union r (Rect (edge_lat fsin fasin fatan2 a b (edge_normal a b) (norm (edge_normal a b)) p q) (edge_lng p q)).
Proof. intros E. unfold edge_bound. cbv zeta. rewrite E. reflexivity. Qed.
Lemma last_In {T} (l : list T) d : l <> [] -> In (last l d) l.
Proof. intros N. destruct (exists_last N) as (k & x & ->). rewrite last_last. apply in_or_app. right. left. reflexivity. Qed.
Section Edge.
  Variables (fsin fasin : f64 -> f64) (fatan2 : f64 -> f64 -> f64).
  Hypotheses (AS : accurate_sin fsin) (AA : accurate_asin fasin) (AT : accurate_atan2 fatan2) (UT : upper_atan2 fatan2).
  Notation ll := (ll_of_point fatan2).
  Notation step r a b := (edge_bound fsin fasin fatan2 r a (ll a) b (ll b)).
  Lemma ll_ok a : is_unit a = true -> okp (ll a) /\ angle (lng (ll a)).
  Proof.
    intros U. destruct (C103_latlng fatan2 a AT U) as [V _]. cbv zeta in V. pose proof V as V'. apply valid_ll in V'. destruct V' as (_ & F & _ & B). split; [apply okp_ll; exact V|]. split; [exact F|]. apply Rabs_le_inv in B. lra.
  Qed.
  (* the bound stays valid and only grows *)
  Lemma edge_grows r a b : okz r -> ~ void (zset r) -> is_unit a = true -> is_unit b = true -> okz (step r a b) /\ subset (zset r) (zset (step r a b)).
  Proof.
    intros V N UA UB. destruct (ll_ok a UA) as [Pa Ga]. destruct (ll_ok b UB) as [Pb Gb]. unfold edge_bound. cbv zeta. destruct (flt (norm (edge_normal a b)) NORM_LIMIT) eqn:EN.
    - destruct (flt (dot a b) f0).
      + split; [apply full_ok|]. destruct (C93_predicates _ _ full_ok full_ok) as (_ & F & _). intros x X. apply F; [vm_compute; reflexivity|]. apply (lat_range r); [exact V|apply X].
      + destruct (C94_from_point_pair _ _ Pa Pb) as (VP & _). destruct (C94_union r _ V VP) as (VU & SU & _). split; [exact VU|]. intros x Hx. apply SU. left. exact Hx.
    - destruct (edge_lat_ok fsin fasin fatan2 a b AS AA AT UT UA UB EN) as (_ & F1 & F2 & R1 & R2 & _). cbv zeta in *. set (i := edge_lat _ _ _ _ _ _ _ _ _) in *. destruct (lng_valid _ _ Ga Gb) as [VL NL].
      destruct (Rle_dec (B2R (lo1 i)) (B2R (hi1 i))) as [C|C].
      + destruct (edge_rect i _ F1 F2 R1 R2 C VL NL) as [VE _]. destruct (C94_union r _ V VE) as (VU & SU & _). split; [exact VU|]. intros x Hx. apply SU. left. exact Hx.
      + destruct (union_flat r i _ V N F1 F2 ltac:(lra) VL) as (VU & SU & _). split; assumption.
  Qed.
  (* every point of an edge of at most 3.14 radians is close to the bound, if its start is *)
  Lemma edge_covers r a b e : okz r -> ~ void (zset r) -> is_unit a = true -> is_unit b = true ->
    let A := direction a in let B := direction b in angle_between A B <= 314 / 100 -> near_rectangle r e A ->
    (forall t, 0 <= t <= angle_between A B -> near_rectangle (step r a b) (e + 1 / 2 ^ 15) (along A B t)) /\ near_rectangle (step r a b) (e + 1 / 2 ^ 15) B.
  Proof.
    intros V N UA UB A B HO HA. destruct (edge_grows r a b V N UA UB) as [VG SG]. set (o := angle_between A B) in *. pose proof (unit_sphere a UA) as SA. pose proof (unit_sphere b UB) as SB. fold A in SA. fold B in SB. pose proof PI_tight as PT. pose proof pi_PI as PP. pose proof pi_bounds as PB.
    destruct (angle_trig _ _ SA SB) as (O & CO & SI). cbv zeta in O, CO, SI. fold o in O, CO, SI.
    assert (G : forall t, 0 <= t <= o -> near_rectangle (step r a b) (e + 1 / 2 ^ 15) (along A B t)).
    { intros t HT. destruct (along_chord A B t SA SB) as [SP CP]. { fold o. lra. } { exact HT. } set (P := along A B t) in *.
      destruct HA as (d & (p0 & t0 & Z0 & T0 & D0) & CD). rewrite apart_chd in CD.
      destruct (flt (norm (edge_normal a b)) NORM_LIMIT) eqn:EN.
      - destruct (edge_normal_ok a b UA UB) as (_ & _ & HT1 & _). cbv zeta in HT1. fold A B o in HT1. specialize (HT1 EN).
        assert (OS : o <= 1 / 2 ^ 41). { destruct (Rle_dec o (8 / 5)) as [C|C]; [pose proof (sin_half o ltac:(lra)); lra|]. rewrite <- sin_PI_x in HT1. pose proof (sin_half (PI - o) ltac:(lra)). lra. }
        exists d. split; [exists p0, t0; split; [apply SG, Z0|]; auto|]. rewrite apart_chd. pose proof (chd_tri P A d) as TR. rewrite (chd_sym P A) in TR. lra.
      - destruct (ll_ok a UA) as [Pa Ga]. destruct (ll_ok b UB) as [Pb Gb]. destruct (lng_valid _ _ Ga Gb) as [VL NL].
        destruct (edge_lat_ok fsin fasin fatan2 a b AS AA AT UT UA UB EN) as (OP & F1 & F2 & R1 & R2 & LT). fold A B o in OP, LT.
        assert (OQ : 0 < o <= 314 / 100) by lra. destruct (edge_lng_ok fatan2 a b t AT UA UB OQ HT) as (l & LC & LB & LP). fold A B P in LP. set (f := asin (pz3 P)) in *. pose proof (LT t HT) as Lt. fold P f in Lt.
        rewrite (edge_main _ _ _ _ _ _ _ _ EN) in VG, SG |- *. clear EN.
        set (i := edge_lat _ _ _ _ _ _ _ _ _) in *. set (g := edge_lng _ _) in *.
        destruct (Rle_dec (B2R (lo1 i)) (B2R (hi1 i))) as [C|C].
        + destruct (edge_rect i g F1 F2 R1 R2 C VL NL) as [VE _]. destruct (C94_union r _ V VE) as (_ & SU & _).
          assert (CL : exists f', B2R (lo1 i) <= f' <= B2R (hi1 i) /\ Rabs (f - f') <= 1 / 2 ^ 17).
          { destruct (Rlt_dec f (B2R (lo1 i))); [exists (B2R (lo1 i)); split; [lra|apply Rabs_le; lra]|]. destruct (Rlt_dec (B2R (hi1 i)) f); [exists (B2R (hi1 i)); split; [lra|apply Rabs_le; lra]|]. exists f. split; [lra|apply Rabs_le; lra]. }
          destruct CL as (f' & RF & CF). exists (sphere_at f' l). split.
          * exists f', l. split; [apply SU; right; split; [unfold between; cbn [rlat]; rewrite !ev_fin by assumption; exact RF|exact LC]|]. split; [lra|reflexivity].
          * rewrite apart_chd. pose proof (chd_tri P (sphere_at f l) (sphere_at f' l)) as TR. pose proof (place_lip f l f' l) as PL. replace (l - l) with 0 in PL by ring. rewrite Rabs_R0 in PL. assert (0 <= chd A d) by apply sqrt_pos. lra.
        + destruct (union_flat r i g V N F1 F2 ltac:(lra) VL) as (_ & _ & SU). cbv zeta in SU. exists (sphere_at p0 l). split.
          * exists p0, l. split; [apply SU; [apply Z0|exact LC]|]. split; [lra|reflexivity].
          * rewrite apart_chd. pose proof (chd_tri P (sphere_at f l) (sphere_at p0 l)) as TR. destruct (sphere_ll A SA) as (f0' & l0 & RF0 & EA).
            pose proof (LT 0 ltac:(lra)) as L0. rewrite along_start in L0. assert (E0 : asin (pz3 A) = f0') by (rewrite EA; unfold sphere_at; cbn [pz3]; apply asin_sin; exact RF0). rewrite E0 in L0.
            assert (RP0 : - (PI / 2) <= p0 <= PI / 2) by (pose proof (lat_range r p0 V (proj1 Z0)); lra).
            pose proof (lat_gap f0' l0 p0 t0 RF0 RP0) as LG. rewrite <- EA, <- D0 in LG.
            assert (EC : chd (sphere_at f l) (sphere_at p0 l) = Rabs (2 * sin ((f - p0) / 2))).
            { rewrite <- sqrt_Rsqr_abs. unfold chd, Rsqr. f_equal. rewrite haversine. replace ((l - l) / 2) with 0 by field. rewrite sin_0. ring. }
            assert (EG : Rabs (2 * sin ((f0' - p0) / 2)) <= 2 * sin (Rabs (f0' - p0) / 2)).
            { assert (SN : 0 <= sin (Rabs (f0' - p0) / 2)) by (apply sin_ge_0; [pose proof (Rabs_pos (f0' - p0)); lra|assert (Rabs (f0' - p0) <= PI) by (apply Rabs_le; lra); lra]). destruct (Rle_dec 0 (f0' - p0)) as [Cn|Cn].
              - rewrite (Rabs_pos_eq (f0' - p0)) in * by exact Cn. apply Rabs_le. lra.
              - rewrite (Rabs_left (f0' - p0)) in * by lra. replace ((f0' - p0) / 2) with (- (- (f0' - p0) / 2)) by field. rewrite sin_neg. apply Rabs_le. lra. }
            pose proof (sin_lip ((f - p0) / 2) ((f0' - p0) / 2)) as SL. replace ((f - p0) / 2 - (f0' - p0) / 2) with ((f - f0') / 2) in SL by field.
            assert (DF : Rabs ((f - f0') / 2) <= 1 / 2 ^ 17) by (apply Rabs_le; lra). pose proof (Rabs_triang_inv (2 * sin ((f - p0) / 2)) (2 * sin ((f0' - p0) / 2))) as TI. replace (2 * sin ((f - p0) / 2) - 2 * sin ((f0' - p0) / 2)) with (2 * (sin ((f - p0) / 2) - sin ((f0' - p0) / 2))) in TI by ring. rewrite (Rabs_mult 2 (sin ((f - p0) / 2) - sin ((f0' - p0) / 2))), (Rabs_pos_eq 2) in TI by lra. rewrite EC in TR. lra. }
    split; [exact G|]. destruct (Req_dec o 0) as [Z0|Z0].
    - assert (E : B = A). { assert (D : dist2 A B = 0) by (rewrite dist2_dot by assumption; rewrite <- CO, Z0, cos_0; ring). unfold dist2 in D. assert (K : forall x, x * x <= 0 -> x = 0) by (intros x Hx; destruct (Req_dec x 0) as [|Nx]; [assumption|pose proof (Rsqr_pos_lt x Nx) as Q; unfold Rsqr in Q; lra]). pose proof (Rle_0_sqr (px3 A - px3 B)) as K1. pose proof (Rle_0_sqr (py3 A - py3 B)) as K2. pose proof (Rle_0_sqr (pz3 A - pz3 B)) as K3. unfold Rsqr in *. apply pos_eq; [pose proof (K (px3 A - px3 B) ltac:(lra))|pose proof (K (py3 A - py3 B) ltac:(lra))|pose proof (K (pz3 A - pz3 B) ltac:(lra))]; lra. }
      rewrite E. rewrite <- (along_start A B) at 1. rewrite E in *. specialize (G 0 ltac:(lra)). exact G.
    - rewrite <- (along_end A B SA SB) at 1; [apply G; fold o; lra|]. change (0 < len (rcross A B)). unfold len. rewrite cross_dot, (proj1 (sphere_len A) SA), (proj1 (sphere_len B) SB), Rmult_1_l, <- SI. apply sin_gt_0; lra.
  Qed.

  (** ** The whole chain *)
  Lemma chain_covers ps : forall a r e, okz r -> ~ void (zset r) -> Forall (fun p => is_unit p = true) (a :: ps) ->
    let s := fold_left (bounder_add fsin fasin fatan2) ps (Bounder (Some (a, ll a)) r) in
    okz (bbound s) /\ subset (zset r) (zset (bbound s)) /\
    (steps_within (314 / 100) (map direction (a :: ps)) -> near_rectangle r e (direction a) ->
     forall d, on_chain (map direction (a :: ps)) d -> near_rectangle (bbound s) (e + INR (length ps) / 2 ^ 15) d).
  Proof.
    induction ps as [|b ps IH]; intros a r e V N U.
    - cbn [fold_left bbound length map on_chain INR]. split; [exact V|]. split; [intros x H; exact H|]. intros _ H d [->|[[]|[]]]. unfold Rdiv. rewrite Rmult_0_l, Rplus_0_r. exact H.
    - inversion U as [|? ? UA U']; subst. inversion U' as [|? ? UB _]; subst. destruct (edge_grows r a b V N UA UB) as [VG SG]. assert (NG : ~ void (zset (step r a b))) by (intros H; apply N; intros x Hx; apply (H x), SG, Hx).
      assert (EF : fold_left (bounder_add fsin fasin fatan2) (b :: ps) (Bounder (Some (a, ll a)) r) = fold_left (bounder_add fsin fasin fatan2) ps (Bounder (Some (b, ll b)) (step r a b))) by reflexivity. rewrite EF. clear EF. cbv zeta. destruct (IH b (step r a b) (e + 1 / 2 ^ 15) VG NG U') as (I1 & I2 & I3). cbv zeta in I1, I2, I3. split; [exact I1|]. split; [intros x Hx; apply I2, SG, Hx|].
      intros [W1 W2] HA d HD. destruct (edge_covers r a b e V N UA UB W1 HA) as [EC EB]. specialize (I3 W2 EB).
      assert (EE : e + 1 / 2 ^ 15 + INR (length ps) / 2 ^ 15 = e + INR (length (b :: ps)) / 2 ^ 15) by (cbn [length]; rewrite S_INR; lra). rewrite EE in I3. pose proof (pos_INR (length ps)) as NP. assert (LE : e + 1 / 2 ^ 15 <= e + INR (length (b :: ps)) / 2 ^ 15) by (rewrite <- EE; lra).
      cbn [map on_chain] in HD. destruct HD as [->|[(t & T & ->)|HD]]; [| |apply I3; exact HD]; apply (near_more _ (e + 1 / 2 ^ 15)); try exact LE; eapply BoundCell.near_sub; try exact I2.
      + rewrite <- (along_start (direction a) (direction b)). apply EC. destruct (angle_trig _ _ (unit_sphere a UA) (unit_sphere b UB)) as (O & _). cbv zeta in O. lra.
      + apply EC. exact T.
  Qed.
End Edge.

(** C136: a bounder that has seen no point answers the empty rectangle.  After a chain of unit
    points it answers a valid rectangle, and that rectangle covers every vertex and every point of
    the edges up to n / 2^15 for a chain of n points (C136_chain_partial; the code claims to be
    conservative: missing are the exact containment and edges longer than 3.14 radians).  A chain
    that goes on never loses a point of the rectangle kept so far (C136_grows). *)
Theorem C136_chain_partial : forall fsin fasin fatan2 ps, accurate_sin fsin -> accurate_asin fasin -> accurate_atan2 fatan2 -> upper_atan2 fatan2 ->
  Forall (fun p => is_unit p = true) ps ->
  let r := bounder_get (bounder_chain fsin fasin fatan2 ps) in
  rect_is_valid r = true /\ (rect_is_empty r = true <-> ps = []) /\
  (steps_within (314 / 100) (map direction ps) -> forall d, on_chain (map direction ps) d -> near_rectangle r (INR (length ps) / 2 ^ 15) d).
Proof.
  intros fsin fasin fatan2 ps AS AA AT UT U r. destruct ps as [|a ps].
  - split; [vm_compute; reflexivity|]. split; [split; [reflexivity|intros _; vm_compute; reflexivity]|]. intros _ d [].
  - inversion U as [|? ? UA U']; subst. destruct (C103_latlng fatan2 a AT UA) as [VL CL]. cbv zeta in VL, CL. destruct (ll_ok fatan2 AT a UA) as [Pa _]. destruct (C94_add rect_empty (ll_of_point fatan2 a) empty_ok) as [_ AD]. destruct (AD Pa) as (VA & _ & ZA & _). clear AD. set (r0 := rect_add rect_empty (ll_of_point fatan2 a)) in *.
    assert (N0 : ~ void (zset r0)) by (intros H; apply (H _ ZA)).
    destruct (chain_covers fsin fasin fatan2 AS AA AT UT ps a r0 (1 / 2 ^ 48) VA N0 U) as (C1 & C2 & C3). cbv zeta in C1, C2, C3.
    change (fold_left (bounder_add fsin fasin fatan2) ps (Bounder (Some (a, ll_of_point fatan2 a)) r0)) with (bounder_chain fsin fasin fatan2 (a :: ps)) in *. set (s := bounder_chain fsin fasin fatan2 (a :: ps)) in *.
    assert (NS : ~ void (zset (bbound s))) by (intros H; apply N0; intros x Hx; apply (H x), C2, Hx). destruct (get_grow (bbound s) C1 NS) as [VG SG]. cbv zeta in VG, SG. fold (bounder_get s) in VG, SG. fold r in VG, SG.
    split; [apply rect_is_valid_spec; exact VG|]. split.
    + destruct (C93_predicates r r VG VG) as (E & _). split; [|discriminate]. intros H. exfalso. apply E in H. apply NS. intros x Hx. apply (H x), SG, Hx.
    + intros W d HD. eapply BoundCell.near_sub; [exact SG|]. apply (near_more _ (1 / 2 ^ 48 + INR (length ps) / 2 ^ 15)); [cbn [length]; rewrite S_INR; lra|]. apply C3; [exact W| |exact HD].
      pose proof Pa as (_ & _ & _ & LB). destruct pi_PI as [PP _]. exists (place (ll_of_point fatan2 a)). split; [|rewrite apart_chd, chd_sym, <- apart_chd; exact CL]. exists (B2R (lat (ll_of_point fatan2 a))), (B2R (lng (ll_of_point fatan2 a))). split; [exact ZA|]. split; [apply Rabs_le; lra|reflexivity].
Qed.
Print Assumptions C136_chain_partial.
Theorem C136_grows : forall fsin fasin fatan2 ps qs, accurate_sin fsin -> accurate_asin fasin -> accurate_atan2 fatan2 -> upper_atan2 fatan2 ->
  Forall (fun p => is_unit p = true) (ps ++ qs) ->
  rect_contains (bbound (bounder_chain fsin fasin fatan2 (ps ++ qs))) (bbound (bounder_chain fsin fasin fatan2 ps)) = true.
Proof.
  intros fsin fasin fatan2 ps qs AS AA AT UT U.
  assert (K : okz (bbound (bounder_chain fsin fasin fatan2 (ps ++ qs))) /\ okz (bbound (bounder_chain fsin fasin fatan2 ps)) /\ subset (zset (bbound (bounder_chain fsin fasin fatan2 ps))) (zset (bbound (bounder_chain fsin fasin fatan2 (ps ++ qs))))).
  { assert (G : forall l, Forall (fun p => is_unit p = true) l -> okz (bbound (bounder_chain fsin fasin fatan2 l)) /\ (l <> [] -> ~ void (zset (bbound (bounder_chain fsin fasin fatan2 l))) /\ bprev (bounder_chain fsin fasin fatan2 l) = Some (last l (Vec f0 f0 f0), ll_of_point fatan2 (last l (Vec f0 f0 f0))))).
    { intros l. induction l as [|b l IH] using rev_ind; intros Ul; [split; [apply empty_ok|intros H; elim H; reflexivity]|]. apply Forall_app in Ul. destruct Ul as [Ul Ub]. inversion Ub as [|? ? UB _]; subst. destruct (IH Ul) as [I1 I2]. unfold bounder_chain. rewrite fold_left_app. fold (bounder_chain fsin fasin fatan2 l). cbn [fold_left]. rewrite last_last. unfold bounder_add. cbn [bbound bprev].
      destruct l as [|c l].
      - cbn [bounder_chain fold_left bprev bounder_new bbound]. destruct (ll_ok fatan2 AT b UB) as [Pb _]. destruct (C94_add rect_empty (ll_of_point fatan2 b) empty_ok) as [_ AD]. destruct (AD Pb) as (VA & _ & ZA & _). split; [exact VA|]. intros _. split; [intros H; apply (H _ ZA)|reflexivity].
      - destruct (I2 ltac:(discriminate)) as [NV EP]. rewrite EP. assert (UL : is_unit (last (c :: l) (Vec f0 f0 f0)) = true) by (rewrite Forall_forall in Ul; apply Ul; apply last_In; discriminate). destruct (edge_grows fsin fasin fatan2 AS AA AT UT _ _ b I1 NV UL UB) as [VG SG]. split; [exact VG|]. intros _. split; [intros H; apply NV; intros x Hx; apply (H x), SG, Hx|reflexivity]. }
    destruct (G _ U) as [G1 _]. pose proof U as U'. apply Forall_app in U'. destruct U' as [Up Uq]. destruct (G _ Up) as [G2 G3]. split; [exact G1|]. split; [exact G2|].
    destruct ps as [|a ps]; [intros x Hx; exfalso; apply (empty_void x Hx)|]. destruct (G3 ltac:(discriminate)) as [NV EP]. assert (EF : bounder_chain fsin fasin fatan2 ((a :: ps) ++ qs) = fold_left (bounder_add fsin fasin fatan2) qs (bounder_chain fsin fasin fatan2 (a :: ps))) by apply fold_left_app. rewrite EF. clear EF. set (s := bounder_chain fsin fasin fatan2 (a :: ps)) in *. set (c := last (a :: ps) (Vec f0 f0 f0)) in *.
    assert (ES : s = Bounder (Some (c, ll_of_point fatan2 c)) (bbound s)) by (clear - EP; destruct s as [w1 w2]; cbn [bprev bbound] in *; rewrite EP; reflexivity). assert (UC : is_unit c = true) by (rewrite Forall_forall in Up; apply Up; apply last_In; discriminate).
    destruct (chain_covers fsin fasin fatan2 AS AA AT UT qs c (bbound s) 0 G2 NV ltac:(constructor; assumption)) as (_ & C2 & _). cbv zeta in C2. rewrite <- ES in C2. exact C2. }
  destruct K as (K1 & K2 & K3). destruct (C93_predicates _ _ K1 K2) as (_ & _ & _ & _ & _ & E & _). apply E. exact K3.
Qed.
Print Assumptions C136_grows.

Example C136_hyps : accurate_sin near_sin /\ accurate_asin cut_asin /\ accurate_atan2 cut_atan2 /\ upper_atan2 cut_atan2 /\ Forall (fun p => is_unit p = true) [ux; uy; ux] /\
  steps_within (314 / 100) (map direction [ux; uy; ux]) /\ on_chain (map direction [ux; uy; ux]) (along (direction ux) (direction uy) (1 / 2)).
Proof.
  assert (U1 : is_unit ux = true) by (vm_compute; reflexivity). assert (U2 : is_unit uy = true) by (vm_compute; reflexivity).
  assert (D : forall p q, (p = ux /\ q = uy) \/ (p = uy /\ q = ux) -> angle_between (direction p) (direction q) = PI / 2).
  { intros p q H. assert (UP : is_unit p = true /\ is_unit q = true) by (destruct H as [[-> ->]|[-> ->]]; auto). destruct UP as [UP UQ]. destruct (angle_trig _ _ (unit_sphere p UP) (unit_sphere q UQ)) as (O & CO & _). cbv zeta in O, CO. pose proof PI_RGT_0 as PG. apply cos_inj; [lra|lra|]. rewrite cos_PI2, CO. destruct H as [[-> ->]|[-> ->]]; unfold direction, rdot, ux, uy; cbn [px3 py3 pz3 vx vy vz]; change (B2R f0) with 0; unfold Rdiv; ring. }
  pose proof PI_tight as PT. split; [exact near_sin_ok|]. split; [exact cut_asin_ok|]. split; [exact cut_atan2_ok|]. split; [exact cut_atan2_upper|]. split; [repeat constructor; assumption|]. split.
  - cbn [map steps_within]. rewrite !D by auto. lra.
  - cbn [map on_chain]. right. left. exists (1 / 2). split; [|reflexivity]. rewrite D by auto. lra.
Qed.
