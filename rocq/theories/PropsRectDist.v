(** C137: the distance of a position from a rectangle. *)
From Coq Require Import ZArith Reals Lra Lia Psatz Bool List Classical.
From Flocq Require Import Core.
From Verif Require Import Base Spec F64 F64Facts IntervalSpec CircleSpec RectSpec F64Arith F64Error F64Neg R1Model R1Proofs S1Model S1Proofs S1Ops VectorModel AngleModel AngleProofs ExpandProofs CircleProofs PropsInterval PropsCircle
  RectModel RectProofs PropsRect PropsRect2 CapSpec CapModel StuvError ChordProofs CapError PredicatesError PredicatesFloat PredicatesSound PredicatesStable PredicatesProofs NormProofs PropsNorm CapEdgeFloat CapEdgeMain RegionModel RegionSpec PropsRegion TrigModel TrigSpec TrigProofs TrigWitness PropsTrig PropsCap PropsCap2 PropsDist CellLattice
  BoundModel BoundSpec BoundProofs BoundCell BoundFace PropsBound PropsBound2 CrossProofs PointModel PointSpec PropsPoint Near PropsFrame2 PropsCap3 SegModel SegProofs SegFloat PropsSeg BudgetProofs BounderModel BounderSpec BounderFloat BounderLng RectDistModel RectDistProofs.
Import ListNotations.
Open Scope R_scope.

(* [d] is the distance of [x] from the set [S], in radians, up to [e] *)
Definition distance_within (e : R) (S : CapSpec.pos -> Prop) (x : CapSpec.pos) (d : R) : Prop :=
  (exists q, S q /\ Rabs (d - angle_between x q) <= e) /\ (forall q, S q -> d <= angle_between x q + e).
Definition points_of (r : rect) : CapSpec.pos -> Prop := area (lo1 (rlat r)) (hi1 (rlat r)) (slo (rlng r)) (shi (rlng r)).

Lemma sub_lat x y : finite x -> finite y -> Rabs (B2R x) <= pi / 2 -> Rabs (B2R y) <= pi / 2 -> finite (fsub x y) /\ Rabs (B2R (fsub x y) - (B2R x - B2R y)) <= 1 / 2 ^ 51 /\ (B2R x <= B2R y -> B2R (fsub x y) <= 0).
Proof.
  intros Fx Fy Bx By. apply Rabs_le_inv in Bx, By. pose proof pi_bounds as PB. assert (PW : pow2 2 = 4) by reflexivity. assert (B : Rabs (B2R x - B2R y) <= 16 / 5) by (apply Rabs_le; lra). destruct (result_val _ _ 2 ltac:(lia) (fsub_result _ _ Fx Fy) ltac:(lra)) as (F & V & _). split; [exact F|].
  pose proof (PredicatesError.rnd_rel (B2R x - B2R y)) as R. rewrite V. pose proof h_tiny as HT. split; [lra|]. intros LE. rewrite <- rnd_0. apply rnd_le. lra.
Qed.
Lemma max_val x y : finite x -> finite y -> finite (angle_max x y) /\ B2R (angle_max x y) = Rmax (B2R x) (B2R y).
Proof. intros Fx Fy. unfold angle_max. destruct (flt_R x y Fx Fy) as [C|C]; (split; [assumption|]); unfold Rmax; destruct Rle_dec; lra. Qed.
Lemma sqrt_ge x y : 0 <= x -> x * x <= y -> x <= sqrt y.
Proof. intros X L. rewrite <- (sqrt_square x X). apply sqrt_le_1_alt. exact L. Qed.
Lemma sin_mid x : 1 / 1000 <= x <= PI - 1 / 1000 -> 1 / 2 ^ 10 <= sin x.
Proof.
  intros H. pose proof PI_tight as PT. assert (K : forall y, 1 / 1000 <= y <= PI / 2 -> 1 / 2 ^ 10 <= sin y).
  { intros y Y. apply Rle_trans with (sin (1 / 1000)); [|apply sin_incr_1; lra]. destruct (SIN (1 / 1000)) as [L _]; [lra|lra|]. unfold sin_lb, sin_approx, sum_f_R0, sin_term in L. simpl in L. lra. }
  destruct (Rle_dec x (PI / 2)) as [L|L]; [apply K; lra|]. rewrite <- sin_PI_x. apply K. lra.
Qed.
Lemma haversine_dot f l g m : rdot (sphere_at f l) (sphere_at g m) = cos f * cos g * cos (l - m) + sin f * sin g.
Proof. unfold rdot, sphere_at. cbn [px3 py3 pz3]. rewrite cos_minus. ring. Qed.

(** C137: distance_to_latlng.  When the longitude of the position is one of the rectangle it is the
    distance up to 2^-50, and 0 for a position in the rectangle.  Otherwise it is the distance up
    to 2^-12, proved for rectangles of a height between 1/1000 and pi - 1/1000 (the missing
    part: flat and tall rectangles). *)
Theorem C137_distance_partial : forall fsin fcos fasin r p, accurate fsin sin -> accurate fcos cos -> accurate_asin fasin -> okz r -> ~ void (zset r) -> okp p ->
  let d := rect_distance fsin fcos fasin r p in
  (circ (rlng r) (B2R (lng p)) -> finite d /\ 0 <= B2R d /\ distance_within (1 / 2 ^ 50) (points_of r) (place p) (B2R d)) /\
  (zset r (lat_lng (lat p) (lng p)) -> B2R d = 0) /\
  (~ circ (rlng r) (B2R (lng p)) -> 1 / 1000 <= B2R (hi1 (rlat r)) - B2R (lo1 (rlat r)) <= PI - 1 / 1000 -> finite d /\ distance_within (1 / 2 ^ 12) (points_of r) (place p) (B2R d)).
Proof.
  intros fsin fcos fasin r p AS AC AA V N HP d. destruct (okz_ends r V N) as (FH & LE & HB & NW & SL). pose proof V as (FL & _ & LB & _). pose proof (okz_lng r V) as VG. pose proof HP as (FP & FT & RP & RT). pose proof pi_PI as PP. pose proof PI_tight as PT. pose proof pi_bounds as PB.
  set (s := B2R (lo1 (rlat r))) in *. set (n := B2R (hi1 (rlat r))) in *. set (f := B2R (lat p)) in *. set (th := B2R (lng p)) in *. assert (AT : angle (lng p)) by (split; auto).
  assert (SP : on_sphere (place p)) by apply place_on. assert (EP : place p = sphere_at f th) by reflexivity.
  assert (ZS : forall x, zset r x <-> (s <= fst x <= n) /\ circ (rlng r) (snd x)).
  { intros [x y]. unfold zone. cbn [fst snd]. rewrite SL. fold s n. tauto. }
  assert (CS : s1_contains (rlng r) (lng p) = true <-> circ (rlng r) th) by (apply contains_spec; [exact VG|exact AT]).
  assert (FIRST : circ (rlng r) th -> finite d /\ B2R d = Rmax (Rmax (B2R (fsub (lat p) (hi1 (rlat r)))) (B2R (fsub (lo1 (rlat r)) (lat p)))) 0).
  { intros C. unfold d, rect_distance. rewrite (proj2 CS C). destruct (sub_lat (lat p) (hi1 (rlat r)) FP FH ltac:(apply Rabs_le; fold f; lra) ltac:(apply Rabs_le; fold n; lra)) as (F1 & _). destruct (sub_lat (lo1 (rlat r)) (lat p) FL FP ltac:(apply Rabs_le; fold s; lra) ltac:(apply Rabs_le; fold f; lra)) as (F2 & _).
    destruct f0_val as [F0 V0]. destruct (max_val _ _ F1 F2) as [F3 E3]. destruct (max_val _ _ F3 F0) as [F4 E4]. split; [exact F4|]. rewrite E4, E3, V0. reflexivity. }
  split; [|split].
  - intros C. destruct (FIRST C) as [FD ED]. split; [exact FD|]. split; [rewrite ED; apply Rmax_r|].
    destruct (sub_lat (lat p) (hi1 (rlat r)) FP FH ltac:(apply Rabs_le; fold f; lra) ltac:(apply Rabs_le; fold n; lra)) as (F1 & E1 & _). destruct (sub_lat (lo1 (rlat r)) (lat p) FL FP ltac:(apply Rabs_le; fold s; lra) ltac:(apply Rabs_le; fold f; lra)) as (F2 & E2 & _). fold f n in E1. fold s f in E2. apply Rabs_le_inv in E1, E2.
    set (x := Rmax (Rmax (f - n) (s - f)) 0). assert (DX : Rabs (B2R d - x) <= 1 / 2 ^ 51) by (rewrite ED; unfold x, Rmax; repeat destruct Rle_dec; apply Rabs_le; lra). apply Rabs_le_inv in DX.
    split.
    + set (g := if Rle_dec f n then if Rle_dec s f then f else s else n). assert (GB : s <= g <= n /\ Rabs (f - g) = x). { unfold g, x, Rmax. repeat destruct Rle_dec; (split; [lra|]); try (rewrite Rabs_pos_eq; lra); rewrite Rabs_left1; lra. } destruct GB as [GB GX].
      exists (sphere_at g th). split; [exists g, th; split; [apply ZS; split; [exact GB|exact C]|]; split; [apply Rabs_le; lra|reflexivity]|]. rewrite EP, meridian_angle by lra. rewrite GX. apply Rabs_le. lra.
    + intros q (g & l & Z & BL & ->). apply ZS in Z. cbn [fst snd] in Z. destruct Z as [GB _]. rewrite EP. pose proof (lat_gap f th g l ltac:(lra) ltac:(lra)) as LG.
      assert (AB : 0 <= Rabs (f - g) <= PI) by (split; [apply Rabs_pos|apply Rabs_le; lra]). assert (XG : x <= Rabs (f - g)) by (unfold x, Rmax, Rabs; repeat destruct Rle_dec; destruct Rcase_abs; lra).
      assert (AN : Rabs (f - g) <= angle_between (sphere_at f th) (sphere_at g l)).
      { unfold angle_between. fold (chd (sphere_at f th) (sphere_at g l)). destruct (chd_range _ _ (sphere_at_on f th) (sphere_at_on g l)) as (H1 & H2 & _). pose proof (asin_mono (sin (Rabs (f - g) / 2)) (chd (sphere_at f th) (sphere_at g l) / 2) ltac:(pose proof (SIN_bound (Rabs (f - g) / 2)); lra) ltac:(lra) ltac:(lra)) as K. rewrite asin_sin in K by lra. lra. }
      lra.
  - intros Z. apply ZS in Z. unfold lat_lng in Z; cbn [fst snd] in Z. fold f th in Z. destruct Z as [GB C]. destruct (FIRST C) as [_ ED]. rewrite ED.
    assert (G1 : B2R (fsub (lat p) (hi1 (rlat r))) <= 0) by (apply (sub_lat (lat p) (hi1 (rlat r)) FP FH); [apply Rabs_le; fold f; lra|apply Rabs_le; fold n; lra|fold f n; lra]).
    assert (G2 : B2R (fsub (lo1 (rlat r)) (lat p)) <= 0) by (apply (sub_lat (lo1 (rlat r)) (lat p) FL FP); [apply Rabs_le; fold s; lra|apply Rabs_le; fold f; lra|fold s f; lra]). unfold Rmax. repeat destruct Rle_dec; lra.
  - intros C HH. assert (SC : s1_contains (rlng r) (lng p) = false) by (destruct s1_contains; [elim C; apply CS; reflexivity|reflexivity]).
    assert (NE : nonempty (rlng r)) by (apply not_void; [exact VG|exact NW]). destruct (near_side (rlng r) (lng p) VG NE AT C) as (AL & CL & NL). cbv zeta in AL, CL, NL.
    unfold d, rect_distance. rewrite SC. cbv zeta. set (l := if s1_contains _ _ then _ else _) in *. clear d FIRST. destruct AL as [FL' RL].
    assert (Ok : forall a, finite a -> s <= B2R a <= n -> ll_is_valid (LL a l) = true) by (intros a Fa Ba; apply okp_ll; split; [exact Fa|]; split; [exact FL'|]; cbn [lat lng]; lra).
    destruct (C102_point fsin fcos p AS AC (proj1 (okp_ll p) HP)) as (UX & SX & NX). destruct (C102_point fsin fcos (LL (lo1 (rlat r)) l) AS AC (Ok _ FL ltac:(fold s; lra))) as (UA & SA & NA). destruct (C102_point fsin fcos (LL (hi1 (rlat r)) l) AS AC (Ok _ FH ltac:(fold n; lra))) as (UB & SB & NB). cbv zeta in *. rewrite apart_chd in NX, NA, NB. change (place (LL (lo1 (rlat r)) l)) with (sphere_at s (B2R l)) in NA. change (place (LL (hi1 (rlat r)) l)) with (sphere_at n (B2R l)) in NB.
    set (x := point_of_ll fsin fcos p) in *. set (a := point_of_ll fsin fcos (LL (lo1 (rlat r)) l)) in *. set (b := point_of_ll fsin fcos (LL (hi1 (rlat r)) l)) in *. set (X := direction x) in *. set (A := direction a) in *. set (B := direction b) in *.
    assert (SH : 1 / 2 ^ 10 <= sin (n - s)) by (apply sin_mid; lra).
    destruct (edge_near A B s n (B2R l) SA SB NA NB ltac:(lra) ltac:(lra) ltac:(lra) SH) as (OO & SO & EN). cbv zeta in OO, SO, EN. set (o := angle_between A B) in *.
    destruct (C135_distance_partial fasin x a b AA UX UA UB ltac:(fold A B o; lra)) as (FD & (t & T & ET) & MT). cbv zeta in *. fold X A B o in T, ET, MT. split; [exact FD|].
    set (dd := B2R (distance_from_segment fasin x a b)) in *. assert (EE : 1 / 2 ^ 18 / sqrt (sin o) <= 1 / 2 ^ 18 * 50).
    { unfold Rdiv at 1. apply Rmult_le_compat_l; [lra|]. assert (1 / 50 <= sqrt (sin o)) by (apply sqrt_ge; lra). replace 50 with (/ (1 / 50)) by field. apply Rinv_le_contravar; lra. }
    set (e := 1 / 2 ^ 18 / sqrt (sin o)) in *. clearbody e. apply Rabs_le_inv in OO, ET.
    assert (XP : forall q, on_sphere q -> Rabs (angle_between X q - angle_between (place p) q) <= 1 / 2 ^ 45) by (intros q Sq; rewrite (angle_sym X q), (angle_sym (place p) q); eapply Rle_trans; [apply (angle_near q X (place p) _ Sq SX SP NX)|lra]).
    split.
    + set (t' := Rmin t (n - s)). assert (T' : 0 <= t' <= n - s /\ Rabs (t - t') <= 1 / 2 ^ 43) by (unfold t', Rmin; destruct Rle_dec; (split; [lra|apply Rabs_le; lra])). destruct T' as [T1 T2].
      exists (sphere_at (s + t') (B2R l)). split; [exists (s + t'), (B2R l); split; [apply ZS; cbn [fst snd]; split; [lra|exact CL]|]; split; [apply Rabs_le; lra|reflexivity]|].
      destruct (EN t) as [S1' N1]. pose proof (place_lip (s + t) (B2R l) (s + t') (B2R l)) as PL. replace (B2R l - B2R l) with 0 in PL by ring. rewrite Rabs_R0 in PL. replace (s + t - (s + t')) with (t - t') in PL by ring. pose proof (chd_tri (along A B t) (sphere_at (s + t) (B2R l)) (sphere_at (s + t') (B2R l))) as TR.
      pose proof (angle_near X (along A B t) (sphere_at (s + t') (B2R l)) (1 / 2 ^ 19) SX S1' (sphere_at_on _ _) ltac:(lra)) as K1. pose proof (XP (sphere_at (s + t') (B2R l)) (sphere_at_on _ _)) as K2. apply Rabs_le_inv in K1, K2. apply Rabs_le. lra.
    + intros q (g & m & Z & BM & ->). apply ZS in Z. cbn [fst snd] in Z. destruct Z as [GB CM]. set (t0 := Rmin (g - s) o). assert (T0 : 0 <= t0 <= o /\ Rabs (t0 - (g - s)) <= 1 / 2 ^ 43) by (assert (0 <= o) by lra; unfold t0, Rmin; destruct Rle_dec; (split; [lra|apply Rabs_le; lra])). destruct T0 as [T1 T2].
      pose proof (MT t0 T1) as M. destruct (EN t0) as [S1' N1]. pose proof (place_lip (s + t0) (B2R l) g (B2R l)) as PL. replace (B2R l - B2R l) with 0 in PL by ring. rewrite Rabs_R0 in PL. replace (s + t0 - g) with (t0 - (g - s)) in PL by ring. pose proof (chd_tri (along A B t0) (sphere_at (s + t0) (B2R l)) (sphere_at g (B2R l))) as TR.
      pose proof (angle_near X (along A B t0) (sphere_at g (B2R l)) (1 / 2 ^ 19) SX S1' (sphere_at_on _ _) ltac:(lra)) as K1. pose proof (XP (sphere_at g (B2R l)) (sphere_at_on _ _)) as K2. apply Rabs_le_inv in K1, K2.
      assert (K3 : angle_between (place p) (sphere_at g (B2R l)) <= angle_between (place p) (sphere_at g m) + 1 / 2 ^ 20).
      { apply (angle_cos _ _ _ (1 / 2 ^ 44)); [exact SP|apply sphere_at_on|apply sphere_at_on| |lra|lra]. rewrite EP, !haversine_dot. pose proof (NL m CM BM) as NM. fold th in NM. assert (C0 : 0 <= cos f * cos g <= 1). { assert (0 <= cos f) by (apply cos_ge_0; lra). assert (0 <= cos g) by (apply cos_ge_0; lra). pose proof (COS_bound f). pose proof (COS_bound g). split; [apply Rmult_le_pos; assumption|]. replace 1 with (1 * 1) by ring. apply Rmult_le_compat; lra. }
        assert (cos f * cos g * cos (th - m) <= cos f * cos g * (cos (th - B2R l) + 1 / 2 ^ 44)) by (apply Rmult_le_compat_l; lra). assert (cos f * cos g * (1 / 2 ^ 44) <= 1 * (1 / 2 ^ 44)) by (apply Rmult_le_compat_r; lra). lra. }
      lra.
Qed.
Print Assumptions C137_distance_partial.

(* a rectangle across the meridian of 180 degrees, with a position beside it, one below it and one in it *)
Example C137_hyps : accurate cut_sin sin /\ accurate cut_cos cos /\ accurate_asin cut_asin /\ exists r p q z, okz r /\ ~ void (zset r) /\ okp p /\ okp q /\ okp z /\
  ~ circ (rlng r) (B2R (lng p)) /\ 1 / 1000 <= B2R (hi1 (rlat r)) - B2R (lo1 (rlat r)) <= PI - 1 / 1000 /\
  circ (rlng r) (B2R (lng q)) /\ ~ zset r (lat_lng (lat q) (lng q)) /\ zset r (lat_lng (lat z) (lng z)).
Proof.
  split; [exact cut_sin_ok|]. split; [exact cut_cos_ok|]. split; [exact cut_asin_ok|].
  set (r := Rect (R1 f0 f1) (S1 (lit 5 (-1)) (lit (-5) (-1)))). set (p := LL f0 f0). set (q := LL (of_int (-1)) (of_int 3)). set (z := LL f1 (of_int 3)). exists r, p, q, z.
  assert (V : okz r) by (apply rect_is_valid_spec; vm_compute; reflexivity). assert (P1 : okp p) by (apply okp_ll; vm_compute; reflexivity). assert (P2 : okp q) by (apply okp_ll; vm_compute; reflexivity). assert (P3 : okp z) by (apply okp_ll; vm_compute; reflexivity).
  assert (A : forall x, okp x -> angle (lng x)) by (intros x (_ & F & _ & R); split; assumption). pose proof (okz_lng r V) as VG. pose proof PI_tight as PT. destruct f0_val as [_ V0]. destruct f1_val as [_ V1].
  destruct (C93_predicates r r V V) as (_ & _ & CP & _).
  split; [exact V|]. split; [intros E; apply (C93_predicates r r V V) in E; vm_compute in E; discriminate|]. split; [exact P1|]. split; [exact P2|]. split; [exact P3|].
  split; [intros C; apply (contains_spec (rlng r) (lng p) VG (A p P1)) in C; vm_compute in C; discriminate|].
  split; [unfold r; cbn [rlat lo1 hi1]; rewrite V0, V1; lra|].
  split; [apply (contains_spec (rlng r) (lng q) VG (A q P2)); vm_compute; reflexivity|].
  split; [intros C; apply CP in C; [vm_compute in C; discriminate|exact P2]|apply CP; [exact P3|vm_compute; reflexivity]].
Qed.
