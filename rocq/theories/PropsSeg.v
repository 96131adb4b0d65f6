(** C135: the distance of a point from an edge. *)
From Coq Require Import ZArith Reals Lra Lia Psatz Bool.
From Flocq Require Import Core.
From Verif Require Import Base Spec F64 F64Facts IntervalSpec F64Arith F64Error F64Neg R1Proofs S1Proofs VectorModel PredicatesFloat PredicatesError PredicatesStable PredicatesSound PredicatesProofs NormProofs PropsNorm CapSpec CapModel CapError CapEdgeFloat CapEdgeMain
  AngleModel AngleProofs ExpandProofs CapProofs CircleProofs StuvError ChordProofs PropsCap TrigModel TrigSpec TrigProofs TrigWitness RegionModel RegionSpec PropsRegion PropsCap2 PropsCap3 PropsDist CellLattice CrossProofs PointModel PointSpec PropsPoint Near PropsFrame2 PropsTrig SegModel SegProofs SegFloat.
Open Scope R_scope.

(** The plane of the edge. *)
Lemma edge_frame A B X : on_sphere A -> on_sphere B -> on_sphere X -> let o := angle_between A B in 0 < sin o ->
  let n := pmul (/ sin o) (rcross A B) in let m := rcross n X in let u := rdot X A in let v := rdot X (rcross n A) in
  (forall t, on_sphere (along A B t) /\ rdot X (along A B t) = cos t * u + sin t * v) /\
  rdot X B = cos o * u + sin o * v /\ len m = sqrt (u * u + v * v) /\ u * u + v * v <= 1 /\
  rdot A m = - v /\ rdot B m = - (cos o * v - sin o * u) /\ rdot X m = 0.
Proof.
  intros SA SB SX o S0 n m u v. destruct (angle_trig _ _ SA SB) as (O & CO & SI). cbv zeta in O, CO, SI. fold o in O, CO, SI. assert (AA : rdot A A = 1) by exact SA. assert (BB : rdot B B = 1) by exact SB. assert (XX : rdot X X = 1) by exact SX.
  pose proof (sin2_cos2 o) as Q. unfold Rsqr in Q. set (k := rdot A B) in *. set (s := sin o) in *.
  assert (NA : rcross n A = pmul (/ s) (psub B (pmul k A))).
  { assert (E : rcross (rcross A B) A = psub (pmul (rdot A A) B) (pmul k A)) by (unfold k; apply pos_eq; unfold rdot, psub, pmul, rcross; cbn [px3 py3 pz3]; ring). rewrite AA in E.
    transitivity (pmul (/ s) (rcross (rcross A B) A)); [unfold n; apply pos_eq; unfold pmul, rcross; cbn [px3 py3 pz3]; ring|]. rewrite E. apply pos_eq; unfold psub, pmul; cbn [px3 py3 pz3]; ring. }
  assert (HL : len (psub B (pmul k A)) = s). { rewrite SI. unfold len. f_equal. replace (rdot (psub B (pmul k A)) (psub B (pmul k A))) with (rdot B B - 2 * k * rdot A B + k * k * rdot A A) by (unfold rdot, psub, pmul; cbn [px3 py3 pz3]; ring). fold k. rewrite AA, BB. ring. }
  assert (HD : heading A B = rcross n A). { rewrite NA. unfold heading. change (dot3 A B) with k. change (Pos (px3 B - k * px3 A) (py3 B - k * py3 A) (pz3 B - k * pz3 A)) with (psub B (pmul k A)). change (length3 (psub B (pmul k A))) with (len (psub B (pmul k A))). rewrite HL. apply pos_eq; unfold psub, pmul; cbn [px3 py3 pz3]; field; lra. }
  set (h := rcross n A) in *. assert (HH : rdot h h = 1). { rewrite <- len_sq, NA, len_mul, HL, Rabs_pos_eq by (apply Rlt_le, Rinv_0_lt_compat; exact S0). field. lra. }
  assert (AH : rdot A h = 0). { unfold h, rdot, rcross. cbn [px3 py3 pz3]. ring. }
  assert (BE : B = padd (pmul (cos o) A) (pmul s h)). { rewrite NA, CO. apply pos_eq; unfold padd, psub, pmul; cbn [px3 py3 pz3]; field; lra. }
  assert (XB : rdot X B = cos o * u + s * v). { rewrite BE. unfold u, v, rdot, padd, pmul. cbn [px3 py3 pz3]. ring. }
  assert (XN : rdot X (rcross n B) = cos o * v - s * u).
  { assert (NH : rcross n h = pmul (-1) A).
    { assert (NN : rdot n n = 1). { unfold n. replace (rdot (pmul (/ s) (rcross A B)) (pmul (/ s) (rcross A B))) with (/ s * / s * rdot (rcross A B) (rcross A B)) by (unfold rdot, pmul; cbn [px3 py3 pz3]; ring). rewrite cross_dot, AA, BB. fold k. replace (1 * 1 - k * k) with (s * s) by (rewrite <- CO in *; lra). field. lra. }
      assert (NAO : rdot n A = 0). { unfold n, rdot, pmul, rcross. cbn [px3 py3 pz3]. ring. } transitivity (psub (pmul (rdot n A) n) (pmul (rdot n n) A)); [unfold h; apply pos_eq; unfold rdot, psub, pmul, rcross; cbn [px3 py3 pz3]; ring|]. rewrite NN, NAO. apply pos_eq; unfold psub, pmul; cbn [px3 py3 pz3]; ring. }
    assert (E : rcross n B = psub (pmul (cos o) h) (pmul s A)). { transitivity (padd (pmul (cos o) (rcross n A)) (pmul s (rcross n h))). - rewrite BE at 1. apply pos_eq; unfold padd, pmul, rcross; cbn [px3 py3 pz3]; ring. - rewrite NH. fold h. apply pos_eq; unfold psub, padd, pmul; cbn [px3 py3 pz3]; ring. }
    rewrite E. unfold u, v, rdot, psub, pmul. cbn [px3 py3 pz3]. ring. }
  (* the orthogonal axes A, h and n *)
  assert (G : rdot X (rcross A h) * rdot X (rcross A h) = 1 - u * u - v * v).
  { transitivity (rdot X X * rdot A A * rdot h h + 2 * (rdot X A * rdot A h * rdot X h) - rdot X X * (rdot A h * rdot A h) - rdot A A * (rdot X h * rdot X h) - rdot h h * (rdot X A * rdot X A)); [clear; clearbody h; unfold rdot, rcross; cbn [px3 py3 pz3]; ring|]. rewrite XX, AA, HH, AH. fold u v. ring. }
  assert (NE : n = rcross A h). { assert (E : rcross A (rcross n A) = psub (pmul (rdot A A) n) (pmul (rdot A n) A)) by (apply pos_eq; unfold rdot, psub, pmul, rcross; cbn [px3 py3 pz3]; ring). fold h in E. assert (AN : rdot A n = 0) by (unfold n, rdot, pmul, rcross; cbn [px3 py3 pz3]; ring). rewrite AA, AN in E. rewrite E. apply pos_eq; unfold psub, pmul; cbn [px3 py3 pz3]; ring. }
  rewrite <- NE in G. assert (NN : rdot n n = 1). { rewrite NE, cross_dot, AA, HH, AH. ring. }
  split; [|split; [exact XB|split; [|split; [|split; [|split]]]]].
  - intros t. unfold along. rewrite HD. split.
    + apply (along_sphere A h t AA HH AH).
    + unfold u, v, rdot. cbn [px3 py3 pz3]. ring.
  - unfold len. f_equal. unfold m. rewrite cross_dot, NN, XX. replace (rdot n X) with (rdot X n) by (unfold rdot; ring). lra.
  - pose proof (Rle_0_sqr (rdot X n)) as K. unfold Rsqr in K. lra.
  - unfold m, v, h, rdot, rcross. cbn [px3 py3 pz3]. ring.
  - rewrite <- XN. unfold m, rdot, rcross. cbn [px3 py3 pz3]. ring.
  - unfold m, rdot, rcross. cbn [px3 py3 pz3]. ring.
Qed.

(** What update_min_distance computes: the squared chord to the great circle if the point is
    about within the wedge of the edge, else the squared chord to the nearer end. *)
Lemma seg_float x a b : is_unit x = true -> is_unit a = true -> is_unit b = true -> let A := direction a in let B := direction b in let X := direction x in let o := angle_between A B in 1 / 2 ^ 16 <= sin o ->
  let n := pmul (/ sin o) (rcross A B) in let u := rdot X A in let v := rdot X (rcross n A) in let w := cos o * u + sin o * v in
  let d := fst (update_min_distance x a b f0 true) in
  finite d /\ 0 <= B2R d /\
  (Rabs (B2R d - (2 - 2 * sqrt (u * u + v * v))) <= 1 / 2 ^ 42 /\ - (1 / 2 ^ 42) <= v /\ cos o * v - sin o * u <= 1 / 2 ^ 42 \/
   Rabs (B2R d - (2 - 2 * Rmax u w)) <= 1 / 2 ^ 42 /\ (1 - cos o - 1 / 2 ^ 40 <= u - w \/ 1 - cos o - 1 / 2 ^ 40 <= w - u \/ v <= 1 / 2 ^ 42 \/ - (1 / 2 ^ 42) <= cos o * v - sin o * u)).
Proof.
  intros UX UA UB A B X o SO n u v w d. destruct (edge_frame A B X (unit_sphere a UA) (unit_sphere b UB) (unit_sphere x UX) ltac:(fold o; lra)) as (_ & XB & LM & UV & AM & BM & XM). cbv zeta in *. fold o n u v in XB, LM, UV, AM, BM, XM. fold w in XB. set (m := rcross n X) in *.
  pose proof (norm2_dist x a UX UA) as NA. pose proof (norm2_dist x b UX UB) as NB. pose proof (norm2_dist a b UA UB) as NAB. fold A B X in NA, NB, NAB. fold u in NA. rewrite XB in NB.
  destruct (angle_trig A B (unit_sphere a UA) (unit_sphere b UB)) as (O & CO & _). cbv zeta in O, CO. fold o in O, CO. rewrite <- CO in NAB.
  pose proof (rdot_range X A (unit_sphere x UX) (unit_sphere a UA)) as BU. pose proof (rdot_range X B (unit_sphere x UX) (unit_sphere b UB)) as BW. rewrite XB in BW. fold u in BU. pose proof (COS_bound o) as BC.
  (* the case of the ends *)
  assert (ENDS : forall z ok, (z, ok) = interior_dist x a b f0 true -> ok = false -> (1 - cos o - 1 / 2 ^ 40 <= u - w \/ 1 - cos o - 1 / 2 ^ 40 <= w - u \/ v <= 1 / 2 ^ 42 \/ - (1 / 2 ^ 42) <= cos o * v - sin o * u) ->
    finite d /\ 0 <= B2R d /\ Rabs (B2R d - (2 - 2 * Rmax u w)) <= 1 / 2 ^ 42 /\ (1 - cos o - 1 / 2 ^ 40 <= u - w \/ 1 - cos o - 1 / 2 ^ 40 <= w - u \/ v <= 1 / 2 ^ 42 \/ - (1 / 2 ^ 42) <= cos o * v - sin o * u)).
  { intros z ok E -> H. unfold d, update_min_distance. rewrite <- E. cbn [negb andb fst]. destruct NA as [FA EA]. destruct NB as [FB EB]. destruct (fmin_R _ _ FA FB) as [FM VM]. split; [exact FM|]. rewrite VM. split; [apply Rmin_glb; apply norm2_ge; assumption|]. split; [|exact H].
    apply Rabs_le_inv in EA, EB. apply Rabs_le. unfold Rmin, Rmax. destruct (Rle_dec _ _), (Rle_dec _ _); lra. }
  destruct (seg_normal a b UA UB SO) as (FC & LC & LN & EC). cbv zeta in *. fold A B o in LN, EC. fold n in LN, EC. set (c := point_cross a b) in *.
  destruct (seg_circle x c n UX FC LC LN EC) as (FK & LK & EK & NS & GE). cbv zeta in *. fold X m in EK, NS. set (cx := cross c x) in *.
  assert (LM1 : len m <= 1). { rewrite LM. rewrite <- sqrt_1. apply sqrt_le_1_alt. exact UV. }
  destruct (seg_wedge a x cx (len (RV c)) m UA UX FK LK (proj1 LC) EK LM1 XM) as [FWA EWA]. destruct (seg_wedge b x cx (len (RV c)) m UB UX FK LK (proj1 LC) EK LM1 XM) as [FWB EWB]. fold A in EWA. fold B in EWB. rewrite AM in EWA. rewrite BM in EWB.
  pose proof (planar_error_near _ _ _ _ _ _ NA NB NAB ltac:(lra) ltac:(lra) ltac:(lra)) as NP.
  assert (RP : 0 < / len (RV c)) by (apply Rinv_0_lt_compat; lra).
  unfold d, update_min_distance, interior_dist in ENDS |- *. clear d. fold c in ENDS |- *. fold cx in ENDS |- *. cbn [negb andb] in ENDS |- *.
  set (pe := planar_error (norm2 (vsub x a)) (norm2 (vsub x b)) (norm2 (vsub a b))) in *. clearbody pe. set (xa2 := norm2 (vsub x a)) in *. set (xb2 := norm2 (vsub x b)) in *. set (ab2 := norm2 (vsub a b)) in *. set (wa := dot (vsub a x) cx) in *. set (wb := dot (vsub b x) cx) in *.
  set (dist := fadd (fdiv (fmul (dot x c) (dot x c)) (norm2 c)) (fmul (fsub f1 (fsqrt (fdiv (norm2 cx) (norm2 c)))) (fsub f1 (fsqrt (fdiv (norm2 cx) (norm2 c)))))) in *.
  destruct (fge (fabs (fsub xa2 xb2)) (fadd ab2 pe)) eqn:PL.
  { specialize (ENDS f0 false eq_refl eq_refl). destruct ENDS as (H1 & H2 & H3); [|split; [exact H1|split; [exact H2|right; exact H3]]].
    assert (SB : near (fsub xa2 xb2) (2 * w - 2 * u) (3 / 2 ^ 42)). { pose proof (near_sub _ _ _ _ _ _ NA NB ltac:(assert (Rabs (2 - 2 * u - (2 - 2 * w)) <= 4) by (apply Rabs_le; lra); lra)) as Q. replace (2 - 2 * u - (2 - 2 * w)) with (2 * w - 2 * u) in Q by ring. apply (near_weak _ _ _ _ Q). lra. }
    assert (SA : near (fadd ab2 pe) (2 - 2 * cos o) (2 / 2 ^ 42)). { pose proof (near_add _ _ _ _ _ _ NAB NP ltac:(rewrite Rabs_pos_eq; lra)) as Q. rewrite Rplus_0_r in Q. apply (near_weak _ _ _ _ Q). lra. }
    destruct SB as [FS ES]. destruct SA as [FP EP]. destruct (fabs_val _ FS) as [FT VT]. unfold fge in PL. destruct (fle_R _ _ FP FT) as [L|]; [|discriminate]. rewrite VT in L. apply Rabs_le_inv in ES, EP. revert L. unfold Rabs. destruct (Rcase_abs _); intros L; [left|right; left]; lra. }
  unfold fge in *. destruct (fle f0 wa) eqn:WA; cbn [orb] in *.
  { specialize (ENDS f0 false eq_refl eq_refl). destruct ENDS as (H1 & H2 & H3); [|split; [exact H1|split; [exact H2|right; exact H3]]].
    right; right; left. destruct (fle_R f0 wa eq_refl FWA) as [L|]; [|discriminate]. change (B2R f0) with 0 in L. pose proof (Rmult_le_pos _ _ (Rlt_le _ _ RP) L). apply Rabs_le_inv in EWA. lra. }
  destruct (fle wb f0) eqn:WB; cbn [orb] in *.
  { specialize (ENDS f0 false eq_refl eq_refl). destruct ENDS as (H1 & H2 & H3); [|split; [exact H1|split; [exact H2|right; exact H3]]].
    right; right; right. destruct (fle_R wb f0 FWB eq_refl) as [L|]; [|discriminate]. change (B2R f0) with 0 in L. assert (/ len (RV c) * B2R wb <= 0) by (rewrite <- (Rmult_0_r (/ len (RV c))); apply Rmult_le_compat_l; lra). apply Rabs_le_inv in EWB. lra. }
  clear ENDS. cbn [fst]. destruct NS as [FD ED]. split; [exact FD|]. rewrite LM in ED. split; [exact GE|]. left. split; [exact ED|].
  destruct (fle_R f0 wa eq_refl FWA) as [|L1]; [discriminate|]. destruct (fle_R wb f0 FWB eq_refl) as [|L2]; [discriminate|]. change (B2R f0) with 0 in L1, L2. apply Rabs_le_inv in EWA, EWB.
  assert (/ len (RV c) * B2R wa <= 0) by (rewrite <- (Rmult_0_r (/ len (RV c))); apply Rmult_le_compat_l; lra). assert (0 <= / len (RV c) * B2R wb) by (apply Rmult_le_pos; lra). lra.
Qed.

(** The distance is that of the nearest point of the edge, to within 2^-18 divided by the
    square root of the sine of the edge's angle, unless the ends of the edge nearly coincide
    or are nearly opposite. *)
Theorem C135_distance_partial : forall fasin x a b, accurate_asin fasin -> is_unit x = true -> is_unit a = true -> is_unit b = true ->
  let o := angle_between (direction a) (direction b) in 1 / 2 ^ 16 <= sin o ->
  let d := distance_from_segment fasin x a b in
  let to_edge t := angle_between (direction x) (along (direction a) (direction b) t) in
  let e := 1 / 2 ^ 18 / sqrt (sin o) in
  finite d /\ (exists t, 0 <= t <= o /\ Rabs (B2R d - to_edge t) <= e) /\ (forall t, 0 <= t <= o -> B2R d <= to_edge t + e).
Proof.
  intros fasin x a b AA UX UA UB o SO d to_edge e. destruct (edge_frame (direction a) (direction b) (direction x) (unit_sphere a UA) (unit_sphere b UB) (unit_sphere x UX) ltac:(fold o; lra)) as (AL & XB & _ & UV & _).
  destruct (seg_float x a b UX UA UB SO) as (FD & GD & HD). cbv zeta in *. fold o in AL, XB, UV, HD. set (n := pmul (/ sin o) (rcross (direction a) (direction b))) in *. set (u0 := rdot (direction x) (direction a)) in *. set (v := rdot (direction x) (rcross n (direction a))) in *.
  unfold d, distance_from_segment in *. clear d. set (d := fst (update_min_distance x a b f0 true)) in *. clearbody d.
  pose proof (SIN_bound o) as SB. set (s := sin o) in *. destruct (angle_trig _ _ (unit_sphere a UA) (unit_sphere b UB)) as (O & CO & _). cbv zeta in O, CO. fold o in O, CO.
  assert (O' : 0 < o < PI). { split; apply Rnot_le_lt; intros L; [assert (o = 0) as OZ by lra|assert (o = PI) as OZ by lra]; unfold s in SO; rewrite OZ in SO; [rewrite sin_0 in SO|rewrite sin_PI in SO]; lra. }
  set (w := cos o * u0 + s * v) in *. set (E := 1 / 2 ^ 42) in *. assert (EV : E = 1 / 2 ^ 42) by reflexivity.
  assert (IS : 1 <= / s) by (rewrite <- Rinv_1; apply Rinv_le_contravar; lra). set (C := 11 * (E / s)). assert (CE : E <= E / s). { unfold Rdiv. rewrite <- (Rmult_1_r E) at 1. apply Rmult_le_compat_l; lra. }
  (* against the points of the edge *)
  assert (ALL : forall t, 0 <= t <= o -> B2R d <= 2 - 2 * (cos t * u0 + sin t * v) + C).
  { intros t T. destruct HD as [(HD & HV & HG)|(HD & HC)]; apply Rabs_le_inv in HD.
    - pose proof (arc_top u0 v t) as K. cbv zeta beta in K. unfold C. lra.
    - assert (K : cos t * u0 + sin t * v <= Rmax u0 w + 4 * (E / s)).
      { assert (E4 : 1 / 2 ^ 40 / s = 4 * (E / s)) by (rewrite EV; field; lra). destruct HC as [H|[H|[H|H]]].
        - pose proof (planar_start u0 v o (1 / 2 ^ 40) O' ltac:(lra) UV H) as L. fold s in L. pose proof (arc_before u0 v o O' (1 / 2 ^ 40 / s) t ltac:(apply Rmult_le_pos; lra) L T) as Q. cbv zeta beta in Q. fold s w in Q. rewrite E4 in Q. lra.
        - pose proof (planar_end u0 v o (1 / 2 ^ 40) O' ltac:(lra) UV H) as L. fold s in L. pose proof (arc_after u0 v o (1 / 2 ^ 40 / s) t O' ltac:(apply Rmult_le_pos; lra) L T) as Q. fold s w in Q. rewrite E4 in Q. lra.
        - pose proof (arc_before u0 v o O' E t ltac:(lra) H T) as Q. cbv zeta beta in Q. fold s w in Q. lra.
        - pose proof (arc_after u0 v o E t O' ltac:(lra) H T) as Q. fold s w in Q. lra. }
      unfold C. lra. }
  assert (SOME : exists t, 0 <= t <= o /\ 2 - 2 * (cos t * u0 + sin t * v) - C <= B2R d).
  { destruct HD as [(HD & HV & HG)|(HD & _)]; apply Rabs_le_inv in HD.
    - destruct (arc_near u0 v o E O' ltac:(lra) HV HG) as (t & T & K). fold s in K. exists t. split; [exact T|]. unfold C. lra.
    - unfold Rmax in HD. destruct (Rle_dec u0 w); [exists o|exists 0; rewrite cos_0, sin_0]; (split; [lra|]); fold s; fold w; unfold C; lra. }
  (* the angle of the squared chord *)
  assert (D4 : B2R d <= 4).
  { destruct HD as [(HD & _)|(HD & _)]; apply Rabs_le_inv in HD; [pose proof (sqrt_pos (u0 * u0 + v * v)); lra|]. pose proof (ends_near u0 v o O' UV) as K. fold s w in K. assert (1 / 2 ^ 16 * (1 / 2 ^ 16) <= s * s) by (apply Rmult_le_compat; lra). lra. }
  destruct (chord_onto (B2R d) ltac:(lra)) as (td & TD & CD). destruct (rad_angle fasin d td AA FD (conj TD CD)) as [FR ER]. split; [exact FR|]. apply Rabs_le_inv in ER.
  assert (DC : B2R d = 2 - 2 * cos td). { rewrite <- CD. unfold chord. rewrite (cos_half td). lra. }
  set (r := sqrt s) in *. assert (R2 : r * r = s) by (apply sqrt_sqrt; lra). assert (R0 : 0 < r) by (apply sqrt_lt_R0; lra). assert (R1 : r <= 1) by (unfold r; rewrite <- sqrt_1; apply sqrt_le_1_alt; lra). assert (IR : 1 <= / r) by (rewrite <- Rinv_1; apply Rinv_le_contravar; lra).
  assert (ROOT : sqrt (2 * (C / 2)) <= 332 / 100 / 2 ^ 21 * / r).
  { rewrite <- (sqrt_square (332 / 100 / 2 ^ 21 * / r)) by (apply Rmult_le_pos; lra). apply sqrt_le_1_alt. replace (332 / 100 / 2 ^ 21 * / r * (332 / 100 / 2 ^ 21 * / r)) with (332 / 100 / 2 ^ 21 * (332 / 100 / 2 ^ 21) * / s) by (rewrite <- R2; field; lra). unfold C, Rdiv in *. rewrite EV. lra. }
  assert (ANG : forall t, 0 <= to_edge t <= PI /\ cos (to_edge t) = cos t * u0 + sin t * v). { intros t. destruct (AL t) as [ST DT]. destruct (angle_trig _ _ (unit_sphere x UX) ST) as (K1 & K2 & _). cbv zeta in K1, K2. split; [exact K1|]. unfold to_edge. rewrite K2. exact DT. }
  assert (CP : 0 <= C / 2) by (unfold C; lra).
  assert (UP : forall t, 0 <= t <= o -> B2R (chord_to_angle fasin d) <= to_edge t + e).
  { intros t T. destruct (ANG t) as [K1 K2]. specialize (ALL t T). rewrite <- K2, DC in ALL. pose proof (cos_gap td (to_edge t) (C / 2) TD K1 ltac:(lra) CP) as G. unfold e, Rdiv in *. lra. }
  split; [|exact UP]. destruct SOME as (t & T & S). exists t. split; [exact T|]. specialize (UP t T). destruct (ANG t) as [K1 K2]. rewrite <- K2, DC in S. pose proof (cos_gap (to_edge t) td (C / 2) K1 TD ltac:(lra) CP) as G. apply Rabs_le. unfold e, Rdiv in *. lra.
Qed.
Print Assumptions C135_distance_partial.

(* an edge of an octant, with a point nearest to its inside and one nearest to an end *)
Example C135_hyps : accurate_asin cut_asin /\ is_unit ux = true /\ is_unit uy = true /\ 1 / 2 ^ 16 <= sin (angle_between (direction ux) (direction uy)) /\
  fgt (fst (update_min_distance (VectorModel.normalize (Vec (lit 3 0) (lit 4 0) (lit 12 0))) ux uy f0 true)) f1 = true /\
  snd (interior_dist (VectorModel.normalize (Vec (lit 3 0) (lit 4 0) (lit 12 0))) ux uy f0 true) = true /\ snd (interior_dist (VectorModel.normalize (Vec (lit (-3) 0) (lit 4 0) (lit 12 0))) ux uy f0 true) = false.
Proof.
  split; [exact cut_asin_ok|]. assert (UX : is_unit ux = true) by (vm_compute; reflexivity). assert (UY : is_unit uy = true) by (vm_compute; reflexivity). split; [exact UX|]. split; [exact UY|]. split; [|vm_compute; auto].
  destruct (angle_trig _ _ (unit_sphere ux UX) (unit_sphere uy UY)) as (_ & _ & S). cbv zeta in S. rewrite S. clear S. replace (rdot (direction ux) (direction uy)) with 0; [rewrite Rmult_0_l, Rminus_0_r, sqrt_1; lra|].
  unfold rdot, direction, ux, uy. cbn [vx vy vz px3 py3 pz3]. replace (B2R f0) with 0 by reflexivity. unfold Rdiv. rewrite !Rmult_0_l. ring.
Qed.

(** An edge that is a single point. *)
Theorem C135_point_partial : forall fasin x a, accurate_asin fasin -> is_unit x = true -> is_unit a = true ->
  let o := angle_between (direction x) (direction a) in o <= 314 / 100 ->
  let d := distance_from_segment fasin x a a in finite d /\ Rabs (B2R d - o) <= 1 / 2 ^ 19.
Proof.
  intros fasin x a AA UX UA o HO d. assert (I : interior_dist x a a f0 true = (f0, false)).
  { unfold interior_dist. destruct (fge _ (fadd _ _)); [reflexivity|]. cbn [negb andb]. set (c := point_cross a a).
    assert (C : fvec c /\ len (RV c) <= 5 / 2).
    { destruct (len_RV_unit a UA) as (FA & PA & HA & _). destruct (stable_cross a a FA FA HA HA) as [FV EV]. cbv zeta in FV, EV. unfold c, point_cross. cbv zeta. destruct (is_zero _).
      - destruct (len_RV_unit (ortho a) (proj1 (C83_ortho a UA))) as (FO & _ & HO' & _). split; [exact FO|]. apply Rabs_le_inv in HO'. unfold KR in HO'. lra.
      - set (v := cross (vadd a a) (vsub a a)) in *. split; [exact FV|]. assert (N0 : pmul 2 (rcross (RV a) (RV a)) = Pos 0 0 0) by (apply pos_eq; unfold pmul, rcross; cbn [px3 py3 pz3]; ring). rewrite N0 in EV.
        assert (L0 : len (Pos 0 0 0) = 0) by (unfold len, rdot; cbn [px3 py3 pz3]; replace (0 * 0 + 0 * 0 + 0 * 0) with 0 by ring; apply sqrt_0). rewrite L0 in EV. pose proof (len_sub (RV v) (Pos 0 0 0)) as K. rewrite L0 in K. apply Rabs_le_inv in K. pose proof h_tiny as HT. lra. }
    destruct C as [FC LC]. destruct (len_RV_unit x UX) as (FX & PX & HX & _). destruct (len_RV_unit a UA) as (FA & PA & HA & _). unfold KR in *. apply Rabs_le_inv in HX, HA. pose proof h_tiny as HT. pose proof h_pos as HP.
    destruct (cross_rel c x FC FX ltac:(lra) ltac:(lra)) as [FK EK]. set (k := cross c x) in *. pose proof (len_cross (RV c) (RV x)) as LX. pose proof (len_sub (RV k) (rcross (RV c) (RV x))) as LK. apply Rabs_le_inv in LK. pose proof (len_pos (RV c)) as PC.
    assert (M : len (RV c) * len (RV x) <= 5 / 2 * (1001 / 1000)) by (apply Rmult_le_compat; lra). assert (M0 : 0 <= len (RV c) * len (RV x)) by (apply Rmult_le_pos; lra). assert (LK3 : len (RV k) <= 3) by lra.
    destruct (sub_rel a x FA FX ltac:(lra) ltac:(lra)) as [FS ES]. set (s := vsub a x) in *. pose proof (len_psub (RV a) (RV x)) as LP. pose proof (len_sub (RV s) (psub (RV a) (RV x))) as LS. apply Rabs_le_inv in LS. assert (LS3 : len (RV s) <= 3) by lra.
    destruct (dot_rel s k FS FK LS3 LK3) as [FD _]. unfold fge. destruct (fle_R f0 (dot s k) eq_refl FD) as [L|L]; [reflexivity|]. destruct (fle_R (dot s k) f0 FD eq_refl) as [L'|L']; [reflexivity|]. exfalso. lra. }
  unfold d, distance_from_segment, update_min_distance. rewrite I. cbn [negb andb fst]. destruct (norm2_dist x a UX UA) as [FN EN]. destruct (fmin_R _ _ FN FN) as [FM VM]. rewrite Rmin_left in VM by lra.
  set (m := fmin (norm2 (vsub x a)) (norm2 (vsub x a))) in *. rewrite <- VM in EN. destruct (angle_trig _ _ (unit_sphere x UX) (unit_sphere a UA)) as (O & CO & _). cbv zeta in O, CO. fold o in O, CO. rewrite <- CO in EN. apply Rabs_le_inv in EN.
  assert (M0 : 0 <= B2R m) by (rewrite VM; pose proof (norm2_ge (vsub x a) FN); lra).
  assert (C4 : -1 + 1 / 2 ^ 40 <= cos o). { assert (P1 : cos (314 / 100) <= cos o). { pose proof PI_tight. apply cos_decr_1; lra. }
    assert (-1 + 1 / 2 ^ 40 <= cos (314 / 100)); [|lra]. pose proof PI_tight as PT. replace (314 / 100) with (PI - (PI - 314 / 100)) by ring. rewrite cos_minus, cos_PI, sin_PI, Rmult_0_l, Rplus_0_r. pose proof (cos_half (PI - 314 / 100)) as CH. pose proof (PropsTrig.sin_half (PI - 314 / 100)) as SH. specialize (SH ltac:(lra)).
    pose proof (PropsTrig.sin_half ((PI - 314 / 100) / 2)) as S2. specialize (S2 ltac:(lra)). assert (1 / 2 ^ 13 * (1 / 2 ^ 13) <= sin ((PI - 314 / 100) / 2) * sin ((PI - 314 / 100) / 2)) by (apply Rmult_le_compat; lra). lra. }
  destruct (chord_onto (B2R m) ltac:(lra)) as (t & T & CT). destruct (rad_angle fasin m t AA FM (conj T CT)) as [FR ER]. split; [exact FR|]. assert (DC : B2R m = 2 - 2 * cos t) by (rewrite <- CT; unfold chord; rewrite (cos_half t); lra).
  assert (SQ : sqrt (2 * (1 / 2 ^ 43)) = 1 / 2 ^ 21). { replace (2 * (1 / 2 ^ 43)) with (1 / 2 ^ 21 * (1 / 2 ^ 21)) by lra. apply sqrt_square. lra. }
  pose proof (cos_gap t o (1 / 2 ^ 43) T O ltac:(lra) ltac:(lra)) as G1. pose proof (cos_gap o t (1 / 2 ^ 43) O T ltac:(lra) ltac:(lra)) as G2. rewrite SQ in G1, G2. apply Rabs_le_inv in ER. apply Rabs_le. lra.
Qed.
Example C135_point_hyps : angle_between (direction ux) (direction uy) <= 314 / 100 /\ interior_dist ux uy uy f0 true = (f0, false).
Proof.
  assert (UX : is_unit ux = true) by (vm_compute; reflexivity). assert (UY : is_unit uy = true) by (vm_compute; reflexivity). split; [|vm_compute; reflexivity].
  destruct (angle_trig _ _ (unit_sphere ux UX) (unit_sphere uy UY)) as (O & C & _). cbv zeta in O, C. pose proof PI_tight as PT. apply Rnot_lt_le. intros L. assert (R0 : rdot (direction ux) (direction uy) = 0). { unfold rdot, direction, ux, uy. cbn [vx vy vz px3 py3 pz3]. replace (B2R f0) with 0 by reflexivity. unfold Rdiv. rewrite !Rmult_0_l. ring. }
  rewrite R0 in C. pose proof (cos_lt_0 (angle_between (direction ux) (direction uy)) ltac:(lra) ltac:(lra)). lra.
Qed.
Print Assumptions C135_point_partial.

(** The wrong answers: the point opposite to an edge that is a single point has no distance
    from it, and the point opposite to a very short edge has the distance 0. *)
Definition asin_nan (fasin : f64 -> f64) : Prop := forall x, finite x -> 1 < B2R x -> fasin x = B754_nan.
Definition opp (v : vec) : vec := Vec (fneg (vx v)) (fneg (vy v)) (fneg (vz v)).
Theorem C135_nan_refuted : exists a, is_unit a = true /\ is_unit (opp a) = true /\ forall fasin, asin_nan fasin -> distance_from_segment fasin (opp a) a a = B754_nan.
Proof.
  exists (VectorModel.normalize (Vec f0 (lit 3 0) (lit 11 0))). split; [vm_compute; reflexivity|]. split; [vm_compute; reflexivity|]. intros fasin H.
  unfold distance_from_segment. set (m := fst _). assert (N : flt m f0 = false /\ is_infinite m = false /\ is_finite (fmul fhalf (fsqrt m)) = true /\ flt f1 (fmul fhalf (fsqrt m)) = true) by (vm_compute; auto). destruct N as (N1 & N2 & N3 & N4). generalize dependent m. intros m N1 N2 N3 N4.
  unfold chord_to_angle. rewrite N1, N2. rewrite H; [reflexivity|exact N3|]. destruct f1_val as [F1 V1]. destruct (flt_R f1 _ F1 N3) as [L|]; [lra|discriminate].
Qed.
Definition capped_asin (x : f64) : f64 := if flt f1 x then B754_nan else cut_asin x.
Example C135_nan_hyps : asin_nan capped_asin /\ accurate_asin capped_asin.
Proof.
  destruct f1_val as [F1 V1]. split; intros x F B; unfold capped_asin.
  - destruct (flt_R f1 x F1 F) as [L|L]; [reflexivity|exfalso; lra].
  - destruct (flt_R f1 x F1 F) as [L|L]; [exfalso; lra|]. apply cut_asin_ok; assumption.
Qed.
Print Assumptions C135_nan_refuted.

Theorem C135_short_refuted : exists a b, is_unit a = true /\ is_unit b = true /\ is_unit (opp a) = true /\
  (forall t, 0 <= t <= angle_between (direction a) (direction b) -> 314 / 100 <= angle_between (direction (opp a)) (along (direction a) (direction b) t)) /\
  forall fasin, accurate_asin fasin -> let d := distance_from_segment fasin (opp a) a b in finite d /\ Rabs (B2R d) <= 3 / 2 ^ 24.
Proof.
  set (a := VectorModel.normalize (Vec (lit 8 0) (lit 9 0) (lit 4 0))). set (b := VectorModel.normalize a). exists a, b.
  assert (UA : is_unit a = true) by (vm_compute; reflexivity). assert (UB : is_unit b = true) by (vm_compute; reflexivity). assert (UO : is_unit (opp a) = true) by (vm_compute; reflexivity). split; [exact UA|]. split; [exact UB|]. split; [exact UO|]. split.
  - pose proof (unit_sphere a UA) as SA. pose proof (unit_sphere b UB) as SB. assert (DO : direction (opp a) = pmul (-1) (direction a)).
    { assert (Q : sqn (opp a) = sqn a). { unfold sqn, opp. cbn [vx vy vz]. unfold fneg; rewrite !B2R_Bopp. ring. } unfold direction. fold (sqn (opp a)) (sqn a). rewrite Q. apply pos_eq; unfold opp, pmul; cbn [px3 py3 pz3 vx vy vz]; unfold fneg; rewrite B2R_Bopp; unfold Rdiv; ring. }
    assert (CH : flt (chordangle a b) (lit 1 (-90)) = true /\ is_finite (chordangle a b) = true) by (vm_compute; auto). pose proof (chordangle_near a b UA UB) as N. cbv zeta in N. destruct CH as [CH CF]. destruct (lit_val 1 (-90) ltac:(lia) ltac:(lia)) as [F9 V9]. set (c := chordangle a b) in *. clearbody c a b.
    destruct (flt_R c (lit 1 (-90)) CF F9) as [L|]; [|discriminate]. rewrite V9 in L. change (bpow radix2 (-90)) with (/ 1237940039285380274899124224) in L.
    destruct (angle_trig _ _ SA SB) as (O & CO & SO). cbv zeta in O, CO, SO. set (o := angle_between (direction a) (direction b)) in *. set (A := direction a) in *. set (B := direction b) in *. destruct N as (N0 & _ & N2).
    assert (D : dist2 A B <= 1 / 2 ^ 40). { unfold KC in N2. destruct (Rle_dec 0 (B2R c)); lra. }
    rewrite dist2_dot in D by assumption. pose proof PI_tight as PT. assert (SQ : sqrt (2 * (1 / 2 ^ 41)) = 1 / 2 ^ 20). { replace (2 * (1 / 2 ^ 41)) with (1 / 2 ^ 20 * (1 / 2 ^ 20)) by lra. apply sqrt_square. lra. }
    assert (OS : o <= 1 / 2 ^ 19). { pose proof (cos_gap o 0 (1 / 2 ^ 41) O ltac:(lra) ltac:(rewrite cos_0, CO; lra) ltac:(lra)) as G. rewrite SQ in G. lra. }
    intros t T. assert (ST : on_sphere (along A B t)).
    { destruct (Req_dec o 0) as [E|E]; [replace t with 0 by lra; rewrite along_start; exact SA|]. assert (S0 : 0 < sin o) by (apply sin_gt_0; lra). destruct (edge_frame A B A SA SB SA S0) as (K & _). apply K. }
    destruct (angle_trig (pmul (-1) A) (along A B t)) as (W & CW & _); [rewrite <- DO; exact (unit_sphere (opp a) UO)|exact ST|]. cbv zeta in W, CW. rewrite DO. set (w := angle_between (pmul (-1) A) (along A B t)) in *.
    assert (E : rdot (pmul (-1) A) (along A B t) = - cos t).
    { assert (HH : rdot A (heading A B) = 0). { unfold heading. cbv zeta. change (dot3 A B) with (rdot A B). set (r := length3 _). unfold rdot at 1. cbn [px3 py3 pz3]. transitivity ((rdot A B - rdot A B * rdot A A) * / r); [unfold rdot, Rdiv; ring|]. rewrite (proj1 (sphere_len A) SA). ring. }
      transitivity (- (cos t * rdot A A + sin t * rdot A (heading A B))); [unfold along, rdot, pmul; cbn [px3 py3 pz3]; ring|]. rewrite HH, (proj1 (sphere_len A) SA). ring. }
    rewrite E in CW. assert (w = PI - t); [|lra]. apply cos_inj; [lra|lra|]. rewrite CW, cos_minus, cos_PI, sin_PI. ring.
  - intros fasin AC. assert (Q : is_finite (fst (update_min_distance (opp a) a b f0 true)) = true /\ feq (fst (update_min_distance (opp a) a b f0 true)) f0 = true) by (vm_compute; auto). cbv zeta. unfold distance_from_segment. set (m := fst (update_min_distance (opp a) a b f0 true)) in *. clearbody m. destruct Q as [F Q].
    pose proof (feq_B2R m f0 F eq_refl Q) as V. replace (B2R f0) with 0 in V by reflexivity. pose proof PI_RGT_0 as PP. destruct (rad_angle fasin m 0 AC F) as [FR ER].
    { split; [lra|]. rewrite V. unfold chord. replace (0 / 2) with 0 by field. rewrite sin_0. ring. } split; [exact FR|]. rewrite Rminus_0_r in ER. exact ER.
Qed.
Print Assumptions C135_short_refuted.
