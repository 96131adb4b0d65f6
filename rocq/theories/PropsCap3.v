(** C130 to C132: centroids, approximate equality and unions of caps. *)
From Coq Require Import ZArith Reals Lra Lia Psatz Bool List.
From Coquelicot Require Import Coquelicot.
From Flocq Require Import Core.
From Verif Require Import Base Spec F64 F64Facts IntervalSpec F64Arith F64Error F64Neg R1Proofs S1Proofs VectorModel PredicatesFloat PredicatesError PredicatesSound PredicatesProofs NormProofs PropsNorm CapSpec CapModel CapError CapEdgeFloat CapEdgeMain
  AngleModel AngleProofs ExpandProofs CapProofs CircleProofs StuvError ChordProofs PropsCap TrigModel TrigSpec TrigProofs TrigWitness RegionModel RegionSpec PropsRegion PropsCap2 PropsBound2 PropsDist PropsBound3 CrossProofs PointModel PointSpec PropsArea PropsPoint Near.
Open Scope R_scope.

(** ** C130: Cap::centroid *)
(** The centroid is the centre times the integral, over a cap around the pole with the same
    angle, of the coordinate along the axis. *)
Theorem C130_centroid : forall c, valid_cap c -> let m := cap_centroid c in
  (cap_is_empty c = true -> position m = Pos 0 0 0) /\
  (forall alpha, angle_of (radius c) alpha ->
     let k := over (PI / 2 - alpha) (PI / 2) 0 (2 * PI) pz3 in
     Rabs (B2R (vx m) - k * B2R (vx (center c))) <= 1 / 2 ^ 44 /\ Rabs (B2R (vy m) - k * B2R (vy (center c))) <= 1 / 2 ^ 44 /\ Rabs (B2R (vz m) - k * B2R (vz (center c))) <= 1 / 2 ^ 44).
Proof.
  intros c V. cbv zeta. destruct (valid_cap_facts c V) as (U & FC & Fr & Br). split.
  { intros E. unfold cap_centroid. rewrite E. reflexivity. }
  intros alpha HA. pose proof HA as [A0 A1]. destruct (over_centroid (PI / 2 - alpha) (PI / 2) 0 (2 * PI)) as (_ & _ & OZ). cbv zeta in OZ. rewrite OZ. clear OZ. rewrite sin_PI2, sin_shift.
  replace ((2 * PI - 0) / 2) with PI by field. pose proof (chord_range alpha) as CR. rewrite A1 in CR. set (r := B2R (radius c)) in *.
  assert (EC : cos alpha = 1 - r / 2). { rewrite cos_half. unfold chord in A1. lra. }
  assert (E : cap_is_empty c = false). { destruct (empty_R c Fr) as [N|]; [fold r in N; lra|reflexivity]. }
  unfold cap_centroid. rewrite E. set (x := cos alpha) in *. destruct (COS_bound alpha) as [X1 X2]. fold x in X1, X2. pose proof PI_tight as PT. pose proof mu_small as MS.
  (* the area *)
  assert (NA : near (cap_area c) (2 * PI * (1 - x)) (32 * ulp1)).
  { destruct (C115_area c V) as [_ QA]. specialize (QA alpha HA). fold x in QA. split.
    - unfold cap_area. destruct two_pi as [F2 V2]. unfold cap_height. destruct (half_mu (radius c) Fr) as (Fh & Vh & Eh); [apply Rabs_le; fold r; lra|]. fold r in Vh, Eh.
      destruct (fmax_R (fmul fhalf (radius c)) f0 Fh eq_refl) as [Fm Vm]. change (B2R f0) with 0 in Vm. apply Rabs_le_inv in Eh.
      assert (MB : 0 <= B2R (fmax (fmul fhalf (radius c)) f0) <= 21 / 10) by (rewrite Vm; apply Rmax_case_strong; intros; lra).
      destruct (half4 _ _ (fmul_result _ _ F2 Fm)) as [F _]; [|exact F]. rewrite V2. pose proof pi_PI. rewrite Rabs_pos_eq by (apply Rmult_le_pos; lra). apply Rle_trans with (64 / 10 * (21 / 10)); [apply Rmult_le_compat; lra|lra].
    - eapply Rle_trans; [exact QA|]. assert (P1 : pow2 (-1000) <= ulp1) by (change ulp1 with (pow2 (-52)); apply bpow_le; lia). assert (2 * PI * (1 - x) <= 64 / 10 * 2) by (apply Rmult_le_compat; lra). lra. }
  (* the distance from the origin *)
  assert (NR : near (fsub f1 (fmul fhalf (cap_height c))) ((1 + x) / 2) (8 * ulp1)).
  { destruct (half_mu (radius c) Fr) as (Fh & _ & Eh); [apply Rabs_le; fold r; lra|]. fold r in Eh. fold (cap_height c) in Fh, Eh. apply Rabs_le_inv in Eh.
    destruct (half_mu (cap_height c) Fh) as (Fh2 & _ & Eh2); [apply Rabs_le; lra|]. apply Rabs_le_inv in Eh2. destruct StuvError.f1_val as [F1 V1].
    assert (N1 : near f1 1 0) by (split; [exact F1|rewrite V1, Rminus_diag_eq, Rabs_R0 by reflexivity; lra]).
    assert (N2 : near (fmul fhalf (cap_height c)) ((1 - x) / 2) ulp1) by (split; [exact Fh2|apply Rabs_le; lra]).
    replace ((1 + x) / 2) with (1 - (1 - x) / 2) by field. eapply near_weak; [apply Near.near_sub; [exact N1|exact N2|]|lra]. rewrite Rabs_pos_eq; lra. }
  assert (AB : Rabs (2 * PI * (1 - x)) <= 126 / 10). { rewrite Rabs_pos_eq by (apply Rmult_le_pos; lra). apply Rle_trans with (2 * PI * 2); [apply Rmult_le_compat_l; lra|lra]. }
  pose proof (near_mul _ _ _ _ _ _ 1 (126 / 10) NR NA ltac:(apply Rabs_le; lra) AB ltac:(lra)) as NM. set (f := fmul (fsub f1 (fmul fhalf (cap_height c))) (cap_area c)) in *.
  replace ((1 + x) / 2 * (2 * PI * (1 - x))) with (PI * (1 * 1 - x * x)) in NM by field.
  set (k := PI * (1 * 1 - x * x)) in *. assert (KB : Rabs k <= 4). { unfold k. assert (X3 : x * x <= 1 * 1) by (apply sq_abs_le; [lra|apply Rabs_le; lra]). pose proof (Rle_0_sqr x) as X4. unfold Rsqr in X4. rewrite Rabs_pos_eq by (apply Rmult_le_pos; lra). apply Rle_trans with (4 * 1); [apply Rmult_le_compat; lra|lra]. }
  assert (K : forall y : f64, finite y -> Rabs (B2R y) <= 3 / 2 -> Rabs (B2R (fmul y f) - k * B2R y) <= 1 / 2 ^ 44).
  { intros y Fy By. rewrite (Rmult_comm k). pose proof (near_mul _ _ _ _ _ _ (3 / 2) 4 (near_val y Fy) NM By KB ltac:(lra)) as [_ Q]. eapply Rle_trans; [exact Q|lra]. }
  destruct (unit_small _ U) as (_ & B1 & B2 & B3). destruct FC as (F1 & F2 & F3). unfold vscale. cbn [vx vy vz]. auto.
Qed.
Print Assumptions C130_centroid.

Example C130_hyps : valid_cap (Cap ux f1) /\ angle_of (radius (Cap ux f1)) (PI / 3) /\ cap_is_empty (Cap ux f1) = false.
Proof.
  split; [split; vm_compute; reflexivity|]. split; [|vm_compute; reflexivity]. cbn [radius]. unfold angle_of. pose proof PI_tight. split; [lra|]. unfold chord. replace (PI / 3 / 2) with (PI / 6) by field. rewrite sin_PI6. destruct StuvError.f1_val as [_ V]. rewrite V. field.
Qed.

(** ** C131: Cap::approx_eq *)
(** Of caps neither empty nor full the result says whether the centres are at most about
    10^-14 apart and the squared radii as well. *)
Lemma eps_val : B2R CAP_EPS = 6338253001141147 * / 633825300114114700748351602688 /\ B2R EPSILON = B2R CAP_EPS.
Proof. split; reflexivity. Qed.
(* a double at most [e] away from a negative one is at most [e] *)
Lemma gap_le (a b e : f64) : finite a -> finite b -> finite e -> B2R a < 0 -> 0 <= B2R e -> fle (fabs (fsub a b)) e = true \/ fle (fabs (fsub b a)) e = true -> B2R b <= B2R e.
Proof.
  intros Fa Fb Fe A E H. apply Rnot_lt_le. intros C.
  assert (K : forall z r, result z r -> B2R b <= Rabs r -> fle (fabs z) e = true -> False).
  { intros z r [(F & V & _)|(s & -> & _)] L Q.
    - destruct (fabs_val z F) as [FA VA]. destruct (fle_R _ e FA Fe) as [M|]; [|discriminate]. rewrite VA, V in M. pose proof (rnd_le _ _ L) as RL. rewrite rnd_fix in RL.
      assert (rnd (Rabs r) = Rabs (rnd r)) by (unfold rnd; apply round_NE_abs; apply FLT_exp_valid; reflexivity). lra.
    - destruct e as [[]|[]| |[] m x B]; discriminate. }
  destruct H as [H|H]; [apply (K _ _ (fsub_result _ _ Fa Fb))|apply (K _ _ (fsub_result _ _ Fb Fa))]; auto; [rewrite Rabs_left1; lra|rewrite Rabs_pos_eq; lra].
Qed.
Theorem C131_approx_eq_partial : forall fatan2 c o, accurate_atan2 fatan2 -> upper_atan2 fatan2 -> valid_cap c -> valid_cap o ->
  let d := angle_between (direction (center c)) (direction (center o)) in let g := Rabs (B2R (radius c) - B2R (radius o)) in
  (0 <= B2R (radius c) < 4 -> 0 <= B2R (radius o) < 4 ->
    (cap_approx_eq fatan2 c o = true -> d <= 18 / 10 ^ 15 /\ g <= 11 / 10 ^ 15) /\
    (d <= 2 / 10 ^ 15 /\ g <= 9 / 10 ^ 15 -> cap_approx_eq fatan2 c o = true)) /\
  (cap_is_empty c = true -> (cap_approx_eq fatan2 c o = true <-> B2R (radius o) <= B2R CAP_EPS)) /\
  (cap_is_empty o = true -> (cap_approx_eq fatan2 c o = true <-> B2R (radius c) <= B2R CAP_EPS)).
Proof.
  intros f c o A UP Vc Vo. cbv zeta. destruct (valid_cap_facts c Vc) as (Uc & _ & Fc & Bc). destruct (valid_cap_facts o Vo) as (Uo & _ & Fo & Bo). destruct eps_val as [EV EE].
  destruct (C118_approx_eq f _ _ A UP Uc Uo) as [P1 P2]. rewrite EE in P1, P2. unfold cap_approx_eq. set (pa := point_approx_eq f (center c) (center o)) in *. clearbody pa. set (d := angle_between (direction (center c)) (direction (center o))) in *. clearbody d. clear EE.
  assert (FE : finite CAP_EPS) by reflexivity. assert (F2E : finite (fsub f2 CAP_EPS) /\ 1 <= B2R (fsub f2 CAP_EPS)).
  { destruct f2_val as [F2 V2]. destruct (half2 _ _ (fsub_result _ _ F2 FE)) as (F & _ & E); [rewrite V2, EV; apply Rabs_le; lra|]. split; [exact F|]. rewrite V2, EV in E. lra. }
  destruct F2E as [F2E V2E]. generalize dependent (fsub f2 CAP_EPS). intros te F2E V2E. generalize dependent CAP_EPS. intros ce EV P1 P2 FE.
  assert (LE : forall x : f64, finite x -> fle x ce = true <-> B2R x <= B2R ce) by (intros x F; destruct (fle_R x ce F FE); split; intros; auto; try discriminate; lra).
  assert (GE : forall x : f64, finite x -> fge x te = true <-> B2R te <= B2R x) by (intros x F; unfold fge; destruct (fle_R te x F2E F); split; intros; auto; try discriminate; lra).
  split; [|split].
  - intros Rc Ro. destruct (empty_R c Fc) as [|_]; [lra|]. destruct (empty_R o Fo) as [|_]; [lra|]. destruct (full_R c Fc) as [|_]; [lra|]. destruct (full_R o Fo) as [|_]; [lra|]. cbn [andb]. rewrite !orb_false_r.
    destruct (half2 _ _ (fsub_result _ _ Fc Fo)) as (FS & _ & ES); [apply Rabs_le; lra|]. destruct (fabs_val _ FS) as [FA VA]. set (s := fsub (radius c) (radius o)) in *. clearbody s. set (r := B2R (radius c) - B2R (radius o)) in *. clearbody r.
    assert (EA : Rabs (Rabs (B2R s) - Rabs r) <= ulp1). { eapply Rle_trans; [apply Rabs_triang_inv2|]. apply Rabs_le. lra. } apply Rabs_le_inv in EA. rewrite andb_true_iff, (LE _ FA), VA. split.
    + intros [H1 H2]. specialize (P1 H1). lra.
    + intros [H1 H2]. split; [|lra]. destruct pa; [reflexivity|]. specialize (P2 eq_refl). lra.
  - intros E. destruct (empty_R c Fc) as [N|]; [|discriminate]. cbn [andb]. destruct (full_R c Fc) as [|_]; [lra|]. cbn [andb]. rewrite orb_false_r. split.
    + rewrite !orb_true_iff, !andb_true_iff. intros [[[[_ H]|H]|[H _]]|[_ H]].
      * apply (gap_le _ _ ce Fc Fo FE); [lra|lra|left; exact H].
      * apply LE; auto.
      * destruct (empty_R o Fo); [lra|discriminate].
      * apply (GE _ Fc) in H. lra.
    + intros H. apply (LE _ Fo) in H. rewrite H, !orb_true_r. reflexivity.
  - intros E. destruct (empty_R o Fo) as [N|]; [|discriminate]. cbn [andb]. destruct (full_R o Fo) as [|_]; [lra|]. cbn [andb]. rewrite orb_false_r. split.
    + rewrite !orb_true_iff, !andb_true_iff. intros [[[[_ H]|[H _]]|H]|[_ H]].
      * apply (gap_le _ _ ce Fo Fc FE); [lra|lra|right; exact H].
      * destruct (empty_R c Fc); [lra|discriminate].
      * apply LE; auto.
      * apply (GE _ Fo) in H. lra.
    + intros H. apply (LE _ Fc) in H. rewrite H, !orb_true_r. reflexivity.
Qed.
Print Assumptions C131_approx_eq_partial.
(** The full cap is compared with a squared radius of 2, that of a hemisphere, not with 4. *)
Theorem C131_approx_eq_refuted : exists c o, valid_cap c /\ valid_cap o /\ cap_is_full c = true /\ B2R (radius o) = 2 /\
  forall fatan2, cap_approx_eq fatan2 c o = true /\ cap_approx_eq fatan2 o c = true.
Proof.
  exists (Cap ux c4), (Cap uy f2). split; [split; vm_compute; reflexivity|]. split; [split; vm_compute; reflexivity|]. split; [vm_compute; reflexivity|]. split; [apply f2_val|]. intros f. unfold cap_approx_eq.
  assert (C1 : cap_is_full (Cap ux c4) && fge (radius (Cap uy f2)) (fsub f2 CAP_EPS) = true) by (vm_compute; reflexivity). rewrite C1, !orb_true_r. auto.
Qed.
Print Assumptions C131_approx_eq_refuted.
Example C131_hyps : accurate_atan2 cut_atan2 /\ upper_atan2 cut_atan2 /\ valid_cap (Cap ux f1) /\ 0 <= B2R (radius (Cap ux f1)) < 4 /\ valid_cap (Cap uy (fneg f1)) /\ cap_is_empty (Cap uy (fneg f1)) = true.
Proof.
  split; [exact cut_atan2_ok|]. split; [exact cut_atan2_upper|]. split; [split; vm_compute; reflexivity|]. split; [cbn [radius]; destruct StuvError.f1_val as [_ ->]; lra|]. split; [split; vm_compute; reflexivity|vm_compute; reflexivity].
Qed.

(** ** C132: Cap::union *)
(* the angle the code computes for a radius *)
Lemma rad_angle fasin (r : f64) t : accurate_asin fasin -> finite r -> angle_of r t -> finite (chord_to_angle fasin r) /\ Rabs (B2R (chord_to_angle fasin r) - t) <= 3 / 2 ^ 24.
Proof.
  intros A F [T C]. pose proof (chord_range t) as CR. rewrite C in CR. destruct (rad_near fasin r A F CR) as (x & X & DX & FR & ER). split; [exact FR|]. pose proof PI_tight as PT.
  destruct (half_pos t T) as [S0 _]. assert (E : sqrt (B2R r) / 2 = sin (t / 2)). { rewrite <- C. unfold chord. replace (4 * (sin (t / 2) * sin (t / 2))) with ((2 * sin (t / 2)) * (2 * sin (t / 2))) by ring. rewrite sqrt_square by lra. field. }
  rewrite E in DX. set (y := sin (t / 2)) in *. assert (Y : 0 <= y <= 1) by (pose proof (SIN_bound (t / 2)); unfold y in *; lra). assert (TA : t = 2 * asin y). { unfold y. rewrite asin_sin by lra. field. }
  assert (G : Rabs (asin x - asin y) <= 1 / 2 ^ 24).
  { apply Rabs_le_inv in DX. assert (Q : forall d e, 0 <= d -> d * d <= 8 * e -> e <= 1 / 2 ^ 51 -> d <= 1 / 2 ^ 24). { intros d e D H L. rewrite <- (Rabs_pos_eq d D). apply sq_le_abs; lra. }
    destruct (Rle_dec x y) as [L|L].
    - destruct (asin_gap x y ltac:(lra) L ltac:(lra)) as (G0 & _ & G2 & _). pose proof (Q _ _ G0 G2 ltac:(lra)). rewrite Rabs_left1 by lra. lra.
    - destruct (asin_gap y x ltac:(lra) ltac:(lra) ltac:(lra)) as (G0 & _ & G2 & _). pose proof (Q _ _ G0 G2 ltac:(lra)). rewrite Rabs_pos_eq by lra. lra. }
  apply Rabs_le_inv in G, ER. apply Rabs_le. lra.
Qed.
Lemma angle_lt r s t t' : angle_of r t -> angle_of s t' -> t < t' -> B2R r < B2R s.
Proof.
  intros [T C] [T' C'] L. rewrite <- C, <- C'. unfold chord. pose proof PI_tight as PT. assert (H : sin (t / 2) < sin (t' / 2)) by (apply sin_increasing_1; lra). destruct (half_pos t T) as [S0 _].
  assert (sin (t / 2) * sin (t / 2) < sin (t' / 2) * sin (t' / 2)) by (apply Rmult_le_0_lt_compat; lra). lra.
Qed.
Lemma empty_neg c : finite (radius c) -> cap_is_empty c = true -> B2R (radius c) < 0.
Proof. intros F E. destruct (empty_R c F); [assumption|discriminate]. Qed.
Lemma nonempty_pos c : finite (radius c) -> cap_is_empty c = false -> 0 <= B2R (radius c).
Proof. intros F E. destruct (empty_R c F); [discriminate|assumption]. Qed.
Lemma angle_sym d e : angle_between d e = angle_between e d.
Proof. unfold angle_between. fold (chd d e) (chd e d). rewrite chd_sym. reflexivity. Qed.
(** An empty cap adds nothing, nothing is added to a full cap, and a cap that lies well inside
    the other adds nothing.  (The angles come out of an asin of a rounded argument, which near
    PI loses half of the digits.) *)
Theorem C132_union_partial : forall fsin fcos fatan2 fasin c o, accurate_atan2 fatan2 -> upper_atan2 fatan2 -> accurate_asin fasin -> valid_cap c -> valid_cap o ->
  let v := cap_union fsin fcos fatan2 fasin c o in
  (cap_is_empty c = true -> cap_is_empty o = true -> cap_is_empty v = true) /\
  (cap_is_empty c = true -> cap_is_empty o = false -> v = o) /\
  (cap_is_empty c = false -> cap_is_empty o = true -> v = c) /\
  (cap_is_full c = true \/ cap_is_full o = true -> cap_is_full v = true) /\
  (forall alpha beta, angle_of (radius c) alpha -> angle_of (radius o) beta ->
     let d := angle_between (direction (center c)) (direction (center o)) in
     (d + beta + 1 / 2 ^ 21 <= alpha -> v = c) /\ (d + alpha + 1 / 2 ^ 21 <= beta -> v = o)).
Proof.
  intros fsin fcos f fasin c o A UP AA Vc Vo. cbv zeta. destruct (valid_cap_facts c Vc) as (Uc & _ & Fc & Bc). destruct (valid_cap_facts o Vo) as (Uo & _ & Fo & Bo). unfold cap_union, fgt.
  split; [|split; [|split; [|split]]].
  - intros E1 E2. destruct (flt (radius o) (radius c)); rewrite ?E1, ?E2, orb_true_r; assumption.
  - intros E1 E2. pose proof (empty_neg c Fc E1). pose proof (nonempty_pos o Fo E2). destruct (flt_R _ _ Fo Fc) as [L|L]; [lra|]. rewrite E1, orb_true_r. reflexivity.
  - intros E1 E2. pose proof (nonempty_pos c Fc E1). pose proof (empty_neg o Fo E2). destruct (flt_R _ _ Fo Fc) as [L|L]; [|lra]. rewrite E2, orb_true_r. reflexivity.
  - intros H. assert (FA : forall x y, finite (radius x) -> finite (radius y) -> B2R (radius x) <= 4 -> B2R (radius y) <= B2R (radius x) -> cap_is_full y = true -> cap_is_full x = true).
    { intros x y Fx Fy B L E. destruct (full_R y Fy) as [Q|]; [|discriminate]. destruct (full_R x Fx) as [|Q']; [reflexivity|]. exfalso. lra. }
    destruct (flt_R _ _ Fo Fc) as [L|L].
    + assert (E : cap_is_full c = true) by (destruct H as [H|H]; [exact H|apply (FA c o); auto; lra]). rewrite E. exact E.
    + assert (E : cap_is_full o = true) by (destruct H as [H|H]; [apply (FA o c); auto; lra|exact H]). rewrite E. exact E.
  - intros al be HA HB. set (d := angle_between (direction (center c)) (direction (center o))).
    assert (K : forall x y a b, finite (radius x) -> finite (radius y) -> is_unit (center x) = true -> is_unit (center y) = true -> angle_of (radius x) a -> angle_of (radius y) b -> angle_between (direction (center x)) (direction (center y)) + b + 1 / 2 ^ 21 <= a ->
      fge (chord_to_angle fasin (radius x)) (fadd (point_distance f (center x) (center y)) (chord_to_angle fasin (radius y))) = true).
    { clear - A UP AA. intros x y a b Fx Fy Ux Uy Ax Ay L. destruct (rad_angle fasin _ a AA Fx Ax) as [FX EX]. destruct (rad_angle fasin _ b AA Fy Ay) as [FY EY]. destruct Ax as [Ax _]. destruct Ay as [Ay _]. pose proof PI_tight as PT.
      destruct (C118_distance f _ _ A UP Ux Uy) as (FD & BD & ED). cbv zeta in *. set (p := point_distance f (center x) (center y)) in *. set (q := chord_to_angle fasin (radius y)) in *. clearbody p q. pose proof pi_PI. apply Rabs_le_inv in EX, EY, ED.
      destruct (half3 _ _ (fadd_result _ _ FD FY)) as (FS & _ & ES); [apply Rabs_le; lra|]. unfold fge. destruct (fle_R _ _ FS FX) as [M|M]; [reflexivity|]. lra. }
    pose proof (unit_sphere _ Uc) as SC. pose proof (unit_sphere _ Uo) as SO. destruct (angle_trig _ _ SC SO) as (O & _). cbv zeta in O. fold d in O. split; intros L.
    + pose proof (angle_lt _ _ _ _ HB HA ltac:(lra)) as LT. destruct (flt_R _ _ Fo Fc) as [_|]; [|lra]. destruct (cap_is_full c || cap_is_empty o); [reflexivity|]. rewrite (K c o al be); auto.
    + pose proof (angle_lt _ _ _ _ HA HB ltac:(lra)) as LT. destruct (flt_R _ _ Fo Fc) as [|_]; [lra|]. destruct (cap_is_full o || cap_is_empty c); [reflexivity|]. rewrite (K o c be al); auto. rewrite angle_sym. exact L.
Qed.
Print Assumptions C132_union_partial.
(** The code takes the angle of the union for its squared chord: a point of the first cap is
    left out, by far. *)
Theorem C132_union_refuted : exists c o p, valid_cap c /\ valid_cap o /\ on_sphere p /\ dist2 (direction (center c)) p <= B2R (radius c) /\
  forall fsin fcos fatan2 fasin, accurate fsin sin -> accurate fcos cos -> accurate_atan2 fatan2 -> upper_atan2 fatan2 -> accurate_asin fasin ->
    let v := cap_union fsin fcos fatan2 fasin c o in valid_cap v /\ B2R (radius v) + 1 / 2 <= dist2 (direction (center v)) p.
Proof.
  pose (c := Cap ux f1). pose (o := Cap uy f1). pose (p := Pos (1 / 2) (- (sqrt 3 / 2)) 0). exists c, o, p. destruct StuvError.f1_val as [F1 V1]. pose proof (sqrt_sqrt 3 ltac:(lra)) as S3.
  assert (DX : direction ux = Pos 1 0 0). { unfold direction, ux. cbn [vx vy vz]. rewrite V1. change (B2R f0) with 0. replace (1 * 1 + 0 * 0 + 0 * 0) with 1 by ring. rewrite sqrt_1. f_equal; field. }
  assert (DY : direction uy = Pos 0 1 0). { unfold direction, uy. cbn [vx vy vz]. rewrite V1. change (B2R f0) with 0. replace (0 * 0 + 1 * 1 + 0 * 0) with 1 by ring. rewrite sqrt_1. f_equal; field. }
  assert (Vc : valid_cap c) by (split; vm_compute; reflexivity). assert (Vo : valid_cap o) by (split; vm_compute; reflexivity). split; [exact Vc|]. split; [exact Vo|].
  split; [unfold on_sphere, p; cbn [px3 py3 pz3]; lra|]. split; [cbn [c center radius]; rewrite DX, V1; unfold dist2, p; cbn [px3 py3 pz3]; lra|].
  intros fsin fcos f fasin AS AC AT UP AA. cbv zeta. unfold cap_union. replace (fgt (radius c) (radius o)) with false by (vm_compute; reflexivity). cbv iota. replace (cap_is_full o || cap_is_empty c) with false by (vm_compute; reflexivity). cbv iota.
  change (radius o) with f1. change (radius c) with f1. change (center c) with ux. change (center o) with uy. assert (Ux : is_unit ux = true) by (vm_compute; reflexivity). assert (Uy : is_unit uy = true) by (vm_compute; reflexivity). pose proof PI_tight as PT.
  assert (A1 : angle_of f1 (PI / 3)) by (apply C130_hyps). destruct (rad_angle fasin f1 _ AA F1 A1) as [FR ER]. destruct (C118_distance f uy ux AT UP Uy Ux) as (FD & BD & ED). cbv zeta in *.
  assert (HP : angle_between (direction uy) (direction ux) = PI / 2).
  { rewrite DX, DY. unfold angle_between. replace (dist2 (Pos 0 1 0) (Pos 1 0 0)) with 2 by (unfold dist2; cbn [px3 py3 pz3]; ring). replace (sqrt 2 / 2) with (sin (PI / 4)) by (rewrite sin_PI4; pose proof (sqrt_sqrt 2 ltac:(lra)); pose proof (sqrt_lt_R0 2 ltac:(lra)); apply (Rmult_eq_reg_r (sqrt 2)); [|lra]; unfold Rdiv; rewrite Rmult_assoc, Rinv_l by lra; lra). rewrite asin_sin by lra. field. }
  rewrite HP in ED. set (d := point_distance f uy ux) in *. set (r := chord_to_angle fasin f1) in *. clearbody d r. clear HP. apply Rabs_le_inv in ER, ED.
  destruct (half3 _ _ (fadd_result _ _ FD FR)) as (FS & _ & ES); [apply Rabs_le; lra|].
  replace (fge r (fadd d r)) with false by (symmetry; unfold fge; destruct (fle_R _ _ FS FR) as [M|M]; [lra|reflexivity]). cbv iota.
  destruct (half3 _ _ (fadd_result _ _ FS FR)) as (FT & _ & ET); [apply Rabs_le; lra|].
  destruct (half3 _ _ (fsub_result _ _ FD FR)) as (FU & _ & EU); [apply Rabs_le; lra|]. destruct (half3 _ _ (fadd_result _ _ FU FR)) as (FW & _ & EW); [apply Rabs_le; lra|].
  destruct (CircleProofs.half_val _ FT) as (FT' & _ & ET'); [apply Rabs_le; lra|]. destruct (CircleProofs.half_val _ FW) as (FW' & _ & EW'); [apply Rabs_le; lra|].
  set (res := fmul fhalf (fadd (fadd d r) r)) in *. set (th := fmul fhalf (fadd (fsub d r) r)) in *. clearbody res th.
  assert (C1 : 1 / 2 ^ 40 <= length3 (cross3 (position ux) (position uy))) by (destruct C127_hyps as (_ & _ & ->); lra).
  destruct (C129_at_distance_partial fsin fcos th ux uy AS AC Ux Uy FW' ltac:(apply Rabs_le; lra) C1) as [UV AV]. cbv zeta in *. set (v := interpolate_at_distance fsin fcos th ux uy) in *. clearbody v.
  assert (HD : heading (Pos 1 0 0) (Pos 0 1 0) = Pos 0 1 0). { unfold heading, dot3. cbn [px3 py3 pz3]. unfold length3, dot3. cbn [px3 py3 pz3]. match goal with |- context [sqrt ?e] => replace e with 1 by ring end. rewrite sqrt_1. f_equal; field. }
  rewrite DX, DY in AV. unfold along in AV. rewrite HD in AV. cbn [px3 py3 pz3] in AV. change (apart (direction v)) with (chd (direction v)) in AV.
  assert (TH : Rabs (B2R th - PI / 4) <= 1 / 10 ^ 6) by (apply Rabs_le; lra). pose proof (sin_lip (B2R th) (PI / 4)) as SL. pose proof (cos_lip (B2R th) (PI / 4)) as CL.
  assert (SP : sin (PI / 4) = cos (PI / 4)) by (rewrite sin_PI4, cos_PI4; reflexivity). pose proof (sin2_cos2 (PI / 4)) as SC. unfold Rsqr in SC. rewrite SP in SL, SC. pose proof (cos_gt_0 (PI / 4) ltac:(lra) ltac:(lra)) as CP. set (w := cos (PI / 4)) in *. clearbody w.
  set (m := Pos w w 0). set (a := Pos (cos (B2R th) * 1 + sin (B2R th) * 0) (cos (B2R th) * 0 + sin (B2R th) * 1) (cos (B2R th) * 0 + sin (B2R th) * 0)) in *.
  assert (AM : chd a m <= 1 / 10 ^ 5).
  { apply chd_le; [lra|]. unfold dist2, a, m. cbn [px3 py3 pz3]. replace (cos (B2R th) * 1 + sin (B2R th) * 0 - w) with (cos (B2R th) - w) by ring. replace (cos (B2R th) * 0 + sin (B2R th) * 1 - w) with (sin (B2R th) - w) by ring. replace (cos (B2R th) * 0 + sin (B2R th) * 0 - 0) with 0 by ring.
    assert (Q1 : (cos (B2R th) - w) * (cos (B2R th) - w) <= 1 / 10 ^ 6 * (1 / 10 ^ 6)) by (apply sq_abs_le; lra). assert (Q2 : (sin (B2R th) - w) * (sin (B2R th) - w) <= 1 / 10 ^ 6 * (1 / 10 ^ 6)) by (apply sq_abs_le; lra). lra. }
  assert (W : 7 / 10 <= w). { apply Rnot_lt_le. intros C. assert (w * w < 7 / 10 * (7 / 10)) by (apply Rmult_le_0_lt_compat; lra). lra. }
  assert (R3 : 173 / 100 <= sqrt 3). { apply Rnot_lt_le. intros C. pose proof (sqrt_pos 3). assert (sqrt 3 * sqrt 3 < 173 / 100 * (173 / 100)) by (apply Rmult_le_0_lt_compat; lra). lra. }
  assert (MP : 1584 / 1000 <= chd m p).
  { unfold chd. rewrite <- (sqrt_square (1584 / 1000)) by lra. apply sqrt_le_1_alt. unfold dist2, m, p. cbn [px3 py3 pz3]. assert (7 / 10 * (73 / 100) <= w * (sqrt 3 - 1)) by (apply Rmult_le_compat; lra). lra. }
  pose proof (chd_tri m a p) as T1. pose proof (chd_tri a (direction v) p) as T2. rewrite (chd_sym m a) in T1. rewrite (chd_sym a (direction v)) in T2. assert (K : 1583 / 1000 <= chd (direction v) p) by lra.
  assert (DD : 2 + 1 / 2 <= dist2 (direction v) p). { pose proof (PropsBound3.dist2_pos (direction v) p) as P. rewrite <- (sqrt_sqrt _ P). fold (chd (direction v) p). apply Rle_trans with (1583 / 1000 * (1583 / 1000)); [lra|apply Rmult_le_compat; lra]. }
  cbn [radius center]. split; [|lra]. split; [|exact FT']. unfold cap_is_valid. cbn [radius center]. rewrite UV. cbn [andb]. unfold STRAIGHT. destruct c4_val as [F4 V4]. destruct (fle_R res c4 FT' F4) as [M|M]; [reflexivity|]. rewrite V4 in M. lra.
Qed.
Print Assumptions C132_union_refuted.
Example C132_hyps : accurate_atan2 cut_atan2 /\ upper_atan2 cut_atan2 /\ accurate_asin cut_asin /\ accurate cut_sin sin /\ accurate cut_cos cos /\
  valid_cap (Cap ux f2) /\ valid_cap (Cap ux f1) /\ angle_of (radius (Cap ux f2)) (PI / 2) /\ angle_of (radius (Cap ux f1)) (PI / 3) /\
  angle_between (direction (center (Cap ux f2))) (direction (center (Cap ux f1))) + PI / 3 + 1 / 2 ^ 21 <= PI / 2.
Proof.
  split; [exact cut_atan2_ok|]. split; [exact cut_atan2_upper|]. split; [exact cut_asin_ok|]. split; [exact cut_sin_ok|]. split; [exact cut_cos_ok|]. split; [split; vm_compute; reflexivity|]. split; [split; vm_compute; reflexivity|]. pose proof PI_tight as PT.
  split; [|split; [apply C130_hyps|]].
  - cbn [radius]. unfold angle_of. split; [lra|]. unfold chord. replace (PI / 2 / 2) with (PI / 4) by field. destruct f2_val as [_ V]. rewrite V, sin_PI4. pose proof (sqrt_sqrt 2 ltac:(lra)) as Q. pose proof (sqrt_lt_R0 2 ltac:(lra)). assert (E : 1 / sqrt 2 * (1 / sqrt 2) = 1 / 2) by (transitivity (1 / (sqrt 2 * sqrt 2)); [field; lra|rewrite Q; reflexivity]). lra.
  - cbn [center]. unfold angle_between. replace (dist2 (direction ux) (direction ux)) with 0 by (unfold dist2; ring). rewrite sqrt_0. replace (0 / 2) with 0 by field. rewrite asin_0. lra.
Qed.
