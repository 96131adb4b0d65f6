(** C55, C74-C80: chord angles and caps. *)
From Coq Require Import Reals Lra Lia Psatz Bool.
From Flocq Require Import Core Mult_error.
From Verif Require Import Base F64 F64Facts IntervalSpec F64Arith F64Error F64Neg S1Proofs R1Proofs VectorModel StuvModel
  PredicatesFloat PredicatesSound StuvError CapSpec CapModel ChordProofs CapProofs CapError.
Open Scope R_scope.

(** ** C55: adding a point to a cap, overlap of caps. *)
Theorem C55_add_point : forall c p,
  (finite (vx p) -> finite (vy p) -> finite (vz p) -> cap_contains_point (cap_add_point c p) p = true) /\
  (forall q, cap_contains_point c q = true -> cap_contains_point (cap_add_point c p) q = true).
Proof.
  intros c p. split; [intros; apply add_point_contains; repeat split; auto|]. intros q. apply add_point_keeps.
Qed.
Definition p_y : vec := Vec f0 f1 f0.
Example C55_example : cap_contains_point (Cap CENTER_POINT f1) p_y = false /\ cap_contains_point (cap_add_point (Cap CENTER_POINT f1) p_y) p_y = true /\
  cap_contains_point (Cap CENTER_POINT f1) CENTER_POINT = true.
Proof. repeat split; vm_compute; reflexivity. Qed.
Print Assumptions C55_add_point.

(* the full cap meets no cap at all, not even itself *)
Theorem C55_full_intersects_refuted :
  (forall o, cap_intersects cap_full o = false) /\
  cap_is_valid cap_full = true /\ cap_is_full cap_full = true /\ cap_is_empty cap_full = false /\ cap_intersects cap_full cap_full = false.
Proof. split; [reflexivity|]. repeat split; vm_compute; reflexivity. Qed.
Print Assumptions C55_full_intersects_refuted.

(* the empty cap, as the receiver, meets caps of positive radius: the square root of a
   negative number is NaN, and min(4, NaN) is 4 *)
Theorem C55_empty_intersects_refuted : exists o,
  cap_is_valid o = true /\ cap_is_empty o = false /\ cap_is_empty cap_empty = true /\ cap_intersects cap_empty o = true.
Proof. exists (Cap p_y f1). repeat split; vm_compute; reflexivity. Qed.
Print Assumptions C55_empty_intersects_refuted.

(* what holds: no cap meets an empty cap given as the argument, the empty cap does not
   meet a cap of radius 0, and a cap that is neither empty nor full meets every full cap *)
Theorem C55_intersects_partial :
  (forall c o, cap_is_empty o = true -> cap_intersects c o = false) /\
  (forall p, cap_intersects cap_empty (cap_from_point p) = false) /\
  (forall c o, cap_is_valid c = true -> cap_is_empty c = false -> cap_is_full c = false -> cap_is_full o = true -> cap_intersects c o = true).
Proof.
  split; [|split].
  - intros c o E. unfold cap_intersects. rewrite E, orb_true_r. reflexivity.
  - intros p. unfold cap_intersects, cap_from_point. cbn [center radius]. change (cap_is_full cap_empty || cap_is_empty (Cap p f0))%bool with false.
    cbv iota. destruct (chordangle_range (center cap_empty) p) as [G B]. change (chord_add (radius cap_empty) f0) with NEGATIVE. unfold fge.
    destruct (fle_R _ NEGATIVE G eq_refl) as [L|L]; [|reflexivity]. exfalso. unfold NEGATIVE in L. destruct f1_val as [F1 V1].
    destruct (fneg_val f1 F1) as [_ V]. rewrite V, V1 in L. lra.
  - intros c o V E NF FO. unfold cap_intersects. rewrite NF. destruct c4_val as [F4 V4].
    assert (Fo : finite (radius o)).
    { unfold cap_is_full, STRAIGHT in FO. unfold finite. destruct (radius o) as [s|[]| |s m e H]; try reflexivity; discriminate FO. }
    destruct (full_R o Fo) as [Vo|]; [|discriminate]. destruct (empty_R o Fo) as [|_]; [lra|]. cbn [orb].
    assert (Fc : finite (radius c) /\ 0 <= B2R (radius c) <= 4).
    { unfold cap_is_valid in V. apply andb_true_iff in V as [_ V]. unfold cap_is_empty in E. unfold STRAIGHT in V.
      assert (F : finite (radius c)). { unfold finite. destruct (radius c) as [s|[]| |s m e H]; try reflexivity; try discriminate V; discriminate E. }
      split; [exact F|]. destruct (fle_R _ _ F F4); [|discriminate]. destruct (flt_R (radius c) f0 F eq_refl) as [|N]; [discriminate|]. change (B2R f0) with 0 in N. lra. }
    destruct Fc as [Fc Bc]. destruct (chord_add_err _ _ Fc Fo Bc ltac:(lra)) as (Fs & _ & Vs & _). specialize (Vs ltac:(lra)).
    destruct (chordangle_range (center c) (center o)) as [G B]. unfold fge. destruct (fle_R _ _ G Fs); [reflexivity|lra].
Qed.
Example C55_partial_example : cap_is_valid (Cap p_y f1) = true /\ cap_is_empty (Cap p_y f1) = false /\ cap_is_full (Cap p_y f1) = false /\
  cap_intersects (Cap p_y f1) cap_full = true.
Proof. repeat split; vm_compute; reflexivity. Qed.
Print Assumptions C55_intersects_partial.

(** ** C74: ChordAngle arithmetic agrees with the arithmetic of the angles, for chord
    angles of angles from 0 to a half turn. *)
Theorem C74_add : forall (a b : f64) alpha beta, finite a -> finite b ->
  0 <= alpha <= PI -> 0 <= beta <= PI -> B2R a = chord alpha -> B2R b = chord beta ->
  let sum := chord (Rmin PI (alpha + beta)) in
  finite (chord_add a b) /\ Rabs (B2R (chord_add a b) - sum) <= 8 / 2 ^ 53 * sum + bpow radix2 (-515).
Proof.
  intros a b alpha beta Fa Fb HA HB VA VB. cbv zeta. pose proof (chord_range alpha). pose proof (chord_range beta).
  destruct (chord_add_err a b Fa Fb ltac:(lra) ltac:(lra)) as (F & B & FULL & E). split; [exact F|].
  rewrite <- cs_chord by auto. rewrite <- VA, <- VB. unfold cs. destruct (Rle_dec _ _) as [L|L].
  - specialize (E L). eapply Rle_trans; [exact E|]. apply Rplus_le_compat_r, Rmult_le_compat_r; [|lra]. apply csum_sq; lra.
  - rewrite FULL by lra. rewrite Rminus_eq_0, Rabs_R0. pose proof (bpow_ge_0 radix2 (-515)). lra.
Qed.
Theorem C74_sub : forall (a b : f64) alpha beta, finite a -> finite b ->
  0 <= alpha <= PI -> 0 <= beta <= PI -> B2R a = chord alpha -> B2R b = chord beta ->
  finite (chord_sub a b) /\ 0 <= B2R (chord_sub a b) /\ Rabs (B2R (chord_sub a b) - chord (Rmax 0 (alpha - beta))) <= 48 / 2 ^ 53.
Proof.
  intros a b alpha beta Fa Fb HA HB VA VB. pose proof (chord_range alpha). pose proof (chord_range beta).
  destruct (chord_sub_err a b Fa Fb ltac:(lra) ltac:(lra)) as (F & P & Z0 & E). split; [exact F|]. split; [exact P|].
  destruct (Rle_dec alpha beta) as [L|L].
  - pose proof (chord_incr alpha beta ltac:(lra) L ltac:(lra)). rewrite Z0 by lra. rewrite Rmax_left by lra. rewrite chord_0, Rminus_0_r, Rabs_R0. lra.
  - pose proof (chord_incr beta alpha ltac:(lra) ltac:(lra) ltac:(lra)). specialize (E ltac:(lra)). rewrite Rmax_right by lra.
    rewrite VA, VB, cdiff_chord in E by auto. lra.
Qed.
(* squared sine and cosine *)
Theorem C74_sin2_cos : forall (a : f64) alpha, finite a -> 0 <= alpha <= PI -> B2R a = chord alpha ->
  Rabs (B2R (chord_sin2 a) - sin alpha * sin alpha) <= 3 / 2 ^ 53 * (sin alpha * sin alpha) + bpow radix2 (-1040) /\
  Rabs (B2R (chord_cos a) - cos alpha) <= 2 / 2 ^ 53.
Proof.
  intros a alpha Fa HA VA. pose proof (chord_range alpha) as CR.
  assert (CS : cos alpha = 1 - chord alpha / 2).
  { unfold chord. replace alpha with (2 * (alpha / 2)) at 1 by field. rewrite cos_2a_sin. field. }
  assert (SN : sin alpha * sin alpha = chord alpha * (1 - chord alpha / 4)).
  { pose proof (sin2_cos2 alpha) as S. unfold Rsqr in S. rewrite CS in S. lra. }
  split.
  - rewrite SN. destruct (part_err a a Fa Fa ltac:(lra) ltac:(lra)) as (F & BX & _ & E). cbv zeta in *. unfold chord_sin2. rewrite VA in *.
    eapply Rle_trans; [exact E|]. apply Rplus_le_compat; [apply Rmult_le_compat_r; lra|].
    apply Rle_trans with (bpow radix2 (4 + -1050)); [rewrite bpow_plus; change (bpow radix2 4) with 16; pose proof mu_pos; unfold mu in *; lra|apply bpow_le; lia].
  - rewrite CS. unfold chord_cos. destruct fhalf_val as [Fh Vh]. destruct f1_val as [F1 V1].
    pose proof (fmul_result fhalf a Fh Fa) as R. rewrite Vh, VA in R.
    destruct (result_half _ _ 1 ltac:(lia) R) as (Fm & Vm & Em); [change (pow2 1) with 2; apply Rabs_le; lra|].
    assert (EM : Rabs (B2R (fmul fhalf a) - chord alpha / 2) <= mu).
    { destruct (Rle_dec (pow2 (-1000)) (chord alpha)) as [L|L].
      - replace (chord alpha / 2) with (/ 2 * chord alpha) by field. rewrite Vm.
        assert (RF : rnd (/ 2 * chord alpha) = / 2 * chord alpha).
        { rewrite <- VA in L |- *. apply round_generic; [apply valid_rnd_N|]. rewrite Rmult_comm.
          change (/ 2) with (bpow radix2 (-1)). apply mult_bpow_exact_FLT; [apply (generic_format_B2R 53 1024)|].
          pose proof (mag_ge_bpow radix2 (B2R a) (-999)) as H. rewrite Rabs_pos_eq in H by lra. change (-999 - 1)%Z with (-1000)%Z in H. specialize (H L). lia. }

        rewrite RF, Rminus_eq_0, Rabs_R0. left. apply mu_pos.
      - replace (chord alpha / 2) with (/ 2 * chord alpha) by field. rewrite Vm. eapply Rle_trans; [apply (rnd_err _ (-1000)); [lia|]|].
        + rewrite Rabs_pos_eq by lra. lra.
        + apply bpow_le. lia. }
    pose proof (fsub_result f1 _ F1 Fm) as R2. rewrite V1 in R2. pose proof mu_small. abs_le.
    destruct (result_half _ _ 0 ltac:(lia) R2) as (Fz & _ & Ez).
    { change (pow2 0) with 1. assert (0 <= B2R (fmul fhalf a)). { rewrite Vm. apply rnd_nonneg. lra. }
      assert (B2R (fmul fhalf a) <= 2). { rewrite Vm. destruct f2_val as [_ V2]. apply (rnd_upper f2); [exact V2|lra]. } apply Rabs_le. lra. }
    change (pow2 (0 - 54)) with (/ 18014398509481984) in Ez. abs_le. apply Rabs_le. lra.
Qed.
Example C74_example : exists (a : f64) alpha, finite a /\ 0 <= alpha <= PI /\ B2R a = chord alpha /\ B2R a = 2.
Proof.
  destruct f2_val as [F V]. destruct (chord_onto 2 ltac:(lra)) as (t & Ht & E). exists f2, t. repeat split; try tauto; congruence.
Qed.
Print Assumptions C74_add.
Print Assumptions C74_sub.
Print Assumptions C74_sin2_cos.

(** ** C75: sums of chord angles from 0 to 4 stay from 0 to 4, commute, and 0 is neutral. *)
Theorem C75_add_laws : forall a b : f64, finite a -> finite b -> 0 <= B2R a <= 4 -> 0 <= B2R b <= 4 ->
  feq (chord_add a b) (chord_add b a) = true /\
  finite (chord_add a b) /\ 0 <= B2R (chord_add a b) <= 4 /\
  (B2R b = 0 -> B2R (chord_add a b) = B2R a) /\ (B2R a = 0 -> B2R (chord_add a b) = B2R b) /\
  (4 <= B2R a + B2R b -> B2R (chord_add a b) = 4).
Proof.
  intros a b Fa Fb Ba Bb. destruct (chord_add_err a b Fa Fb Ba Bb) as (F & B & FULL & _). destruct (chord_add_err b a Fb Fa Bb Ba) as (F' & _).
  split; [destruct (feq_R _ _ F F') as [|N]; [reflexivity|]; exfalso; apply N, chord_add_comm; auto|].
  split; [exact F|]. split; [exact B|]. split; [intros Z; rewrite chord_add_zero_r by auto; reflexivity|]. split; [intros Z; apply chord_add_zero_l; auto|exact FULL].
Qed.
Example C75_example : feq (chord_add f1 f2) (chord_add f2 f1) = true /\ flt f2 (chord_add f1 f2) = true /\ flt (chord_add f1 f2) c4 = true.
Proof. repeat split; vm_compute; reflexivity. Qed.
Print Assumptions C75_add_laws.

(** ** C76: points of caps. *)
Theorem C76_points :
  (forall c p, cap_is_full c = true -> cap_contains_point c p = true) /\
  (forall c p, cap_is_empty c = true -> cap_contains_point c p = false) /\
  (forall c p, cap_is_empty c = true -> cap_interior_contains_point c p = false) /\
  (forall c, is_unit (center c) = true -> finite (radius c) -> cap_is_empty c = false -> cap_contains_point c (center c) = true) /\
  (forall c p, cap_interior_contains_point c p = true -> cap_contains_point c p = true).
Proof.
  assert (INT : forall c p, cap_interior_contains_point c p = true -> cap_contains_point c p = true).
  { intros c p H. unfold cap_interior_contains_point in H. apply orb_true_iff in H as [H|H]; [apply full_all_points, H|].
    unfold cap_contains_point. destruct (chordangle_range (center c) p) as [G _]. pose proof (finite_number _ G) as N.
    destruct (is_nan (radius c)) eqn:N2; [destruct (chordangle (center c) p), (radius c); discriminate|].
    rewrite flt_rank in H by auto. rewrite fle_rank by auto. lia. }
  split; [exact full_all_points|]. split; [exact empty_no_point|]. split; [|split; [|exact INT]].
  - intros c p E. destruct (cap_interior_contains_point c p) eqn:H; [|reflexivity]. apply INT in H. rewrite empty_no_point in H by auto. discriminate.
  - intros c U F E. apply contains_center; auto; [apply unit_bound, U|]. destruct (empty_R c F); [discriminate|auto].
Qed.
Example C76_example : cap_is_full cap_full = true /\ cap_is_empty cap_empty = true /\ is_unit (center cap_full) = true /\
  cap_interior_contains_point (Cap CENTER_POINT f1) CENTER_POINT = true.
Proof. repeat split; vm_compute; reflexivity. Qed.
Print Assumptions C76_points.

(** ** C77: the sum of two valid caps contains both. *)
Definition valid_cap (c : cap) : Prop := cap_is_valid c = true /\ finite (radius c).
Lemma valid_cap_facts c : valid_cap c -> is_unit (center c) = true /\ fvec (center c) /\ finite (radius c) /\ B2R (radius c) <= 4.
Proof.
  intros [V F]. unfold cap_is_valid in V. apply andb_true_iff in V as [U V]. destruct c4_val as [F4 V4]. unfold STRAIGHT in V.
  destruct (fle_R _ _ F F4); [|discriminate]. split; [exact U|]. split; [apply unit_bound, U|]. split; [exact F|lra].
Qed.
Theorem C77_add_cap : forall a b, valid_cap a -> valid_cap b ->
  cap_contains (cap_add a b) b = true /\ cap_contains (cap_add a b) a = true /\
  (forall q, cap_contains_point a q = true -> cap_contains_point (cap_add a b) q = true).
Proof.
  intros a b A B. destruct (valid_cap_facts a A) as (_ & Fa & Ga & Ra). destruct (valid_cap_facts b B) as (_ & Fb & Gb & Rb).
  split; [apply add_contains_other; auto|]. split; [apply add_contains_self; auto|]. intros q. apply add_keeps; auto.
Qed.
Example C77_example : valid_cap (Cap CENTER_POINT f1) /\ valid_cap (Cap p_y fhalf) /\
  cap_contains (Cap CENTER_POINT f1) (Cap p_y fhalf) = false /\ cap_is_full (cap_add (Cap CENTER_POINT f1) (Cap p_y fhalf)) = false.
Proof. repeat split; vm_compute; reflexivity. Qed.
Print Assumptions C77_add_cap.

(** ** C78: the answers of caps against the real unit sphere.  A valid cap stands for
    the directions within its radius of the direction of its centre. *)
Definition angle_of (r : f64) (t : R) : Prop := 0 <= t <= PI /\ chord t = B2R r.

Theorem C78_contains_point : forall c p, valid_cap c -> is_unit p = true ->
  (cap_contains_point c p = true -> dist2 (direction (center c)) (direction p) <= B2R (radius c) + 1 / 2 ^ 41) /\
  (cap_contains_point c p = false -> B2R (radius c) < dist2 (direction (center c)) (direction p) + 1 / 2 ^ 41).
Proof.
  intros c p V U. destruct (valid_cap_facts c V) as (Uc & _ & Fr & Br). destruct (chordangle_near _ _ Uc U) as (D & A & B).
  destruct (chordangle_range (center c) p) as [G C]. unfold KC in *. unfold cap_contains_point.
  destruct (fle_R _ _ G Fr) as [L|L]; split; intros E; try discriminate; lra.
Qed.

(* every point of a contained cap is in the cap, up to 2^-40 *)
Theorem C78_contains : forall c o, valid_cap c -> valid_cap o -> cap_contains c o = true ->
  forall d, in_disc (center o) (B2R (radius o)) d -> in_disc (center c) (B2R (radius c) + 1 / 2 ^ 40) d.
Proof.
  intros c o V W H d [Sd Hd]. destruct (valid_cap_facts c V) as (Uc & _ & Fc & Bc). destruct (valid_cap_facts o W) as (Uo & _ & Fo & Bo).
  pose proof (unit_sphere _ Uc) as Sc. pose proof (unit_sphere _ Uo) as So. split; [exact Sd|].
  pose proof (dist2_range _ _ Sc Sd) as R1. pose proof (dist2_range _ _ So Sd) as R2.
  unfold cap_contains in H. destruct (full_R c Fc) as [E|E]; [lra|]. destruct (empty_R o Fo) as [N|N]; [lra|]. cbn [orb] in H. unfold fge in H.
  destruct (chordangle_range (center c) (center o)) as [G C].
  destruct (chord_add_cs _ _ G Fo C ltac:(lra)) as (Fs & Bs & Es). destruct (fle_R _ _ Fs Fc) as [L|]; [|discriminate].
  pose proof (cs_near _ _ (B2R (radius o)) Uc Uo ltac:(lra)) as CN.
  pose proof (sphere_triangle_cs _ _ d (B2R (radius o)) Sc So Sd ltac:(lra)) as T.
  change (pow2 (-47)) with (/ 140737488355328) in Es. abs_le. lra.
Qed.
(* and conversely: the answer false is only given when the angles say so, up to 2^-40 *)
Theorem C78_not_contains : forall c o beta gamma, valid_cap c -> valid_cap o -> angle_of (radius o) beta ->
  0 <= gamma <= PI -> dist2 (direction (center c)) (direction (center o)) = chord gamma ->
  cap_contains c o = false -> B2R (radius c) < chord (Rmin PI (gamma + beta)) + 1 / 2 ^ 40.
Proof.
  intros c o beta gamma V W [HB EB] HG EG H. destruct (valid_cap_facts c V) as (Uc & _ & Fc & Bc). destruct (valid_cap_facts o W) as (Uo & _ & Fo & Bo).
  pose proof (chord_range beta). unfold cap_contains in H. destruct (cap_is_full c); [discriminate|]. destruct (cap_is_empty o); [discriminate|]. cbn [orb] in H. unfold fge in H.
  destruct (chordangle_range (center c) (center o)) as [G C].
  destruct (chord_add_cs _ _ G Fo C ltac:(lra)) as (Fs & Bs & Es). destruct (fle_R _ _ Fs Fc) as [|L]; [discriminate|].
  pose proof (cs_near _ _ (B2R (radius o)) Uc Uo ltac:(lra)) as CN. rewrite <- cs_chord by auto. rewrite <- EG, EB.
  change (pow2 (-47)) with (/ 140737488355328) in Es. abs_le. lra.
Qed.
(* caps that are neither full nor empty meet when their centres are no farther apart than
   the sum of the radii, up to 2^-40 *)
Theorem C78_intersects : forall c o alpha beta, valid_cap c -> valid_cap o -> cap_is_full c = false ->
  angle_of (radius c) alpha -> angle_of (radius o) beta ->
  (cap_intersects c o = true -> dist2 (direction (center c)) (direction (center o)) <= chord (Rmin PI (alpha + beta)) + 1 / 2 ^ 40) /\
  (cap_intersects c o = false -> chord (Rmin PI (alpha + beta)) < dist2 (direction (center c)) (direction (center o)) + 1 / 2 ^ 40).
Proof.
  intros c o alpha beta V W NF [HA EA] [HB EB]. destruct (valid_cap_facts c V) as (Uc & _ & Fc & Bc). destruct (valid_cap_facts o W) as (Uo & _ & Fo & Bo).
  pose proof (chord_range alpha). pose proof (chord_range beta). unfold cap_intersects. rewrite NF. destruct (empty_R o Fo) as [N|N]; [lra|]. cbn [orb]. unfold fge.
  destruct (chordangle_range (center c) (center o)) as [G C]. destruct (chordangle_near _ _ Uc Uo) as (D & A & B).
  destruct (chord_add_cs _ _ Fc Fo ltac:(lra) ltac:(lra)) as (Fs & Bs & Es). rewrite <- EA, <- EB, cs_chord in Es by auto.
  change (pow2 (-47)) with (/ 140737488355328) in Es. unfold KC in *. abs_le. destruct (fle_R _ _ G Fs) as [L|L]; split; intros E; try discriminate; lra.
Qed.
(* containment is reflexive, every cap contains the empty ones, full caps contain every cap *)
Theorem C78_contains_laws :
  (forall c, valid_cap c -> cap_contains c c = true) /\
  (forall c o, cap_is_empty o = true -> cap_contains c o = true) /\
  (forall c o, cap_is_full c = true -> cap_contains c o = true) /\
  (forall c o, cap_is_empty c = true -> valid_cap o -> cap_is_empty o = false -> cap_contains c o = false).
Proof.
  split; [|split; [|split]].
  - intros c V. destruct (valid_cap_facts c V) as (_ & F & G & B). apply contains_refl; auto.
  - intros c o E. unfold cap_contains. rewrite E, orb_true_r. reflexivity.
  - intros c o E. unfold cap_contains. rewrite E. reflexivity.
  - intros c o E W N. destruct (valid_cap_facts o W) as (_ & _ & Fo & Bo). unfold cap_contains. rewrite N.
    assert (NF : cap_is_full c = false).
    { destruct (cap_is_full c) eqn:FF; [|reflexivity]. pose proof (full_all_points c (center c) FF). rewrite empty_no_point in H by auto. discriminate. }
    rewrite NF. cbn [orb]. destruct (empty_R o Fo) as [|P]; [discriminate|].
    destruct (chordangle_range (center c) (center o)) as [G C]. destruct (chord_add_err _ _ G Fo C ltac:(lra)) as (Fs & Bs & _).
    unfold fge. destruct (fle _ (radius c)) eqn:L; [|reflexivity]. exfalso.
    unfold cap_is_empty in E. assert (Nr : is_nan (radius c) = false) by (destruct (radius c); try reflexivity; discriminate E).
    rewrite flt_rank in E by (unfold num; auto). pose proof (finite_number _ Fs) as Ns. rewrite fle_rank in L by (unfold num; auto).
    assert (0 <= rank (chord_add (chordangle (center c) (center o)) (radius o)))%Z.
    { apply (ev_rank f0 _ eq_refl Ns). rewrite (ev_fin _ Fs). change (ev f0) with (Fin 0). cbn [ele]. lra. }
    change (rank f0) with 0%Z in E. lia.
Qed.
Example C78_example : valid_cap (Cap CENTER_POINT f2) /\ valid_cap (Cap CENTER_POINT f1) /\ cap_contains (Cap CENTER_POINT f2) (Cap CENTER_POINT f1) = true /\
  cap_contains (Cap CENTER_POINT f1) (Cap CENTER_POINT f2) = false /\ cap_intersects (Cap CENTER_POINT f1) (Cap p_y f1) = true /\
  cap_intersects (Cap CENTER_POINT fhalf) (Cap p_y fhalf) = false.
Proof. repeat split; vm_compute; reflexivity. Qed.
Print Assumptions C78_contains_point.
Print Assumptions C78_contains.
Print Assumptions C78_not_contains.
Print Assumptions C78_intersects.
Print Assumptions C78_contains_laws.

(** ** C80: complements.  A cap and its complement should cover the sphere; with unit
    points whose length is rounded they do not. *)
Definition p_y_long : vec := Vec f0 (fadd f1 DBL_EPSILON) f0.
Theorem C80_complement_covers_refuted : exists c p, valid_cap c /\ is_unit p = true /\
  cap_contains_point c p = false /\ cap_contains_point (cap_complement c) p = false.
Proof. exists (Cap CENTER_POINT f2), p_y_long. repeat split; vm_compute; reflexivity. Qed.
Print Assumptions C80_complement_covers_refuted.

(* the complement of a valid cap is valid up to the sign of its centre: it has the opposite
   direction and the supplementary radius up to 2^-47 *)
Lemma vscale_neg v : fvec v -> fvec (vscale v (fneg f1)) /\
  B2R (vx (vscale v (fneg f1))) = - B2R (vx v) /\ B2R (vy (vscale v (fneg f1))) = - B2R (vy v) /\ B2R (vz (vscale v (fneg f1))) = - B2R (vz v).
Proof.
  assert (ONE : forall x, finite x -> finite (fmul x (fneg f1)) /\ B2R (fmul x (fneg f1)) = - B2R x).
  { intros x F. destruct f1_val as [F1 V1]. destruct (fneg_val f1 F1) as [Fm Vm]. pose proof (fmul_result x _ F Fm) as R.
    destruct (fneg_val x F) as [Fx Vx]. destruct (result_exact _ _ (fneg x) R) as [A B]; [rewrite Vx, Vm, V1; ring|]. split; [exact A|]. rewrite B, Vm, V1. ring. }
  intros (Fx & Fy & Fz). unfold vscale, fvec. cbn [vx vy vz]. destruct (ONE _ Fx), (ONE _ Fy), (ONE _ Fz). auto 10.
Qed.
Theorem C80_complement_partial : forall c, valid_cap c ->
  (cap_is_full c = true -> cap_is_empty (cap_complement c) = true) /\
  (cap_is_empty c = true -> cap_is_full (cap_complement c) = true) /\
  (cap_is_full c = false -> cap_is_empty c = false ->
     let k := cap_complement c in
     finite (radius k) /\ Rabs (B2R (radius k) - (4 - B2R (radius c))) <= 48 / 2 ^ 53 /\
     (forall d, on_sphere d -> dist2 (direction (center k)) d = 4 - dist2 (direction (center c)) d) /\
     (forall d, on_sphere d -> in_disc (center c) (B2R (radius c)) d \/ in_disc (center k) (B2R (radius k) + 48 / 2 ^ 53) d)).
Proof.
  intros c V. destruct (valid_cap_facts c V) as (U & Fv & Fr & Br). destruct c4_val as [F4 V4]. unfold cap_complement.
  split; [intros ->; vm_compute; reflexivity|]. split.
  { intros E. rewrite E. destruct (cap_is_full c) eqn:FF; [|vm_compute; reflexivity].
    pose proof (full_all_points c (center c) FF). rewrite empty_no_point in H by auto. discriminate. }
  intros -> E. rewrite E. cbv zeta. cbn [radius center]. destruct (empty_R c Fr) as [|P]; [discriminate|]. unfold STRAIGHT.
  destruct (chord_sub_err c4 (radius c) F4 Fr ltac:(lra) ltac:(lra)) as (Fs & _ & _ & Es). rewrite V4 in Es. specialize (Es Br).
  assert (CD : cdiff 4 (B2R (radius c)) = 4 - B2R (radius c)).
  { unfold cdiff. replace (4 * (1 - B2R (radius c) / 4) * (B2R (radius c) * (1 - 4 / 4))) with 0 by field. rewrite sqrt_0. field. }
  rewrite CD in Es. split; [exact Fs|]. split; [lra|].
  assert (DD : forall d, on_sphere d -> dist2 (direction (vscale (center c) (fneg f1))) d = 4 - dist2 (direction (center c)) d).
  { intros d Sd. pose proof (unit_sphere _ U) as Sc. destruct (vscale_neg _ Fv) as (_ & X1 & Y1 & Z1).
    assert (DN : direction (vscale (center c) (fneg f1)) = Pos (- px3 (direction (center c))) (- py3 (direction (center c))) (- pz3 (direction (center c)))).
    { unfold direction. rewrite X1, Y1, Z1. cbn [px3 py3 pz3].
      replace (- B2R (vx (center c)) * - B2R (vx (center c)) + - B2R (vy (center c)) * - B2R (vy (center c)) + - B2R (vz (center c)) * - B2R (vz (center c)))
        with (B2R (vx (center c)) * B2R (vx (center c)) + B2R (vy (center c)) * B2R (vy (center c)) + B2R (vz (center c)) * B2R (vz (center c))) by ring.
      unfold Rdiv. rewrite <- !Ropp_mult_distr_l. reflexivity. }
    rewrite DN. unfold dist2, on_sphere in *. cbn [px3 py3 pz3]. nra. }
  split; [exact DD|]. intros d Sd. destruct (Rle_dec (dist2 (direction (center c)) d) (B2R (radius c))) as [L|L]; [left; split; auto|].
  right. split; [exact Sd|]. rewrite DD by exact Sd. abs_le. lra.
Qed.
Example C80_example : valid_cap (Cap CENTER_POINT f1) /\ cap_is_full (Cap CENTER_POINT f1) = false /\ cap_is_empty (Cap CENTER_POINT f1) = false.
Proof. repeat split; vm_compute; reflexivity. Qed.
Print Assumptions C80_complement_partial.

(** ** C81: max_point_error is documented to bound the error of the squared distance of
    two points whose lengths are within 2 DBL_EPSILON of 1, against the true distance of
    their directions.  It does not: it has no term for the product of the lengths. *)
Definition length3 (v : vec) : R := sqrt (B2R (vx v) * B2R (vx v) + B2R (vy v) * B2R (vy v) + B2R (vz v) * B2R (vz v)).
Definition nearly_unit (v : vec) : Prop := finite (vx v) /\ finite (vy v) /\ finite (vz v) /\ Rabs (length3 v - 1) <= 2 / 2 ^ 52.
Definition one_up : f64 := lit 0x10000000000002 (-52).
Lemma one_up_val : finite one_up /\ B2R one_up = 1 + 2 / 2 ^ 52.
Proof. destruct (lit_val 0x10000000000002 (-52) ltac:(lia) ltac:(lia)) as [F V]. split; [exact F|]. unfold one_up. rewrite V. change (bpow radix2 (-52)) with (/ 4503599627370496). lra. Qed.
Lemma too_far (c m : f64) : is_finite c = true -> is_finite m = true ->
  feq c (lit 0x10000000000004 (-51)) = true -> flt m (lit 6 (-52)) = true -> B2R m < B2R c - 2.
Proof.
  intros G FM C M. destruct (lit_val 0x10000000000004 (-51) ltac:(lia) ltac:(lia)) as [F1 V1]. destruct (lit_val 6 (-52) ltac:(lia) ltac:(lia)) as [F2 V2].
  destruct (feq_R _ _ G F1) as [EC|]; [|discriminate]. destruct (flt_R _ _ FM F2) as [EM|]; [|discriminate].
  rewrite EC, V1. rewrite V2 in EM. change (bpow radix2 (-51)) with (/ 2251799813685248). change (bpow radix2 (-52)) with (/ 4503599627370496) in EM. lra.
Qed.
Theorem C81_max_point_error_refuted : exists p q, nearly_unit p /\ nearly_unit q /\
  B2R (max_point_error (chordangle p q)) < B2R (chordangle p q) - dist2 (direction p) (direction q).
Proof.
  exists (Vec one_up f0 f0), (Vec f0 one_up f0). destruct one_up_val as [F V].
  assert (L : nearly_unit (Vec one_up f0 f0) /\ nearly_unit (Vec f0 one_up f0)).
  { unfold nearly_unit, length3. cbn [vx vy vz]. change (B2R f0) with 0. rewrite V. rewrite !Rmult_0_l, !Rplus_0_r, Rplus_0_l. rewrite sqrt_square by lra.
    repeat split; try exact F; replace (1 + 2 / 2 ^ 52 - 1) with (2 / 2 ^ 52) by ring; rewrite Rabs_pos_eq; lra. }
  split; [apply L|]. split; [apply L|]. clear L.
  assert (D : dist2 (direction (Vec one_up f0 f0)) (direction (Vec f0 one_up f0)) = 2).
  { unfold direction, dist2. cbn [vx vy vz px3 py3 pz3]. change (B2R f0) with 0. rewrite V. rewrite !Rmult_0_l, !Rplus_0_r, Rplus_0_l. rewrite sqrt_square by lra. field. }
  rewrite D.
  apply too_far; vm_compute; reflexivity.
Qed.
Print Assumptions C81_max_point_error_refuted.

(* the error is at most 9 DBL_EPSILON times the distance plus 17 DBL_EPSILON^2 *)
Theorem C81_point_error_partial : forall p q, nearly_unit p -> nearly_unit q ->
  let d := dist2 (direction p) (direction q) in
  Rabs (B2R (chordangle p q) - d) <= 9 / 2 ^ 52 * d + 17 / 2 ^ 104.
Proof.
  assert (VB : forall v, nearly_unit v -> PredicatesStable.vbound v /\ 0 < sqn v /\ Rabs (sqrt (sqn v) - 1) <= 2 / 2 ^ 52).
  { intros v (F1 & F2 & F3 & L). change (length3 v) with (sqrt (sqn v)) in L. pose proof (sqrt_pos (sqn v)) as P. apply Rabs_le_inv in L.
    assert (S : 0 < sqn v). { apply Rnot_le_lt. intros C. rewrite sqrt_neg_0 in L by auto. lra. }
    pose proof (sqrt_sqrt (sqn v) ltac:(lra)) as SS.
    assert (B : sqn v <= 3 / 2 * (3 / 2)). { rewrite <- SS. apply Rmult_le_compat; lra. }
    split; [|split; [exact S|apply Rabs_le; lra]]. unfold PredicatesStable.vbound. split; [split; auto|]. apply sqn_comp; [exact B|lra]. }
  intros p q Hp Hq. cbv zeta. destruct (VB p Hp) as (Vp & Pp & Np). destruct (VB q Hq) as (Vq & Pq & Nq).
  pose proof (dist2_range _ _ (direction_sphere p Pp) (direction_sphere q Pq)) as D.
  destruct (norm2_sub p q Vp Vq) as [F N]. destruct c4_val as [F4 V4].
  unfold chordangle. destruct (fmin_R c4 _ F4 F) as [_ ->]. rewrite V4. rewrite d2_dist in N by auto.
  apply Rabs_le_inv in Np. apply Rabs_le_inv in Nq.
  assert (HT : PredicatesError.h <= bpow radix2 (-200)) by (apply bpow_le; lia).
  change (bpow radix2 (-200)) with (/ 1606938044258990275541962092341162602522202993782792835301376) in HT. pose proof PredicatesError.h_pos as HP.
  set (r := sqrt (sqn p)) in *. set (s := sqrt (sqn q)) in *. set (d := dist2 (direction p) (direction q)) in *.
  assert (DD : 0 <= (r - s) * (r - s) <= 4 / 2 ^ 52 * (4 / 2 ^ 52)).
  { rewrite <- (PredicatesError.sqr_abs (r - s)). pose proof (Rabs_pos (r - s)). assert (Rabs (r - s) <= 4 / 2 ^ 52) by (apply Rabs_le; lra).
    split; [apply Rmult_le_pos; auto|apply Rmult_le_compat; auto]. }
  assert (RS : 1 - 41 / 10 / 2 ^ 52 <= r * s <= 1 + 41 / 10 / 2 ^ 52).
  { split.
    - apply Rle_trans with ((1 - 2 / 2 ^ 52) * (1 - 2 / 2 ^ 52)); [lra|apply Rmult_le_compat; lra].
    - apply Rle_trans with ((1 + 2 / 2 ^ 52) * (1 + 2 / 2 ^ 52)); [apply Rmult_le_compat; lra|lra]. }
  assert (RSD : (1 - 41 / 10 / 2 ^ 52) * d <= r * s * d <= (1 + 41 / 10 / 2 ^ 52) * d) by (split; apply Rmult_le_compat_r; lra).
  set (n := B2R (norm2 (vsub p q))) in *. set (e := (r - s) * (r - s)) in *. set (t := r * s * d) in *.
  clearbody e t. apply Rabs_le. split.
  - unfold Rmin. destruct (Rle_dec 4 n); lra.
  - apply Rle_trans with (n - d); [pose proof (Rmin_r 4 n); lra|]. lra.
Qed.
Example C81_example : nearly_unit CENTER_POINT.
Proof.
  unfold nearly_unit, length3. cbn [CENTER_POINT vx vy vz]. destruct f1_val as [_ V]. rewrite V. change (B2R f0) with 0.
  repeat split. replace (1 * 1 + 0 * 0 + 0 * 0) with (1 * 1) by ring. rewrite sqrt_square by lra. rewrite Rminus_eq_0, Rabs_R0. lra.
Qed.
Print Assumptions C81_point_error_partial.
