(** C125, C126: area and centroid of rectangles. *)
From Coq Require Import ZArith Reals Lra Lia Psatz Bool List Classical.
From Coquelicot Require Import Coquelicot.
From Flocq Require Import Core.
From Verif Require Import Base Spec F64 F64Facts IntervalSpec CircleSpec RectSpec F64Arith F64Error F64Neg R1Model R1Proofs S1Model S1Proofs S1Ops VectorModel AngleModel AngleProofs ExpandProofs CircleProofs PropsInterval PropsCircle
  RectModel RectProofs PropsRect PropsRect2 CapSpec CapModel StuvError ChordProofs CapEdgeMain TrigModel TrigSpec TrigProofs TrigWitness BoundModel BoundCell PointModel Near.
Open Scope R_scope.
Notation lat := AngleModel.lat.
Notation lng := AngleModel.lng.

(** ** Integrals over the part of the sphere between two latitudes and two longitudes *)
(* the surface element at latitude [p] is [cos p] *)
Definition over (s n w e : R) (f : CapSpec.pos -> R) : R := RInt (fun p => RInt (fun t => f (sphere_at p t) * cos p) w e) s n.

Ltac rring := match goal with |- @eq _ ?a ?b => change (@eq R a b) end; ring.
Ltac rfield := match goal with |- @eq _ ?a ?b => change (@eq R a b) end; field.
Lemma int_const c w e : RInt (fun _ => c) w e = (e - w) * c.
Proof. rewrite RInt_const. reflexivity. Qed.
Lemma over_area s n w e : over s n w e (fun _ => 1) = (e - w) * (sin n - sin s).
Proof.
  unfold over. rewrite (RInt_ext _ (fun p => (e - w) * cos p)). 2:{ intros p _. rewrite int_const. rring. }
  apply is_RInt_unique. replace ((e - w) * (sin n - sin s)) with (minus ((e - w) * sin n) ((e - w) * sin s)) by (unfold minus, plus, opp; simpl; rring).
  apply (is_RInt_derive (fun p => (e - w) * sin p)).
  - intros p _. auto_derive; [exact I|rring].
  - intros p _. apply (continuous_mult (fun _ => e - w) cos); [apply continuous_const|apply continuity_pt_filterlim, continuity_cos].
Qed.
Lemma int_cos k w e : RInt (fun t => k * cos t) w e = k * (sin e - sin w).
Proof.
  apply is_RInt_unique. replace (k * (sin e - sin w)) with (minus (k * sin e) (k * sin w)) by (unfold minus, plus, opp; simpl; rring).
  apply (is_RInt_derive (fun p => k * sin p)).
  - intros p _. auto_derive; [exact I|rring].
  - intros p _. apply (continuous_mult (fun _ => k) cos); [apply continuous_const|apply continuity_pt_filterlim, continuity_cos].
Qed.
Lemma int_sin k w e : RInt (fun t => k * sin t) w e = k * (cos w - cos e).
Proof.
  apply is_RInt_unique. replace (k * (cos w - cos e)) with (minus (- k * cos e) (- k * cos w)) by (unfold minus, plus, opp; simpl; rring).
  apply (is_RInt_derive (fun p => - k * cos p)).
  - intros p _. auto_derive; [exact I|rring].
  - intros p _. apply (continuous_mult (fun _ => k) sin); [apply continuous_const|apply continuity_pt_filterlim, continuity_sin].
Qed.
Lemma int_cos2 k s n : RInt (fun p => k * (cos p * cos p)) s n = k / 2 * (n - s + sin n * cos n - sin s * cos s).
Proof.
  apply is_RInt_unique. replace (k / 2 * (n - s + sin n * cos n - sin s * cos s)) with (minus (k / 2 * (n + sin n * cos n)) (k / 2 * (s + sin s * cos s))) by (unfold minus, plus, opp; simpl; rring).
  apply (is_RInt_derive (fun p => k / 2 * (p + sin p * cos p))).
  - intros p _. auto_derive; [exact I|]. pose proof (sin2_cos2 p) as Q. unfold Rsqr in Q. replace 1 with (sin p * sin p + cos p * cos p) at 1 by exact Q. rfield.
  - intros p _. apply (continuous_mult (fun _ => k) (fun p => cos p * cos p)); [apply continuous_const|]. apply (continuous_mult cos cos); apply continuity_pt_filterlim, continuity_cos.
Qed.
Lemma int_sincos k s n : RInt (fun p => k * (sin p * cos p)) s n = k / 2 * (sin n * sin n - sin s * sin s).
Proof.
  apply is_RInt_unique. replace (k / 2 * (sin n * sin n - sin s * sin s)) with (minus (k / 2 * (sin n * sin n)) (k / 2 * (sin s * sin s))) by (unfold minus, plus, opp; simpl; rring).
  apply (is_RInt_derive (fun p => k / 2 * (sin p * sin p))).
  - intros p _. auto_derive; [exact I|]. rfield.
  - intros p _. apply (continuous_mult (fun _ => k) (fun p => sin p * cos p)); [apply continuous_const|]. apply (continuous_mult sin cos); apply continuity_pt_filterlim; [apply continuity_sin|apply continuity_cos].
Qed.
Lemma over_centroid s n w e : let m := (w + e) / 2 in let a := (e - w) / 2 in
  over s n w e px3 = cos m * (sin a * (n - s + sin n * cos n - sin s * cos s)) /\
  over s n w e py3 = sin m * (sin a * (n - s + sin n * cos n - sin s * cos s)) /\
  over s n w e pz3 = a * (sin n * sin n - sin s * sin s).
Proof.
  cbv zeta. set (m := (w + e) / 2). set (a := (e - w) / 2). assert (EW : w = m - a /\ e = m + a) by (unfold m, a; split; field). destruct EW as [Ew Ee].
  assert (D1 : sin e - sin w = 2 * (cos m * sin a)) by (rewrite Ew, Ee, sin_plus, sin_minus; ring). assert (D2 : cos w - cos e = 2 * (sin m * sin a)) by (rewrite Ew, Ee, cos_plus, cos_minus; ring).
  unfold over, sphere_at. cbn [px3 py3 pz3]. split; [|split].
  - rewrite (RInt_ext _ (fun p => (2 * (cos m * sin a)) * (cos p * cos p))). { rewrite int_cos2. rfield. }
    intros p _. rewrite (RInt_ext _ (fun t => (cos p * cos p) * cos t)) by (intros; rring). rewrite int_cos, D1. rring.
  - rewrite (RInt_ext _ (fun p => (2 * (sin m * sin a)) * (cos p * cos p))). { rewrite int_cos2. rfield. }
    intros p _. rewrite (RInt_ext _ (fun t => (cos p * cos p) * sin t)) by (intros; rring). rewrite int_sin, D2. rring.
  - rewrite (RInt_ext _ (fun p => (2 * a) * (sin p * cos p))). { rewrite int_sincos. rfield. }
    intros p _. rewrite int_const. unfold a. rfield.
Qed.

(** ** The area *)
Lemma area_parts fsin r : accurate fsin sin -> okz r -> ~ void (zset r) ->
  near (fabs (fsub (fsin (hi1 (rlat r))) (fsin (lo1 (rlat r))))) (sin (B2R (hi1 (rlat r))) - sin (B2R (lo1 (rlat r)))) (16 * ulp1) /\
  0 <= sin (B2R (hi1 (rlat r))) - sin (B2R (lo1 (rlat r))) <= 2.
Proof.
  intros AS V N. destruct (okz_ends r V N) as (FH & B1 & B2 & NV & SL). pose proof V as (FL & _). pose proof pi_PI as PP. pose proof PI_tight as PT.
  set (s := B2R (lo1 (rlat r))) in *. set (n := B2R (hi1 (rlat r))) in *.
  destruct (AS _ FH) as [F1 E1]; [fold n; apply Rabs_le; lra|]. destruct (AS _ FL) as [F2 E2]; [fold s; apply Rabs_le; lra|]. fold n in E1. fold s in E2.
  assert (M : sin s <= sin n) by (apply sin_incr_1; lra). pose proof (SIN_bound s) as S1. pose proof (SIN_bound n) as S2. split; [|lra].
  assert (NB : near (fsub (fsin (hi1 (rlat r))) (fsin (lo1 (rlat r)))) (sin n - sin s) (1 / 2 ^ 50 + 1 / 2 ^ 50 + 4 * ulp1)).
  { apply near_sub; [split; assumption|split; assumption|]. rewrite Rabs_pos_eq by lra. lra. }
  destruct NB as [F E]. destruct (fabs_val _ F) as [F' V']. split; [exact F'|]. rewrite V'.
  eapply Rle_trans; [|eapply Rle_trans; [exact E|lra]]. rewrite <- (Rabs_pos_eq (sin n - sin s)) at 1 by lra. apply Rabs_triang_inv2.
Qed.
(** Up to a few roundings the area of a rectangle is the area of the part of the sphere
    between its latitudes and its longitudes.  The intervals of longitudes that go across the
    180th meridian and have no other double in them are excluded. *)
Theorem C125_rect_area_partial : forall fsin r, accurate fsin sin -> okz r ->
  (void (zset r) -> B2R (rect_area fsin r) = 0) /\
  (~ void (zset r) -> ~ seam (rlng r) ->
     finite (rect_area fsin r) /\ 0 <= B2R (rect_area fsin r) /\
     Rabs (B2R (rect_area fsin r) - over (B2R (lo1 (rlat r))) (B2R (hi1 (rlat r))) (B2R (slo (rlng r))) (B2R (slo (rlng r)) + arc_length (slo (rlng r)) (shi (rlng r))) (fun _ => 1)) <= 1 / 2 ^ 45).
Proof.
  intros fsin r AS V. pose proof (C93_predicates _ _ V V) as (PE & _). split.
  - intros N. unfold rect_area. rewrite (proj2 PE N). apply f0_val.
  - intros N NS. assert (NE : rect_is_empty r = false). { destruct (rect_is_empty r) eqn:E; [elim N; apply PE; reflexivity|reflexivity]. }
    unfold rect_area. rewrite NE, over_area. destruct (area_parts fsin r AS V N) as [ND BD]. destruct (okz_ends r V N) as (FH & B1 & B2 & NV & SL). pose proof (okz_lng r V) as G.
    destruct (C89_len_partial _ G) as [_ LEN]. destruct (LEN NV NS) as (FLn & PL & EL). rewrite tiny_eq in EL. pose proof (span_range _ G (proj1 (not_void _ G) NV)) as SR. change (span (rlng r)) with (arc_length (slo (rlng r)) (shi (rlng r))) in SR. pose proof pi_PI as PP. pose proof PI_tight as PT.
    set (L := arc_length (slo (rlng r)) (shi (rlng r))) in *. set (D := sin (B2R (hi1 (rlat r))) - sin (B2R (lo1 (rlat r)))) in *.
    pose proof (near_mul _ _ _ _ _ _ (63 / 10) 2 (conj FLn EL) ND ltac:(apply Rabs_le; lra) ltac:(apply Rabs_le; lra) ltac:(lra)) as NM.
    destruct NM as [FM EM]. split; [exact FM|]. split.
    + assert (P : 0 <= B2R (fabs (fsub (fsin (hi1 (rlat r))) (fsin (lo1 (rlat r)))))). { destruct ND as [FD _]. set (x := fsub _ _) in *. assert (FX : finite x) by (destruct x; [reflexivity|discriminate FD|discriminate FD|reflexivity]). destruct (fabs_val x FX) as [_ VX]. rewrite VX. apply Rabs_pos. }
      assert (RM := fmul_result _ _ FLn (proj1 ND)). assert (SZ := near_size _ _ _ ND). rewrite (Rabs_pos_eq D) in SZ by lra. rewrite Rabs_pos_eq in SZ by exact P.
      destruct (half4 _ _ RM) as (_ & VM & _). { rewrite Rabs_mult, !Rabs_pos_eq by assumption. apply Rabs_le_inv in EL. apply Rle_trans with (64 / 10 * (21 / 10)); [apply Rmult_le_compat; lra|lra]. }
      rewrite VM. apply (rnd_lower f0); [reflexivity|]. change (B2R f0) with 0. apply Rmult_le_pos; assumption.
    + replace (B2R (slo (rlng r)) + L - B2R (slo (rlng r))) with L by ring. eapply Rle_trans; [exact EM|]. lra.
Qed.
Print Assumptions C125_rect_area_partial.

(** In the excluded case the area comes out negative. *)
Theorem C125_rect_area_refuted :
  ~ (forall fsin r, accurate fsin sin -> okz r -> 0 <= B2R (rect_area fsin r)) /\
  forall fsin r, accurate fsin sin -> okz r -> ~ void (zset r) -> seam (rlng r) ->
    Rabs (B2R (rect_area fsin r) - - (sin (B2R (hi1 (rlat r))) - sin (B2R (lo1 (rlat r))))) <= 1 / 2 ^ 45.
Proof.
  assert (H : forall fsin r, accurate fsin sin -> okz r -> ~ void (zset r) -> seam (rlng r) ->
    Rabs (B2R (rect_area fsin r) - - (sin (B2R (hi1 (rlat r))) - sin (B2R (lo1 (rlat r))))) <= 1 / 2 ^ 45).
  { intros fsin r AS V N S. pose proof (C93_predicates _ _ V V) as (PE & _). assert (NE : rect_is_empty r = false). { destruct (rect_is_empty r) eqn:E; [elim N; apply PE; reflexivity|reflexivity]. }
    unfold rect_area. rewrite NE. destruct (area_parts fsin r AS V N) as [ND BD]. destruct C89_len_refuted as [_ LEN]. destruct (LEN _ (okz_lng r V) S) as [_ EL].
    set (D := sin (B2R (hi1 (rlat r))) - sin (B2R (lo1 (rlat r)))) in *.
    assert (FL : finite (s1_len (rlng r))). { destruct (s1_len (rlng r)); try reflexivity; cbn in EL; lra. }
    assert (NL : near (s1_len (rlng r)) (-1) 0). { split; [exact FL|]. rewrite EL, Rminus_diag_eq, Rabs_R0 by reflexivity. lra. }
    pose proof (near_mul _ _ _ _ _ _ 1 2 NL ND ltac:(apply Rabs_le; lra) ltac:(apply Rabs_le; lra) ltac:(lra)) as [_ E]. replace (-1 * D) with (- D) in E by ring. eapply Rle_trans; [exact E|lra]. }
  split; [|exact H]. intros K. set (r := Rect (R1 f0 f1) (S1 PI64 (lit (-7074237752028439) (-51)))).
  assert (V : okz r) by (apply rect_is_valid_spec; vm_compute; reflexivity). assert (N : ~ void (zset r)) by (intros E; apply (C93_predicates r r V V) in E; vm_compute in E; discriminate).
  assert (S : seam (rlng r)). { unfold seam, r. cbn [rlng slo shi]. split; [exact pi_val|]. destruct (lit_val (-7074237752028439) (-51) ltac:(lia) ltac:(lia)) as [_ VA]. rewrite VA, tiny_eq, pi_num. change (bpow radix2 (-51)) with (/ 2251799813685248). lra. }
  specialize (K cut_sin r cut_sin_ok V). specialize (H cut_sin r cut_sin_ok V N S). unfold r in H at 2 3. cbn [rlat lo1 hi1] in H. change (B2R f0) with 0 in H. rewrite (proj2 f1_val), sin_0 in H.
  assert (S1 : 1 / 2 < sin 1). { rewrite <- sin_PI6. pose proof PI_tight. apply sin_increasing_1; lra. } apply Rabs_le_inv in H. lra.
Qed.
Print Assumptions C125_rect_area_refuted.

(** ** The centroid *)
(** The centroid is the integral of the position over the rectangle, as for an empty
    rectangle, where it is the zero vector. *)
Theorem C126_rect_centroid_partial : forall fsin fcos r, accurate fsin sin -> accurate fcos cos -> okz r ->
  let c := rect_centroid fsin fcos r in
  let whole := over (B2R (lo1 (rlat r))) (B2R (hi1 (rlat r))) (B2R (slo (rlng r))) (B2R (slo (rlng r)) + arc_length (slo (rlng r)) (shi (rlng r))) in
  (void (zset r) -> B2R (vx c) = 0 /\ B2R (vy c) = 0 /\ B2R (vz c) = 0) /\
  (~ void (zset r) -> ~ seam (rlng r) ->
     finite (vx c) /\ finite (vy c) /\ finite (vz c) /\
     Rabs (B2R (vx c) - whole px3) <= 1 / 2 ^ 44 /\ Rabs (B2R (vy c) - whole py3) <= 1 / 2 ^ 44 /\ Rabs (B2R (vz c) - whole pz3) <= 1 / 2 ^ 44).
Proof.
  intros fsin fcos r AS AC V. cbv zeta. pose proof (C93_predicates _ _ V V) as (PE & _). split.
  { intros N. unfold rect_centroid. rewrite (proj2 PE N). cbn [vx vy vz]. repeat split. }
  intros N NS. assert (NE : rect_is_empty r = false). { destruct (rect_is_empty r) eqn:E; [elim N; apply PE; reflexivity|reflexivity]. }
  unfold rect_centroid. rewrite NE. cbv zeta. cbn [vx vy vz].
  destruct (okz_ends r V N) as (FH & B1 & B2 & NV & SL). pose proof (okz_lng r V) as G. pose proof V as (FL & _).
  destruct (C89_len_partial _ G) as [_ LEN]. destruct (LEN NV NS) as (FLn & PL & EL). rewrite tiny_eq in EL. pose proof (span_range _ G (proj1 (not_void _ G) NV)) as SR. change (span (rlng r)) with (arc_length (slo (rlng r)) (shi (rlng r))) in SR. pose proof pi_PI as PP. pose proof PI_tight as PT.
  destruct (C90_center _ G NV) as ((FC & BC) & _ & (k & EK)). rewrite tiny_eq in EK.
  pose proof (proj1 (proj2 (proj2 G))) as BW.
  set (L := arc_length (slo (rlng r)) (shi (rlng r))) in *. set (w := B2R (slo (rlng r))) in *. destruct (over_centroid (B2R (lo1 (rlat r))) (B2R (hi1 (rlat r))) w (w + L)) as (OX & OY & OZ). cbv zeta in OX, OY, OZ. rewrite OX, OY, OZ. clear OX OY OZ.
  replace ((w + (w + L)) / 2) with (w + L / 2) by field. replace ((w + L - w) / 2) with (L / 2) by field.
  set (s := B2R (lo1 (rlat r))) in *. set (n := B2R (hi1 (rlat r))) in *. set (m := w + L / 2) in *. set (c := s1_center (rlng r)) in *. set (l := s1_len (rlng r)) in *.
  assert (NF : forall (f : f64 -> f64) g x, accurate f g -> finite x -> Rabs (B2R x) <= 4 -> near (f x) (g (B2R x)) (4 * ulp1)).
  { intros f g x A F B. destruct (A x F B) as [F' E']. split; [exact F'|lra]. }
  assert (Bs : Rabs s <= 4) by (apply Rabs_le; lra). assert (Bn : Rabs n <= 4) by (apply Rabs_le; lra).
  pose proof (NF fsin sin _ AS FL Bs) as Z1. pose proof (NF fsin sin _ AS FH Bn) as Z2. pose proof (NF fcos cos _ AC FL Bs) as R1. pose proof (NF fcos cos _ AC FH Bn) as R2. fold s n in Z1, Z2, R1, R2.
  assert (SB : forall a, Rabs (sin a) <= 1) by (intros a; apply Rabs_le, SIN_bound). assert (CB : forall a, Rabs (cos a) <= 1) by (intros a; apply Rabs_le, COS_bound).
  (* half the length of the arc *)
  assert (AL : near (fmul fhalf l) (L / 2) (3 * ulp1)). { apply Rabs_le_inv in EL. destruct (CircleProofs.half_val l FLn) as (FA & _ & EA); [apply Rabs_le; lra|]. split; [exact FA|apply Rabs_le; lra]. }
  set (al := fmul fhalf l) in *.
  assert (SA : near (fsin al) (sin (L / 2)) (7 * ulp1)).
  { destruct AL as [FA EA]. assert (BA : Rabs (B2R al) <= 4) by (apply Rabs_le; apply Rabs_le_inv in EA; lra). pose proof (NF fsin sin al AS FA BA) as Q. eapply near_weak; [eapply near_move; [exact Q|eapply Rle_trans; [apply sin_lip|exact EA]]|lra]. }
  (* the centre *)
  assert (CC : near (fcos c) (cos m) (16 * ulp1) /\ near (fsin c) (sin m) (16 * ulp1)).
  { apply Rabs_le_inv in EK. assert (BC4 : Rabs (B2R c) <= 4) by (apply Rabs_le; lra).
    assert (K1 : Rabs (IZR k) < 3). { assert (Q : Rabs (2 * pi * IZR k) <= 13) by (apply Rabs_le; unfold m in *; lra). rewrite Rabs_mult, (Rabs_pos_eq (2 * pi)) in Q by (rewrite pi_num; lra). apply (Rmult_lt_reg_l (2 * pi)); [rewrite pi_num; lra|]. apply Rle_lt_trans with 13; [exact Q|rewrite pi_num; lra]. }
    assert (ED : Rabs (B2R c + 2 * PI * IZR k - m) <= 10 * ulp1).
    { replace (B2R c + 2 * PI * IZR k - m) with ((B2R c + 2 * pi * IZR k - m) + 2 * (PI - pi) * IZR k) by ring. eapply Rle_trans; [apply Rabs_triang|]. apply Rle_trans with (4 * ulp1 + 2 * ulp1 * 3); [|lra]. apply Rplus_le_compat; [apply Rabs_le; lra|]. rewrite Rabs_mult. apply Rmult_le_compat; try apply Rabs_pos; try lra. rewrite Rabs_pos_eq; lra. }
    destruct (turn_cos (B2R c) k) as [TC TS]. split.
    - eapply near_weak; [eapply near_move; [exact (NF fcos cos c AC FC BC4)|rewrite <- TC; eapply Rle_trans; [apply cos_lip|exact ED]]|lra].
    - eapply near_weak; [eapply near_move; [exact (NF fsin sin c AS FC BC4)|rewrite <- TS; eapply Rle_trans; [apply sin_lip|exact ED]]|lra]. }
  destruct CC as [CX CY].
  assert (P2 : near (fmul (fcos (hi1 (rlat r))) (fsin (hi1 (rlat r)))) (cos n * sin n) (13 * ulp1)). { eapply near_weak; [apply (near_mul _ _ _ _ _ _ 1 1 R2 Z2 (CB n) (SB n)); lra|lra]. }
  assert (P1 : near (fmul (fcos (lo1 (rlat r))) (fsin (lo1 (rlat r)))) (cos s * sin s) (13 * ulp1)). { eapply near_weak; [apply (near_mul _ _ _ _ _ _ 1 1 R1 Z1 (CB s) (SB s)); lra|lra]. }
  assert (T : forall a, Rabs (cos a * sin a) <= 1). { intros a. rewrite Rabs_mult. replace 1 with (1 * 1) by ring. apply Rmult_le_compat; try apply Rabs_pos; auto. }
  pose proof (T n) as Tn. pose proof (T s) as Ts. apply Rabs_le_inv in Tn, Ts.
  assert (P3 : near (fsub (fmul (fcos (hi1 (rlat r))) (fsin (hi1 (rlat r)))) (fmul (fcos (lo1 (rlat r))) (fsin (lo1 (rlat r))))) (cos n * sin n - cos s * sin s) (30 * ulp1)).
  { eapply near_weak; [apply near_sub; [exact P2|exact P1|]|lra]. assert (Rabs (cos n * sin n - cos s * sin s) <= 2) by (apply Rabs_le; lra). lra. }
  assert (LL : near (r1_len (rlat r)) (n - s) (4 * ulp1)).
  { unfold r1_len. eapply near_weak; [apply near_sub; [apply near_val, FH|apply near_val, FL|]|lra]. fold n s. rewrite Rabs_pos_eq; lra. }
  set (q := cos n * sin n - cos s * sin s + (n - s)) in *. assert (BQ : Rabs q <= 52 / 10) by (unfold q; apply Rabs_le; lra).
  assert (P4 : near (fadd (fsub (fmul (fcos (hi1 (rlat r))) (fsin (hi1 (rlat r)))) (fmul (fcos (lo1 (rlat r))) (fsin (lo1 (rlat r))))) (r1_len (rlat r))) q (38 * ulp1)).
  { eapply near_weak; [apply near_add; [exact P3|exact LL|]|lra]. fold q. lra. }
  set (kk := fmul (fsin al) _) in *.
  assert (P5 : near kk (sin (L / 2) * q) (80 * ulp1)). { unfold kk. eapply near_weak; [apply (near_mul _ _ _ _ _ _ 1 (52 / 10) SA P4 (SB _) BQ); lra|lra]. }
  assert (B5 : Rabs (sin (L / 2) * q) <= 52 / 10). { rewrite Rabs_mult. replace (52 / 10) with (1 * (52 / 10)) by ring. apply Rmult_le_compat; try apply Rabs_pos; auto. }
  replace (n - s + sin n * cos n - sin s * cos s) with q by (unfold q; ring).
  pose proof (near_mul _ _ _ _ _ _ _ 1 P5 CX B5 (CB m) ltac:(lra)) as [FX EX]. pose proof (near_mul _ _ _ _ _ _ _ 1 P5 CY B5 (SB m) ltac:(lra)) as [FY EY].
  assert (BZ1 : Rabs (sin n + sin s) <= 2) by (apply Rabs_le; pose proof (SIN_bound n); pose proof (SIN_bound s); lra). assert (BZ2 : Rabs (sin n - sin s) <= 2) by (apply Rabs_le; pose proof (SIN_bound n); pose proof (SIN_bound s); lra).
  assert (A1 : near (fadd (fsin (hi1 (rlat r))) (fsin (lo1 (rlat r)))) (sin n + sin s) (12 * ulp1)). { eapply near_weak; [apply near_add; [exact Z2|exact Z1|lra]|lra]. }
  assert (A2 : near (fsub (fsin (hi1 (rlat r))) (fsin (lo1 (rlat r)))) (sin n - sin s) (12 * ulp1)). { eapply near_weak; [apply near_sub; [exact Z2|exact Z1|lra]|lra]. }
  assert (BL : Rabs (L / 2) <= 32 / 10) by (apply Rabs_le; lra).
  assert (A3 : near (fmul al (fadd (fsin (hi1 (rlat r))) (fsin (lo1 (rlat r))))) (L / 2 * (sin n + sin s)) (50 * ulp1)). { eapply near_weak; [apply (near_mul _ _ _ _ _ _ (32 / 10) 2 AL A1 BL BZ1); lra|lra]. }
  assert (B3 : Rabs (L / 2 * (sin n + sin s)) <= 64 / 10). { rewrite Rabs_mult. replace (64 / 10) with (32 / 10 * 2) by field. apply Rmult_le_compat; try apply Rabs_pos; auto. }
  pose proof (near_mul _ _ _ _ _ _ _ 2 A3 A2 B3 BZ2 ltac:(lra)) as [FZ EZ].
  split; [exact FX|]. split; [exact FY|]. split; [exact FZ|].
  replace (cos m * (sin (L / 2) * q)) with (sin (L / 2) * q * cos m) by ring. replace (sin m * (sin (L / 2) * q)) with (sin (L / 2) * q * sin m) by ring. replace (L / 2 * (sin n * sin n - sin s * sin s)) with (L / 2 * (sin n + sin s) * (sin n - sin s)) by ring.
  split; [|split]; (eapply Rle_trans; [eassumption|lra]).
Qed.
Print Assumptions C126_rect_centroid_partial.

(** In the excluded case it comes out far from that integral. *)
Theorem C126_rect_centroid_refuted : ~ (forall fsin fcos r, accurate fsin sin -> accurate fcos cos -> okz r -> ~ void (zset r) ->
  Rabs (B2R (vz (rect_centroid fsin fcos r)) - over (B2R (lo1 (rlat r))) (B2R (hi1 (rlat r))) (B2R (slo (rlng r))) (B2R (slo (rlng r)) + arc_length (slo (rlng r)) (shi (rlng r))) pz3) <= 1 / 16).
Proof.
  intros K. set (r := Rect (R1 f0 f1) (S1 PI64 (lit (-7074237752028439) (-51)))).
  assert (V : okz r) by (apply rect_is_valid_spec; vm_compute; reflexivity). assert (NE : rect_is_empty r = false) by (vm_compute; reflexivity). assert (N : ~ void (zset r)) by (intros E; apply (C93_predicates r r V V) in E; rewrite NE in E; discriminate).
  destruct (lit_val (-7074237752028439) (-51) ltac:(lia) ltac:(lia)) as [_ VA]. change (bpow radix2 (-51)) with (/ 2251799813685248) in VA. pose proof pi_num as PN. destruct f1_val as [F1 V1].
  assert (S : seam (rlng r)) by (unfold seam, r; cbn [rlng slo shi]; split; [exact pi_val|rewrite VA, tiny_eq, PN; lra]).
  destruct C89_len_refuted as [_ LEN]. destruct (LEN _ (okz_lng r V) S) as [_ EL].
  assert (FL : finite (s1_len (rlng r))). { destruct (s1_len (rlng r)); try reflexivity; cbn in EL; lra. }
  specialize (K cut_sin cut_cos r cut_sin_ok cut_cos_ok V N).
  destruct (over_centroid (B2R (lo1 (rlat r))) (B2R (hi1 (rlat r))) (B2R (slo (rlng r))) (B2R (slo (rlng r)) + arc_length (slo (rlng r)) (shi (rlng r)))) as (_ & _ & OZ). cbv zeta in OZ. rewrite OZ in K. clear OZ.
  unfold rect_centroid in K. rewrite NE in K. cbv zeta in K. cbn [vz] in K.
  assert (AL : near (fmul fhalf (s1_len (rlng r))) (- (1 / 2)) ulp1). { destruct (CircleProofs.half_val _ FL) as (FA & _ & EA); [rewrite EL; apply Rabs_le; lra|]. split; [exact FA|apply Rabs_le; lra]. }
  assert (SL : near (cut_sin (lo1 (rlat r))) 0 (4 * ulp1)). { rewrite <- sin_0. change 0 with (B2R (lo1 (rlat r))). destruct (cut_sin_ok (lo1 (rlat r)) eq_refl) as [F E]; [change (B2R (lo1 (rlat r))) with 0; rewrite Rabs_R0; lra|split; [exact F|lra]]. }
  assert (SH : near (cut_sin (hi1 (rlat r))) (sin 1) (4 * ulp1)). { change (hi1 (rlat r)) with f1. destruct (cut_sin_ok f1 F1) as [F E]; [rewrite V1, Rabs_pos_eq; lra|]. rewrite V1 in E. split; [exact F|lra]. }
  set (z := sin 1) in *. assert (ZB : 1 / 2 < z <= 1). { split; [unfold z; rewrite <- sin_PI6; pose proof PI_tight; apply sin_increasing_1; lra|apply SIN_bound]. }
  assert (A1 : near (fadd (cut_sin (hi1 (rlat r))) (cut_sin (lo1 (rlat r)))) (z + 0) (12 * ulp1)). { eapply near_weak; [apply near_add; [exact SH|exact SL|rewrite Rabs_pos_eq; lra]|lra]. }
  assert (A2 : near (fsub (cut_sin (hi1 (rlat r))) (cut_sin (lo1 (rlat r)))) (z - 0) (12 * ulp1)). { eapply near_weak; [apply near_sub; [exact SH|exact SL|rewrite Rabs_pos_eq; lra]|lra]. }
  pose proof (near_mul _ _ _ _ _ _ 1 1 AL A1 ltac:(apply Rabs_le; lra) ltac:(apply Rabs_le; lra) ltac:(lra)) as A3.
  assert (B3 : Rabs (- (1 / 2) * (z + 0)) <= 1) by (apply Rabs_le; lra).
  pose proof (near_mul _ _ _ _ _ _ 1 1 A3 A2 B3 ltac:(apply Rabs_le; lra) ltac:(lra)) as [_ E]. set (x := fmul (fmul _ _) _) in *. clearbody x.
  assert (AR : arc_length (slo (rlng r)) (shi (rlng r)) = 2 * ulp1). { unfold arc_length, arc_end, r. cbn [rlng slo shi]. rewrite pi_val, VA, PN. destruct Rle_dec; lra. }
  rewrite AR in K. set (w := B2R (slo (rlng r))) in *. clearbody w. replace ((w + 2 * ulp1 - w) / 2) with ulp1 in K by field.
  assert (Z2 : 1 / 4 <= z * z <= 1). { split; [replace (1 / 4) with (1 / 2 * (1 / 2)) by field|replace 1 with (1 * 1) by ring]; apply Rmult_le_compat; lra. }
  replace (- (1 / 2) * (z + 0) * (z - 0)) with (- (1 / 2) * (z * z)) in E by ring. change (B2R (lo1 (rlat r))) with 0 in K. change (B2R (hi1 (rlat r))) with (B2R f1) in K. rewrite V1, sin_0 in K. fold z in K.
  apply Rabs_le_inv in K, E. lra.
Qed.
Print Assumptions C126_rect_centroid_refuted.

Example C126_hyps : let r := Rect (R1 f0 f1) (S1 f1 f2) in accurate cut_sin sin /\ accurate cut_cos cos /\ okz r /\ ~ void (zset r) /\ ~ seam (rlng r) /\
  over (B2R f0) (B2R f1) (B2R f1) (B2R f2) (fun _ => 1) = sin 1.
Proof.
  cbv zeta. set (r := Rect (R1 f0 f1) (S1 f1 f2)). assert (V : okz r) by (apply rect_is_valid_spec; vm_compute; reflexivity). assert (N : ~ void (zset r)) by (intros E; apply (C93_predicates r r V V) in E; vm_compute in E; discriminate).
  split; [exact cut_sin_ok|]. split; [exact cut_cos_ok|]. split; [exact V|]. split; [exact N|]. destruct f1_val as [F1 V1]. destruct f2_val as [F2 V2]. pose proof pi_num as PN.
  split; [unfold seam, r; cbn [rlng slo shi]; rewrite V1; lra|]. change (B2R f0) with 0. rewrite V1, V2, over_area, sin_0. ring.
Qed.
