(** Bounding rectangles: angles in the plane, short arcs, computed latitudes and longitudes. *)
From Coq Require Import ZArith Reals Lra Lia Psatz Bool List.
From Flocq Require Import Core.
From Verif Require Import Base F64 F64Facts IntervalSpec CircleSpec RectSpec F64Arith F64Error F64Neg R1Model R1Proofs S1Model S1Proofs S1Ops VectorModel StuvModel AngleModel AngleProofs ExpandProofs CircleProofs PropsInterval PropsCircle
  RectModel RectProofs PropsRect PropsRect2 CapSpec CapModel StuvError ChordProofs CapError
  PredicatesError PredicatesFloat PredicatesSound PredicatesStable PredicatesProofs CapEdgeFloat CapEdgeMain RegionSpec CoverProofs TrigModel TrigSpec TrigProofs TrigWitness PropsTrig PropsCap2 PropsDist
  BoundModel BoundSpec.
Open Scope R_scope.

(** ** Angles in the plane *)
Lemma turn_to a b c e n m al : 0 < n -> 0 < m -> a = n * cos al -> b = n * sin al -> m * m = c * c + e * e -> 0 <= a * e - b * c ->
  exists be, al <= be <= al + PI /\ c = m * cos be /\ e = m * sin be /\ (0 <= a * c + b * e -> be <= al + PI / 2).
Proof.
  intros N M A B MM CR. set (x := (a * c + b * e) / (n * m)). set (y := (a * e - b * c) / (n * m)). assert (NM : 0 < n * m) by (apply Rmult_lt_0_compat; assumption).
  assert (NN : n * n = a * a + b * b). { rewrite A, B. pose proof (sin2_cos2 al) as Q. unfold Rsqr in Q. replace (n * n) with (n * n * (sin al * sin al + cos al * cos al)) by (rewrite Q; ring). ring. }
  assert (XY : x * x + y * y = 1).
  { unfold x, y. replace ((a * c + b * e) / (n * m) * ((a * c + b * e) / (n * m)) + (a * e - b * c) / (n * m) * ((a * e - b * c) / (n * m))) with ((a * a + b * b) * (c * c + e * e) / ((n * n) * (m * m))) by (field; lra).
    rewrite <- NN, <- MM. field. lra. }
  assert (Y0 : 0 <= y) by (apply Rmult_le_pos; [exact CR|apply Rlt_le, Rinv_0_lt_compat; exact NM]).
  assert (X1 : -1 <= x <= 1) by nra. pose proof (acos_bound x) as AB. set (th := acos x) in *. assert (CT : cos th = x) by (apply cos_acos; exact X1).
  assert (ST : sin th = y). { pose proof (sin2_cos2 th) as Q. unfold Rsqr in Q. pose proof (sin_ge_0 th ltac:(lra) ltac:(lra)) as S. rewrite CT in Q. nra. }
  exists (al + th). split; [lra|]. rewrite cos_plus, sin_plus, CT, ST. unfold x, y. split; [|split].
  - apply (Rmult_eq_reg_l n); [|lra]. replace (n * (m * (cos al * ((a * c + b * e) / (n * m)) - sin al * ((a * e - b * c) / (n * m))))) with ((n * cos al * (a * c + b * e) - n * sin al * (a * e - b * c)) / n) by (field; lra).
    rewrite <- A, <- B. apply (Rmult_eq_reg_l n); [|lra]. replace (n * ((a * (a * c + b * e) - b * (a * e - b * c)) / n)) with (c * (a * a + b * b)) by (field; lra). rewrite <- NN. ring.
  - apply (Rmult_eq_reg_l n); [|lra]. replace (n * (m * (sin al * ((a * c + b * e) / (n * m)) + cos al * ((a * e - b * c) / (n * m))))) with ((n * sin al * (a * c + b * e) + n * cos al * (a * e - b * c)) / n) by (field; lra).
    rewrite <- A, <- B. apply (Rmult_eq_reg_l n); [|lra]. replace (n * ((b * (a * c + b * e) + a * (a * e - b * c)) / n)) with (e * (a * a + b * b)) by (field; lra). rewrite <- NN. ring.
  - intros D. assert (X0 : 0 <= x) by (apply Rmult_le_pos; [exact D|apply Rlt_le, Rinv_0_lt_compat; exact NM]).
    apply Rnot_lt_le. intros H. assert (cos th < 0) by (apply cos_lt_0; lra). lra.
Qed.
Lemma same_angle a b : cos a = cos b -> sin a = sin b -> exists k : BinInt.Z, a = b + 2 * PI * IZR k.
Proof.
  intros C S. pose proof PI_tight as PT.
  assert (R : exists k : BinInt.Z, - PI <= a - b + 2 * PI * IZR k <= PI).
  { exists (Int_part ((PI - (a - b)) / (2 * PI))). destruct (base_Int_part ((PI - (a - b)) / (2 * PI))) as [L U]. set (q := (PI - (a - b)) / (2 * PI)) in *. set (z := IZR (Int_part q)) in *.
    assert (E : 2 * PI * q = PI - (a - b)) by (unfold q; field; lra). assert (2 * PI * z <= 2 * PI * q) by (apply Rmult_le_compat_l; lra). assert (2 * PI * (q - 1) <= 2 * PI * z) by (apply Rmult_le_compat_l; lra). lra. }
  destruct R as [k R]. set (d := a - b + 2 * PI * IZR k) in *.
  assert (D : sin (d / 2) = 0).
  { assert (E : cos d = 1).
    { unfold d. replace (a - b + 2 * PI * IZR k) with (a - b + 2 * (IZR k) * PI) by ring.
      assert (P : forall x (n : BinInt.Z), cos (x + 2 * IZR n * PI) = cos x).
      { intros x n. destruct (Z_le_gt_dec 0 n) as [Hn|Hn].
        - rewrite <- (Z2Nat.id n) by lia. rewrite <- INR_IZR_INZ. apply cos_period.
        - rewrite <- (cos_period (x + 2 * IZR n * PI) (Z.to_nat (- n))). rewrite INR_IZR_INZ, Z2Nat.id by lia. rewrite opp_IZR. f_equal. ring. }
      rewrite P, cos_minus, C, S. pose proof (sin2_cos2 b) as Q. unfold Rsqr in Q. lra. }
    rewrite cos_half in E. apply sq_zero. lra. }
  exists (- k)%Z. rewrite opp_IZR. assert (d = 0); [|unfold d in *; lra].
  destruct (Rtotal_order d 0) as [L|[E|L]]; [|exact E|]; exfalso.
  - assert (sin (d / 2) < 0) by (apply sin_lt_0_var; lra). lra.
  - assert (0 < sin (d / 2)) by (apply sin_gt_0; lra). lra.
Qed.
Lemma polar_same y x t a n : 0 < n -> x = n * cos a -> y = n * sin a -> polar_angle y x t -> exists k : BinInt.Z, t = a + 2 * PI * IZR k.
Proof.
  intros N A B (_ & HX & HY). assert (E : sqrt (x * x + y * y) = n).
  { rewrite A, B. pose proof (sin2_cos2 a) as Q. unfold Rsqr in Q. replace (n * cos a * (n * cos a) + n * sin a * (n * sin a)) with (n * n * (sin a * sin a + cos a * cos a)) by ring. rewrite Q, Rmult_1_r. apply sqrt_square. lra. }
  rewrite E in HX, HY. apply same_angle; apply (Rmult_eq_reg_l n); lra.
Qed.

(** ** The short arc between two longitudes *)
Lemma pair_arc p q : angle p -> angle q -> let i := s1_add (s1_add s1_EMPTY p) q in
  Valid i /\ nonempty i /\ span i <= pi + 6 * ulp1 /\
  (B2R (slo i) = B2R (norm_pi p) /\ B2R (shi i) = B2R (norm_pi q) \/ B2R (slo i) = B2R (norm_pi q) /\ B2R (shi i) = B2R (norm_pi p)).
Proof.
  intros Hp Hq i. pose proof pi_bounds as PB. pose proof EMPTY_valid as VE. pose proof (s1_add_valid _ p VE Hp) as V1. pose proof (s1_add_valid _ q V1 Hq) as V2.
  assert (G : forall p, angle p -> fgt (fabs p) PI64 = false).
  { intros x [Fx Rx]. unfold fgt. destruct (flt_R PI64 (fabs x)) as [E|E]; auto.
    - apply PI64_finite.
    - unfold finite, fabs. rewrite is_finite_Babs. auto.
    - unfold fabs in E. rewrite B2R_Babs, pi_val in E. assert (Rabs (B2R x) <= pi) by (apply Rabs_le; lra). lra. }
  destruct (norm_pi_val p Hp) as (Fp & Rp & _). destruct (norm_pi_val q Hq) as (Fq & Rq & _).
  assert (E1 : s1_add s1_EMPTY p = S1 (norm_pi p) (norm_pi p)).
  { unfold s1_add. rewrite (G p Hp). destruct (fc_spec s1_EMPTY (norm_pi p) VE Fp) as [A|A]; [elim (EMPTY_A0 _ A)|].
    destruct (em_spec s1_EMPTY VE) as [E|E]; [reflexivity|]. elim E. unfold s1_EMPTY. cbn [slo shi]. rewrite mpi_val, pi_val. lra. }
  unfold i in *. rewrite E1 in *. clear i. split; [exact V2|]. revert V2. unfold s1_add. rewrite (G q Hq). set (a := norm_pi p) in *. set (b := norm_pi q) in *. clearbody a b.
  destruct (fc_spec (S1 a a) b V1 Fq) as [A|A].
  - intros _. unfold A0, arc0 in A. cbn [slo shi] in *. unfold nonempty, span, arc_end. cbn [slo shi]. destruct Rle_dec; [|lra].
    split; [lra|]. split; [lra|]. left. split; [reflexivity|]. lra.
  - destruct (em_spec (S1 a a) V1) as [E|E]; cbn [slo shi] in *; [lra|]. assert (NE : B2R a <> B2R b) by (intros H; apply A; unfold A0, arc0; cbn [slo shi]; lra).
    assert (Aa : angle a) by (split; [exact Fp|lra]). assert (Ab : angle b) by (split; [exact Fq|lra]).
    destruct (positive_distance_spec b a Ab Aa) as (D1 & D2 & D3). destruct (positive_distance_spec a b Aa Ab) as (D4 & D5 & D6).
    unfold nonempty, span, arc_end, turn in *. destruct (flt_R _ _ D1 D4) as [C|C]; intros _; cbn [slo shi]; (split; [lra|]); repeat destruct Rle_dec; try lra; split; try lra; auto.
Qed.


Lemma mid_arc x s a b l e k m : 0 <= s <= pi + 6 * ulp1 -> a <= l <= b -> b <= a + PI / 2 -> 0 <= e <= 2 / 100 ->
  Rabs (x - a - 2 * PI * IZR k) <= e /\ Rabs (x + s - b - 2 * PI * IZR m) <= e \/ Rabs (x - b - 2 * PI * IZR m) <= e /\ Rabs (x + s - a - 2 * PI * IZR k) <= e ->
  exists t (n : BinInt.Z), x <= t <= x + s /\ Rabs (t - l - 2 * PI * IZR n) <= 3 * e.
Proof.
  intros S L B E H. pose proof PI_tight as PT. pose proof pi_PI as PP.
  assert (D : IZR m = IZR k).
  { f_equal. assert (HD : -1 < IZR (m - k) < 1).
    { rewrite minus_IZR. destruct H as [[H1 H2]|[H1 H2]]; apply Rabs_le_inv in H1, H2; split; nra. }
    destruct HD as [H1 H2]. apply lt_IZR in H1, H2. lia. }
  destruct H as [[H1 H2]|[H1 H2]]; rewrite D in *; set (w := 2 * PI * IZR k) in *; apply Rabs_le_inv in H1, H2.
  - destruct (Rle_dec (l + w) x) as [C|C]; [|destruct (Rle_dec (l + w) (x + s)) as [C'|C']].
    + exists x, k. fold w. split; [lra|]. apply Rabs_le. lra.
    + exists (l + w), k. fold w. split; [lra|]. apply Rabs_le. lra.
    + exists (x + s), k. fold w. split; [lra|]. apply Rabs_le. lra.
  - exists x, k. fold w. split; [lra|]. apply Rabs_le. lra.
Qed.
Lemma norm_pi_turn p a e (k : BinInt.Z) : angle p -> Rabs (B2R p - a - 2 * PI * IZR k) <= e -> exists k', Rabs (B2R (norm_pi p) - a - 2 * PI * IZR k') <= e + 2 * ulp1.
Proof.
  intros Hp H. pose proof pi_PI as PP. apply Rabs_le_inv in H. destruct (norm_pi_val p Hp) as (_ & _ & [E|E]); rewrite E.
  - exists k. apply Rabs_le. lra.
  - exists (k + 1)%Z. rewrite plus_IZR. apply Rabs_le. lra.
Qed.
Lemma end_turn x y a e (k : BinInt.Z) : Rabs (y - a - 2 * PI * IZR k) <= e -> exists k' : BinInt.Z, Rabs (arc_end x y - a - 2 * PI * IZR k') <= e + 2 * ulp1.
Proof.
  intros H. pose proof pi_PI as PP. apply Rabs_le_inv in H. unfold arc_end. destruct Rle_dec.
  - exists k. apply Rabs_le. lra.
  - exists (k + 1)%Z. rewrite plus_IZR. apply Rabs_le. lra.
Qed.
(* a direction between two others, on the short arc *)
Lemma short_arc p q a b l e k m : angle p -> angle q -> a <= l <= b -> b <= a + PI / 2 -> 0 <= e <= 1 / 100 ->
  Rabs (B2R p - a - 2 * PI * IZR k) <= e -> Rabs (B2R q - b - 2 * PI * IZR m) <= e ->
  forall i, (i = s1_add (s1_add s1_EMPTY p) q \/ i = s1_add (s1_add s1_EMPTY q) p) ->
  Valid i /\ nonempty i /\ exists t (n : BinInt.Z), circ i t /\ Rabs t <= pi /\ Rabs (t - l - 2 * PI * IZR n) <= 3 * e + 20 * ulp1.
Proof.
  intros Hp Hq L B E P Q i Hi. pose proof pi_bounds as PB. pose proof pi_PI as PP.
  destruct (norm_pi_turn p a e k Hp P) as [k1 P1]. destruct (norm_pi_turn q b e m Hq Q) as [m1 Q1].
  assert (H : Valid i /\ nonempty i /\ span i <= pi + 6 * ulp1 /\
  (B2R (slo i) = B2R (norm_pi p) /\ B2R (shi i) = B2R (norm_pi q) \/ B2R (slo i) = B2R (norm_pi q) /\ B2R (shi i) = B2R (norm_pi p))).
  { destruct Hi as [-> | ->]; [exact (pair_arc p q Hp Hq)|]. destruct (pair_arc q p Hq Hp) as (A1 & A2 & A3 & A4). tauto. }
  destruct H as (V & N & S & W). split; [exact V|]. split; [exact N|]. pose proof (span_range i V N) as SR.
  assert (M : exists t (n : BinInt.Z), B2R (slo i) <= t <= B2R (slo i) + span i /\ Rabs (t - l - 2 * PI * IZR n) <= 3 * (e + 4 * ulp1)).
  { assert (EE : B2R (slo i) + span i = arc_end (B2R (slo i)) (B2R (shi i))) by (unfold span; lra).
    destruct W as [[W1 W2]|[W1 W2]].
    - destruct (end_turn (B2R (slo i)) (B2R (shi i)) b (e + 2 * ulp1) m1) as [m2 Q2]; [rewrite W2; exact Q1|].
      apply (mid_arc _ _ a b l _ k1 m2); try lra. left. rewrite EE, W1. rewrite W1 in Q2. split; [lra|]. eapply Rle_trans; [exact Q2|lra].
    - destruct (end_turn (B2R (slo i)) (B2R (shi i)) a (e + 2 * ulp1) k1) as [k2 P2]; [rewrite W2; exact P1|].
      apply (mid_arc _ _ a b l _ k2 m1); try lra. right. rewrite EE, W1. rewrite W1 in P2. split; [lra|]. eapply Rle_trans; [exact P2|lra]. }
  destruct M as (t & n & T & D). pose proof V as (_ & _ & VL & _). apply Rabs_le_inv in D. destruct (Rle_dec t pi) as [C|C].
  - exists t, n. split; [apply arc_span; [exact N|exists 0%Z; lra]|]. split; apply Rabs_le; lra.
  - exists (t - 2 * pi), (n - 1)%Z. split; [apply arc_span; [exact N|exists 1%Z; lra]|]. rewrite minus_IZR. split; apply Rabs_le; lra.
Qed.

(** ** Computed latitudes and longitudes *)
Lemma sin_small a e : Rabs a <= PI / 2 -> Rabs (sin a) <= e -> Rabs a <= 2 * e.
Proof.
  intros A H. pose proof PI_tight as PT. pose proof (Rabs_pos a) as PA. pose proof (sin_half (Rabs a) ltac:(lra)) as SH.
  assert (EQ : sin (Rabs a) <= Rabs (sin a)). { destruct (Rle_dec 0 a) as [P|P]; [rewrite (Rabs_pos_eq a) by lra; apply Rle_abs|rewrite (Rabs_left a) by lra; rewrite sin_neg, <- Rabs_Ropp; apply Rle_abs]. }
  lra.
Qed.
Lemma cos_abs_lt a : - PI <= a <= PI -> 0 <= cos a -> Rabs a <= PI / 2.
Proof.
  intros R C. apply Rnot_lt_le. intros H. assert (cos a < 0); [|lra]. destruct (Rle_dec 0 a) as [P|P].
  - rewrite Rabs_pos_eq in H by lra. apply cos_lt_0; lra.
  - rewrite Rabs_left in H by lra. rewrite <- cos_neg. apply cos_lt_0; lra.
Qed.
Lemma latitude_ok fatan2 v : accurate_atan2 fatan2 -> fvec v -> Rabs (X v) <= 1 -> Rabs (Y v) <= 1 -> Rabs (Z v) <= 1 -> 1 <= sqn v ->
  finite (latitude fatan2 v) /\ Rabs (B2R (latitude fatan2 v)) <= pi / 2 /\ Rabs (B2R (latitude fatan2 v) - asin (Z v / sqrt (sqn v))) <= 20 * u.
Proof.
  intros A FV C1 C2 C3 N. pose proof FV as (F1 & F2 & F3). destruct (axis_dist v FV ltac:(lra) ltac:(lra)) as (FL & PL & EL). unfold latitude. set (l := fsqrt _) in *. set (r := sqrt _) in *.
  destruct tiny_small as (T0 & T1 & T2). assert (R0 : 0 <= r) by apply sqrt_pos.
  assert (RR : r * r = X v * X v + Y v * Y v) by (apply sqrt_sqrt; nra). assert (SN : sqn v = r * r + Z v * Z v) by (unfold sqn; lra).
  set (n := sqrt (sqn v)). assert (N1 : 1 <= n) by (rewrite <- sqrt_1; apply sqrt_le_1_alt; exact N). assert (NN : n * n = sqn v) by (apply sqrt_sqrt; lra).
  assert (R1 : r <= n) by nra. assert (ZN : Rabs (Z v) <= n) by lra. apply Rabs_le_inv in EL.
  assert (NZ : Z v <> 0 \/ B2R l <> 0).
  { destruct (Req_dec (Z v) 0) as [E|E]; [right|left; exact E]. rewrite E in SN. assert (1 / 2 <= r) by nra. assert (u = / 9007199254740992) by reflexivity. assert (5 * u * r <= 1 / 10 * r) by (apply Rmult_le_compat_r; lra). assert (u * u <= u * (1 / 100)) by (apply Rmult_le_compat_l; lra). lra. }
  destruct (A (vz v) l F3 FL) as (Fa & _ & Ha). destruct (Ha NZ) as (Ba & t & (Bt & Et1 & Et2) & Dt). specialize (Ba PL). rewrite e50_eq in Dt.
  split; [exact Fa|]. split; [exact Ba|]. set (m := sqrt (B2R l * B2R l + Z v * Z v)) in *.
  assert (M0 : 0 < m). { apply sqrt_lt_R0. pose proof (sq_nonneg (B2R l)). pose proof (sq_nonneg (Z v)). destruct NZ as [K|K]; apply sq_pos in K; lra. }
  pose proof (Rabs_le_inv _ _ ZN) as ZN'. assert (ZQ : -1 <= Z v / n <= 1).
  { split; [apply (Rmult_le_reg_r n)|apply (Rmult_le_reg_r n)]; try lra; unfold Rdiv; rewrite Rmult_assoc, Rinv_l by lra; lra. }
  set (f := asin (Z v / n)). pose proof (asin_bound (Z v / n)) as AB. fold f in AB. assert (SF : n * sin f = Z v) by (unfold f; rewrite sin_asin by exact ZQ; field; lra).
  assert (CF : n * cos f = r).
  { pose proof (sin2_cos2 f) as Q. unfold Rsqr in Q. pose proof (cos_ge_0 f ltac:(lra) ltac:(lra)) as CP. assert (E : (n * cos f) * (n * cos f) = r * r).
    { replace (n * cos f * (n * cos f)) with (n * n * (1 - sin f * sin f)) by (rewrite <- Q; ring). replace (n * n * (1 - sin f * sin f)) with (n * n - (n * sin f) * (n * sin f)) by ring. rewrite SF, NN, SN. ring. }
    assert (0 <= n * cos f) by (apply Rmult_le_pos; lra). apply Rsqr_inj; assumption. }
  assert (CT : 0 <= cos t). { apply Rnot_lt_le. intros H. assert (0 < m * - cos t) by (apply Rmult_lt_0_compat; lra). lra. }
  pose proof (cos_abs_lt t Bt CT) as TB. apply Rabs_le_inv in TB.
  assert (S1 : m * n * sin (t - f) = Z v * (r - B2R l)). { rewrite sin_minus. replace (m * n * (sin t * cos f - cos t * sin f)) with ((m * sin t) * (n * cos f) - (m * cos t) * (n * sin f)) by ring. rewrite CF, SF, <- Et1, <- Et2. ring. }
  assert (C4 : 0 <= cos (t - f)).
  { apply Rnot_lt_le. intros H. assert (E : m * n * cos (t - f) = B2R l * r + Z v * Z v). { rewrite cos_minus. replace (m * n * (cos t * cos f + sin t * sin f)) with ((m * cos t) * (n * cos f) + (m * sin t) * (n * sin f)) by ring. rewrite CF, SF, <- Et1, <- Et2. ring. }
    assert (0 < m * n) by (apply Rmult_lt_0_compat; lra). assert (0 <= B2R l * r) by (apply Rmult_le_pos; lra). pose proof (sq_nonneg (Z v)). assert (0 < m * n * - cos (t - f)) by (apply Rmult_lt_0_compat; lra). lra. }
  pose proof (cos_abs_lt (t - f) ltac:(lra) C4) as TF.
  assert (ZM : Rabs (Z v) <= m). { unfold m. rewrite <- (sqrt_Rsqr_abs (Z v)). apply sqrt_le_1_alt. unfold Rsqr. pose proof (sq_nonneg (B2R l)). lra. }
  assert (U3 : u = / 9007199254740992) by reflexivity.
  assert (LR : Rabs (r - B2R l) <= 51 / 10 * u * n). { assert (5 * u * r <= 5 * u * n) by (apply Rmult_le_compat_l; lra). assert (3 * tiny <= 1 / 10 * u * n). { assert (u * u <= u * (1 / 100)) by (apply Rmult_le_compat_l; lra). assert (1 / 10 * u * 1 <= 1 / 10 * u * n) by (apply Rmult_le_compat_l; lra). lra. } apply Rabs_le. lra. }
  assert (SB : Rabs (sin (t - f)) <= 51 / 10 * u).
  { assert (E : m * n * Rabs (sin (t - f)) <= m * (51 / 10 * u * n)).
    { rewrite <- (Rabs_pos_eq (m * n)) by (apply Rmult_le_pos; lra). rewrite <- Rabs_mult, S1, Rabs_mult. apply Rmult_le_compat; try apply Rabs_pos; assumption. }
    apply (Rmult_le_reg_l (m * n)); [apply Rmult_lt_0_compat; lra|]. lra. }
  pose proof (sin_small _ _ TF SB) as D. apply Rabs_le_inv in D, Dt. apply Rabs_le. unfold f in *. lra.
Qed.
Lemma longitude_ok fatan2 v a n : accurate_atan2 fatan2 -> fvec v -> 0 < n -> X v = n * cos a -> Y v = n * sin a ->
  angle (longitude fatan2 v) /\ exists k : BinInt.Z, Rabs (B2R (longitude fatan2 v) - a - 2 * PI * IZR k) <= e50.
Proof.
  intros A (F1 & F2 & _) N XA YA. unfold longitude. destruct (A (vy v) (vx v) F2 F1) as (Fo & Bo & Ho). apply Rabs_le_inv in Bo.
  split; [split; [exact Fo|lra]|]. assert (NZ : Y v <> 0 \/ X v <> 0).
  { destruct (Req_dec (Y v) 0) as [EY|EY]; [|left; exact EY]. destruct (Req_dec (X v) 0) as [EX|EX]; [|right; exact EX]. exfalso.
    assert (cos a = 0) by (apply (Rmult_eq_reg_l n); lra). assert (sin a = 0) by (apply (Rmult_eq_reg_l n); lra). pose proof (sin2_cos2 a) as Q. unfold Rsqr in Q. rewrite H, H0 in Q. lra. }
  destruct (Ho NZ) as (_ & w & PW & Dw). rewrite e50_eq in Dw. destruct (polar_same _ _ _ a n N XA YA PW) as [k K]. exists k. subst w. replace (B2R (fatan2 (vy v) (vx v)) - a - 2 * PI * IZR k) with (B2R (fatan2 (vy v) (vx v)) - (a + 2 * PI * IZR k)) by ring. exact Dw.
Qed.
