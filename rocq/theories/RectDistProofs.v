(** Lemmas for the distance of a position from a rectangle: the nearest side, and the edge
    along it. *)
From Coq Require Import ZArith Reals Lra Lia Psatz Bool List Classical.
From Flocq Require Import Core.
From Verif Require Import Base Spec F64 F64Facts IntervalSpec CircleSpec RectSpec F64Arith F64Error F64Neg R1Model R1Proofs S1Model S1Proofs S1Ops VectorModel AngleModel AngleProofs ExpandProofs CircleProofs PropsInterval PropsCircle
  RectModel RectProofs PropsRect PropsRect2 CapSpec CapModel StuvError ChordProofs CapError PredicatesError PredicatesFloat PredicatesSound PredicatesStable PredicatesProofs NormProofs PropsNorm CapEdgeFloat CapEdgeMain RegionModel RegionSpec PropsRegion TrigModel TrigSpec TrigProofs TrigWitness PropsTrig PropsCap PropsCap2 PropsDist CellLattice
  BoundModel BoundSpec BoundProofs BoundCell BoundFace PropsBound PropsBound2 CrossProofs PointModel PointSpec PropsPoint Near PropsFrame2 PropsCap3 SegModel SegProofs SegFloat PropsSeg BudgetProofs BounderModel BounderSpec BounderFloat BounderLng RectDistModel.
Import ListNotations.
Open Scope R_scope.

(** ** Angles *)
Lemma angle_tri a b c : on_sphere a -> on_sphere b -> on_sphere c -> angle_between a c <= angle_between a b + angle_between b c.
Proof.
  intros A B C. destruct (angle_trig a b A B) as (O1 & C1 & S1'). destruct (angle_trig b c B C) as (O2 & C2 & S2'). destruct (angle_trig a c A C) as (O3 & C3 & _). cbv zeta in *. set (x := angle_between a b) in *. set (y := angle_between b c) in *. set (z := angle_between a c) in *.
  destruct (Rle_dec PI (x + y)) as [L|L]; [lra|]. apply Rnot_lt_le. intros G. pose proof (cos_decreasing_1 (x + y) z ltac:(lra) ltac:(lra) ltac:(lra) ltac:(lra) G) as K. rewrite cos_plus, C1, C2, C3, S1', S2' in K.
  assert (AA : rdot a a = 1) by exact A. assert (BB : rdot b b = 1) by exact B. assert (CC : rdot c c = 1) by exact C.
  pose proof (rdot_len (rcross a b) (rcross b c)) as R. assert (E1 : len (rcross a b) = sqrt (1 - rdot a b * rdot a b)) by (unfold len; rewrite cross_dot, AA, BB; f_equal; ring). assert (E2 : len (rcross b c) = sqrt (1 - rdot b c * rdot b c)) by (unfold len; rewrite cross_dot, BB, CC; f_equal; ring).
  rewrite E1, E2 in R. assert (E3 : rdot (rcross a b) (rcross b c) = rdot a b * rdot b c - rdot a c * rdot b b) by (unfold rdot, rcross; cbn [px3 py3 pz3]; ring). rewrite E3, BB in R. apply Rabs_le_inv in R. lra.
Qed.
Lemma angle_chd a b : on_sphere a -> on_sphere b -> angle_between a b <= 2 * chd a b.
Proof.
  intros A B. destruct (chd_range a b A B) as (H1 & H2 & _). unfold angle_between. fold (chd a b). pose proof PI_tight as PT. pose proof (asin_bound (chd a b / 2)) as AB. assert (A0 : 0 <= asin (chd a b / 2)) by (rewrite <- asin_0; apply asin_mono; lra). pose proof (sin_half (asin (chd a b / 2)) ltac:(lra)) as SH. rewrite sin_asin in SH by lra. lra.
Qed.
Lemma angle_near a b c e : on_sphere a -> on_sphere b -> on_sphere c -> chd b c <= e -> Rabs (angle_between a b - angle_between a c) <= 2 * e.
Proof.
  intros A B C H. pose proof (angle_tri a b c A B C) as T1. pose proof (angle_tri a c b A C B) as T2. pose proof (angle_chd b c B C) as K. rewrite (angle_sym c b) in T2. apply Rabs_le. lra.
Qed.
(* the angle grows little when the cosine falls little *)
Lemma angle_cos a b c e s : on_sphere a -> on_sphere b -> on_sphere c -> rdot a c <= rdot a b + e -> 0 <= s -> 8 * e <= s * s -> angle_between a b <= angle_between a c + s.
Proof.
  intros A B C L S E. destruct (angle_trig a b A B) as (O1 & C1 & _). destruct (angle_trig a c A C) as (O2 & C2 & _). cbv zeta in *. set (x := angle_between a b) in *. set (y := angle_between a c) in *.
  pose proof (COS_bound x) as X1. pose proof (COS_bound y) as Y1. pose proof (asin_rise (cos x) (cos y) e s ltac:(lra) ltac:(lra) ltac:(lra) S E) as K.
  assert (AC : forall w, 0 <= w <= PI -> asin (cos w) = PI / 2 - w) by (intros w W; rewrite <- sin_shift; apply asin_sin; lra). rewrite !AC in K by lra. lra.
Qed.

(** ** The nearest side *)
Lemma cos_far u d e : 0 <= u <= PI + e -> 0 <= e -> u <= d <= 2 * PI - u + e -> cos d <= cos u + 4 * e.
Proof.
  intros U E D. pose proof PI_RGT_0 as PP. set (u' := Rmin u PI). assert (U' : 0 <= u' <= PI /\ u' <= u /\ u - u' <= e) by (unfold u', Rmin; destruct Rle_dec; lra).
  set (d' := Rmin d (2 * PI - u')). assert (D' : u' <= d' <= 2 * PI - u' /\ Rabs (d - d') <= 2 * e).
  { unfold d', Rmin. destruct Rle_dec; (split; [lra|]); [replace (d - d) with 0 by ring; rewrite Rabs_R0; lra|apply Rabs_le; lra]. }
  destruct D' as [D1 D2]. assert (K : cos d' <= cos u').
  { destruct (Rle_dec d' PI) as [C|C]; [apply cos_decr_1; lra|]. replace (cos d') with (cos (2 * PI - d')); [apply cos_decr_1; lra|]. rewrite cos_minus, cos_2PI, sin_2PI. ring. }
  pose proof (cos_lip d d') as L1. pose proof (cos_lip u u') as L2. assert (Rabs (u - u') <= e) by (apply Rabs_le; lra). apply Rabs_le_inv in L1, L2. lra.
Qed.
Lemma cos_turn x y (k : BinInt.Z) : x = y + 2 * pi * IZR k -> Rabs (IZR k) <= 8 -> Rabs (cos x - cos y) <= 1 / 2 ^ 48.
Proof.
  intros E B. destruct pi_PI as [P1 P2]. destruct (turn_cos y k) as [C _]. rewrite <- C. eapply Rle_trans; [apply cos_lip|]. rewrite E. replace (y + 2 * pi * IZR k - (y + 2 * PI * IZR k)) with (2 * (pi - PI) * IZR k) by ring. rewrite Rabs_mult. assert (Rabs (2 * (pi - PI)) <= 2 * (1 / 2 ^ 52)) by (apply Rabs_le; lra).
  assert (Rabs (2 * (pi - PI)) * Rabs (IZR k) <= 2 * (1 / 2 ^ 52) * 8) by (apply Rmult_le_compat; [apply Rabs_pos|apply Rabs_pos|assumption|assumption]). lra.
Qed.
Lemma near_side i th : Valid i -> nonempty i -> angle th -> ~ Arc i (B2R th) ->
  let l := if s1_contains (s1_new (shi i) (s1_complement_center i)) th then shi i else slo i in
  angle l /\ Arc i (B2R l) /\ forall s, Arc i s -> Rabs s <= PI -> cos (B2R th - s) <= cos (B2R th - B2R l) + 1 / 2 ^ 44.
Proof.
  intros Vi Ni [FT RT] NA. pose proof pi_bounds as PB. pose proof (span_range i Vi Ni) as SI. pose proof pi_PI as PP. pose proof PI_tight as PT. pose proof Vi as (FL & FH & B1 & B2 & V3 & V4).
  assert (ALL : B2R (slo i) <> - pi). { intros E. specialize (V3 E). apply NA. apply arc_span; [exact Ni|]. assert (SP : span i = 2 * pi) by (unfold span, arc_end; destruct Rle_dec; lra). rewrite SP, E. destruct (reduce (B2R th)) as (k & K). exists k. lra. }
  destruct (complement_center_spec i Vi Ni ALL) as (AC & CM & k & KC & KR). set (c := s1_complement_center i) in *. set (H := B2R (slo i) + span i) in *. set (g := 2 * pi - span i) in *. set (uc := B2R c + 2 * pi * IZR k - H). apply Rabs_le_inv in KC.
  assert (UC : 0 <= uc <= g) by (unfold uc, g, H in *; lra). assert (UC' : - (4 * ulp1) <= uc - g / 2 <= 4 * ulp1) by (unfold uc; lra). assert (EC : B2R c + 2 * pi * IZR k = H + uc) by (unfold uc; ring). clearbody uc.
  assert (NH : B2R (shi i) <> - pi) by (intros E; apply Ni; auto).
  assert (HM : exists n : BinInt.Z, B2R (shi i) = H + 2 * pi * IZR n /\ Rabs (IZR n) <= 1). { unfold H, span, arc_end. destruct Rle_dec; [exists 0%Z|exists (-1)%Z]; (split; [lra|apply Rabs_le; lra]). } destruct HM as (n & HM & HN). apply Rabs_le_inv in HN.
  assert (AHi : angle (shi i)) by (split; auto). assert (ALi : angle (slo i)) by (split; auto).
  assert (G7 : 0 <= g <= 2 * pi) by (unfold g; lra).
  assert (TC : turn (B2R (shi i)) (B2R c) = uc). { apply (turn_unique _ _ _ (- k - n)); auto; [apply AC|tauto|lra|rewrite minus_IZR, opp_IZR, HM; lra]. }
  destruct (gap_place i (B2R th)) as (j & w & EW & BW). fold H in EW.
  assert (LE : forall a : BinInt.Z, Rabs (IZR a) < 1 -> a = 0%Z) by (intros a Ha; apply Rabs_lt_inv in Ha; destruct Ha as [Ha1 Ha2]; apply (lt_IZR (-1)) in Ha1; apply (lt_IZR a 1) in Ha2; lia).
  assert (W1 : w < g). { apply Rnot_le_lt. intros C. apply NA. apply arc_span; [exact Ni|]. exists (j - 1)%Z. rewrite minus_IZR. unfold g, H in *. lra. }
  assert (W0 : 0 < w). { apply Rnot_le_lt. intros C. apply NA. apply arc_span; [exact Ni|]. exists j. unfold H in *. lra. }
  assert (JB : Rabs (IZR j) <= 4) by (apply Rabs_le; unfold g, H in *; split; apply (Rmult_le_reg_l (2 * pi)); lra). apply Rabs_le_inv in JB.
  assert (AB : forall s (a : BinInt.Z), Rabs s <= PI -> B2R (slo i) <= s + 2 * pi * IZR a <= B2R (slo i) + span i -> -2 <= IZR a <= 3) by (intros s a S R; apply Rabs_le_inv in S; split; apply (Rmult_le_reg_l (2 * pi)); lra).
  pose proof (contains_spec (s1_new (shi i) c) th (s1_new_valid _ _ AHi AC) (conj FT RT)) as CS. rewrite s1_new_spec in CS by auto. rewrite arc_turn in CS by (auto; tauto). rewrite TC in CS.
  destruct (s1_contains (s1_new (shi i) c) th); cbv zeta.
  - destruct (proj1 CS eq_refl) as [_ (m & M)]. clear CS. assert (E : (m - n - j)%Z = 0%Z) by (apply LE; rewrite !minus_IZR; apply Rabs_lt; split; apply (Rmult_lt_reg_l (2 * pi)); unfold g in *; lra).
    assert (W2 : w <= uc) by (assert (IZR (m - n - j) = 0) by (rewrite E; reflexivity); rewrite !minus_IZR in *; replace (IZR m) with (IZR n + IZR j) in M by lra; lra).
    split; [exact AHi|]. split; [apply arc_span; [exact Ni|]; exists (- n)%Z; rewrite opp_IZR; unfold H in *; lra|]. intros s AS BS. apply arc_span in AS; [|exact Ni]. destruct AS as (a & A). pose proof (AB s a BS A) as BA.
    set (v := H - (s + 2 * pi * IZR a)). assert (BV : 0 <= v <= span i) by (unfold v, H; lra).
    pose proof (cos_turn (B2R th - s) (w + v) (a - j) ltac:(rewrite minus_IZR; unfold v; lra) ltac:(rewrite minus_IZR; apply Rabs_le; lra)) as K1.
    pose proof (cos_turn (B2R th - B2R (shi i)) w (- j - n) ltac:(rewrite minus_IZR, opp_IZR; lra) ltac:(rewrite minus_IZR, opp_IZR; apply Rabs_le; lra)) as K2.
    pose proof (cos_far w (w + v) (1 / 2 ^ 48) ltac:(unfold g in *; lra) ltac:(lra) ltac:(unfold g in *; lra)) as K3. apply Rabs_le_inv in K1, K2. lra.
  - assert (W2 : uc < w). { apply Rnot_le_lt. intros C. assert (X : false = true); [|discriminate]. apply CS. split; [intros [E1 E2]; assert (Z0 : uc = 0) by (rewrite <- TC; unfold turn; rewrite E1, E2; destruct Rle_dec; lra); lra|]. exists (j + n)%Z. rewrite plus_IZR. lra. }
    clear CS. split; [exact ALi|]. split; [apply arc_span; [exact Ni|]; exists 0%Z; lra|]. intros s AS BS. apply arc_span in AS; [|exact Ni]. destruct AS as (a & A). pose proof (AB s a BS A) as BA.
    set (v := s + 2 * pi * IZR a - B2R (slo i)). assert (BV : 0 <= v <= span i) by (unfold v; lra). set (x := g - w). assert (BX : 0 <= x <= g / 2 + 4 * ulp1) by (unfold x; lra).
    pose proof (cos_turn (B2R th - s) (- (x + v)) (1 + a - j) ltac:(rewrite minus_IZR, plus_IZR; unfold v, x, g, H in *; lra) ltac:(rewrite minus_IZR, plus_IZR; apply Rabs_le; lra)) as K1.
    pose proof (cos_turn (B2R th - B2R (slo i)) (- x) (1 - j) ltac:(rewrite minus_IZR; unfold x, g, H in *; lra) ltac:(rewrite minus_IZR; apply Rabs_le; lra)) as K2. rewrite cos_neg in K1, K2.
    pose proof (cos_far x (x + v) (1 / 2 ^ 48) ltac:(unfold g in *; lra) ltac:(lra) ltac:(unfold g in *; lra)) as K3. apply Rabs_le_inv in K1, K2. lra.
Qed.

(** ** The edge along the side *)
Lemma along_combo A B t : on_sphere A -> on_sphere B -> let o := angle_between A B in 0 < sin o ->
  along A B t = padd (pmul (sin (o - t) / sin o) A) (pmul (sin t / sin o) B).
Proof.
  intros SA SB o SP. destruct (angle_trig _ _ SA SB) as (O & CO & SI). cbv zeta in O, CO, SI. fold o in O, CO, SI.
  assert (LR : len (psub B (pmul (rdot A B) A)) = sin o). { rewrite SI. unfold len. f_equal. assert (AA : rdot A A = 1) by exact SA. assert (BB : rdot B B = 1) by exact SB. replace (rdot (psub B (pmul (rdot A B) A)) (psub B (pmul (rdot A B) A))) with (rdot B B - 2 * rdot A B * rdot A B + rdot A B * rdot A B * rdot A A) by (unfold rdot, psub, pmul; cbn [px3 py3 pz3]; ring). rewrite AA, BB. ring. }
  unfold along, heading. change (dot3 A B) with (rdot A B). change (Pos (px3 B - rdot A B * px3 A) (py3 B - rdot A B * py3 A) (pz3 B - rdot A B * pz3 A)) with (psub B (pmul (rdot A B) A)). change (length3 (psub B (pmul (rdot A B) A))) with (len (psub B (pmul (rdot A B) A))). rewrite LR. unfold psub, padd, pmul. cbn [px3 py3 pz3]. rewrite sin_minus, <- CO. apply pos_eq; cbn [px3 py3 pz3]; field; lra.
Qed.
Lemma meridian_angle f g l : - (PI / 2) <= f <= PI / 2 -> - (PI / 2) <= g <= PI / 2 -> angle_between (sphere_at f l) (sphere_at g l) = Rabs (f - g).
Proof.
  intros F G. destruct (angle_trig _ _ (sphere_at_on f l) (sphere_at_on g l)) as (O & CO & _). cbv zeta in *. pose proof PI_RGT_0 as PP. assert (AB : 0 <= Rabs (f - g) <= PI) by (split; [apply Rabs_pos|apply Rabs_le; lra]). apply cos_inj; [lra|lra|]. rewrite CO.
  assert (E : rdot (sphere_at f l) (sphere_at g l) = cos (f - g)). { unfold rdot, sphere_at. cbn [px3 py3 pz3]. rewrite cos_minus. pose proof (sin2_cos2 l) as Q. unfold Rsqr in Q. transitivity (cos f * cos g * (sin l * sin l + cos l * cos l) + sin f * sin g); [ring|rewrite Q; ring]. }
  rewrite E. unfold Rabs. destruct Rcase_abs; [rewrite <- cos_neg|]; reflexivity.
Qed.
Lemma meridian f g l t : - (PI / 2) <= f -> g <= PI / 2 -> f <= g -> 0 < sin (g - f) -> along (sphere_at f l) (sphere_at g l) t = sphere_at (f + t) l.
Proof.
  intros F G L S. assert (E : angle_between (sphere_at f l) (sphere_at g l) = g - f) by (rewrite meridian_angle by lra; rewrite Rabs_minus_sym; apply Rabs_pos_eq; lra). rewrite along_combo by (try apply sphere_at_on; rewrite E; exact S). rewrite E.
  replace (g - f - t) with (g - (f + t)) by ring. replace (sin t) with (sin ((f + t) - f)) by (f_equal; ring). set (x := f + t). assert (N : sin g * cos f - cos g * sin f <> 0) by (rewrite <- sin_minus; lra). unfold padd, pmul, sphere_at. cbn [px3 py3 pz3]. rewrite !sin_minus.
  apply pos_eq; cbn [px3 py3 pz3]; field; exact N.
Qed.
Lemma sphere_len1 A : on_sphere A -> len A = 1.
Proof. intros S. unfold len. rewrite (proj1 (sphere_len A) S). apply sqrt_1. Qed.
Lemma quot_le x y k m : 0 < k -> 0 <= m -> k <= y -> Rabs x <= m * k -> Rabs (x / y) <= m.
Proof.
  intros K M Y X. unfold Rdiv. rewrite Rabs_mult, Rabs_inv, (Rabs_pos_eq y) by lra. apply (Rmult_le_reg_r y); [lra|]. rewrite Rmult_assoc, Rinv_l, Rmult_1_r by lra. eapply Rle_trans; [exact X|]. apply Rmult_le_compat_l; assumption.
Qed.
Lemma edge_near A B f g l : on_sphere A -> on_sphere B -> chd A (sphere_at f l) <= 1 / 2 ^ 46 -> chd B (sphere_at g l) <= 1 / 2 ^ 46 ->
  - (PI / 2) <= f -> g <= PI / 2 -> f <= g -> 1 / 2 ^ 10 <= sin (g - f) -> let o := angle_between A B in
  Rabs (o - (g - f)) <= 1 / 2 ^ 43 /\ 1 / 2 ^ 11 <= sin o /\ forall t, on_sphere (along A B t) /\ chd (along A B t) (sphere_at (f + t) l) <= 1 / 2 ^ 20.
Proof.
  intros SA SB NA NB F G L S o. set (A' := sphere_at f l) in *. set (B' := sphere_at g l) in *. set (o' := g - f) in *. assert (SA' : on_sphere A') by apply sphere_at_on. assert (SB' : on_sphere B') by apply sphere_at_on.
  assert (E' : angle_between A' B' = o') by (unfold A', B', o'; rewrite meridian_angle by lra; rewrite Rabs_minus_sym; apply Rabs_pos_eq; lra).
  assert (OO : Rabs (o - o') <= 1 / 2 ^ 43).
  { pose proof (angle_near A B B' _ SA SB SB' NB) as K1. pose proof (angle_near B' A A' _ SB' SA SA' NA) as K2. rewrite (angle_sym B' A), (angle_sym B' A'), E' in K2. fold o in K1. apply Rabs_le_inv in K1, K2. apply Rabs_le. lra. }
  split; [exact OO|]. assert (SO : 1 / 2 ^ 11 <= sin o) by (pose proof (sin_lip o o') as K; apply Rabs_le_inv in K; lra). split; [exact SO|]. intros t.
  split. { destruct (edge_frame A B A SA SB SA) as (EF & _). { fold o. lra. } apply EF. }
  rewrite <- (meridian f g l t F G L) by (fold o'; lra). fold A' B'. rewrite chd_len, (along_combo A B t SA SB) by (fold o; lra). rewrite (along_combo A' B' t SA' SB') by (rewrite E'; lra). rewrite E'. fold o.
  set (c1 := sin (o - t) / sin o). set (c2 := sin t / sin o). set (d1 := sin (o' - t) / sin o'). set (d2 := sin t / sin o').
  assert (T1 : Rabs (sin (o - t)) <= 1) by apply Rabs_le, SIN_bound. assert (T2 : Rabs (sin t) <= 1) by apply Rabs_le, SIN_bound.
  assert (C1 : Rabs c1 <= 2 ^ 11) by (apply (quot_le _ _ (1 / 2 ^ 11)); lra). assert (C2 : Rabs c2 <= 2 ^ 11) by (apply (quot_le _ _ (1 / 2 ^ 11)); lra).
  assert (PS : 1 / 2 ^ 21 <= sin o * sin o'). { replace (1 / 2 ^ 21) with (1 / 2 ^ 11 * (1 / 2 ^ 10)) by field. apply Rmult_le_compat; lra. }
  assert (D1 : Rabs (c1 - d1) <= 1 / 2 ^ 22).
  { replace (c1 - d1) with (sin t * sin (o - o') / (sin o * sin o')) by (unfold c1, d1; rewrite !sin_minus; field; lra). apply (quot_le _ _ (1 / 2 ^ 21)); [lra|lra|exact PS|]. rewrite Rabs_mult. pose proof (sin_abs (o - o')) as SS. assert (Rabs (sin t) * Rabs (sin (o - o')) <= 1 * (1 / 2 ^ 43)) by (apply Rmult_le_compat; try apply Rabs_pos; lra). lra. }
  assert (D2 : Rabs (c2 - d2) <= 1 / 2 ^ 22).
  { replace (c2 - d2) with (sin t * (sin o' - sin o) / (sin o * sin o')) by (unfold c2, d2; field; lra). apply (quot_le _ _ (1 / 2 ^ 21)); [lra|lra|exact PS|]. rewrite Rabs_mult. pose proof (sin_lip o' o) as SS. rewrite (Rabs_minus_sym o' o) in SS. assert (Rabs (sin t) * Rabs (sin o' - sin o) <= 1 * (1 / 2 ^ 43)) by (apply Rmult_le_compat; try apply Rabs_pos; lra). lra. }
  replace (psub (padd (pmul c1 A) (pmul c2 B)) (padd (pmul d1 A') (pmul d2 B'))) with (padd (padd (pmul c1 (psub A A')) (pmul (c1 - d1) A')) (padd (pmul c2 (psub B B')) (pmul (c2 - d2) B'))) by (apply pos_eq; cbn [padd psub pmul px3 py3 pz3]; ring).
  eapply Rle_trans; [apply len_tri|]. pose proof (len_tri (pmul c1 (psub A A')) (pmul (c1 - d1) A')) as K1. pose proof (len_tri (pmul c2 (psub B B')) (pmul (c2 - d2) B')) as K2. rewrite !len_mul, (sphere_len1 A' SA') in K1. rewrite !len_mul, (sphere_len1 B' SB') in K2. rewrite <- chd_len in K1, K2.
  assert (P1 : Rabs c1 * chd A A' <= 2 ^ 11 * (1 / 2 ^ 46)) by (apply Rmult_le_compat; try apply Rabs_pos; try apply sqrt_pos; assumption). assert (P2 : Rabs c2 * chd B B' <= 2 ^ 11 * (1 / 2 ^ 46)) by (apply Rmult_le_compat; try apply Rabs_pos; try apply sqrt_pos; assumption). lra.
Qed.
