(** The longitudes of an edge. *)
From Coq Require Import ZArith Reals Lra Lia Psatz Bool.
From Flocq Require Import Core.
From Verif Require Import Base Spec F64 F64Facts IntervalSpec F64Arith F64Error F64Neg R1Proofs S1Proofs VectorModel PredicatesFloat PredicatesError PredicatesStable PredicatesSound PredicatesProofs NormProofs PropsNorm CapSpec CapModel CapError CapEdgeFloat CapEdgeMain
  AngleModel AngleProofs ExpandProofs CapProofs CircleProofs StuvError ChordProofs PropsCap TrigModel TrigSpec TrigProofs TrigWitness RegionModel RegionSpec PropsRegion PropsCap2 PropsDist CellLattice CrossProofs PointModel PointSpec PropsPoint Near PropsFrame2 SegModel SegProofs SegFloat PropsSeg PropsTrig S1Model R1Model RectModel BoundProofs BoundFace BoundCell PropsBound2 BudgetProofs BounderModel BounderFloat PropsInterval.
Open Scope R_scope.

(** ** The cone between two directions of the plane *)
Lemma cone_angle a d c1 c2 : 0 <= c1 -> 0 <= c2 -> 0 <= d <= PI -> exists l r, a <= l <= a + d /\ 0 <= r /\ c1 * cos a + c2 * cos (a + d) = r * cos l /\ c1 * sin a + c2 * sin (a + d) = r * sin l.
Proof.
  intros C1 C2 D. set (x := c1 + c2 * cos d). set (y := c2 * sin d). assert (SD : 0 <= sin d) by (apply sin_ge_0; lra). assert (Y0 : 0 <= y) by (apply Rmult_le_pos; assumption).
  assert (EX : c1 * cos a + c2 * cos (a + d) = x * cos a - y * sin a) by (rewrite cos_plus; unfold x, y; ring). assert (EY : c1 * sin a + c2 * sin (a + d) = x * sin a + y * cos a) by (rewrite sin_plus; unfold x, y; ring).
  destruct (Req_dec (x * x + y * y) 0) as [E|E].
  { pose proof (Rle_0_sqr x) as X2. pose proof (Rle_0_sqr y) as Y2. unfold Rsqr in *. assert (x * x = 0 /\ y * y = 0) as [A B] by lra. apply Rsqr_0_uniq in A. apply Rsqr_0_uniq in B. exists a, 0. rewrite EX, EY, A, B. repeat split; lra. }
  destruct (atan2_real_ok y x E) as (R & PX & PY). set (th := atan2_real y x) in *. set (r := sqrt (x * x + y * y)) in *. assert (R0 : 0 < r). { apply sqrt_lt_R0. pose proof (Rle_0_sqr x) as X2. pose proof (Rle_0_sqr y) as Y2. unfold Rsqr in *. lra. }
  assert (ST : 0 <= sin th) by (apply (Rmult_le_reg_l r); [exact R0|rewrite Rmult_0_r, <- PY; exact Y0]).
  assert (SE : 0 <= sin (d - th)). { apply (Rmult_le_reg_l r); [exact R0|]. rewrite Rmult_0_r, sin_minus. replace (r * (sin d * cos th - cos d * sin th)) with (sin d * (r * cos th) - cos d * (r * sin th)) by ring. rewrite <- PX, <- PY. unfold x, y. replace (sin d * (c1 + c2 * cos d) - cos d * (c2 * sin d)) with (c1 * sin d) by ring. apply Rmult_le_pos; assumption. }
  pose proof PI_tight as PT. assert (T0 : 0 <= th \/ th = - PI). { destruct (Rle_dec 0 th) as [C|C]; [left; exact C|]. right. destruct (Req_dec th (- PI)) as [Q|Q]; [exact Q|]. exfalso. pose proof (sin_gt_0 (- th) ltac:(lra) ltac:(lra)) as G. rewrite sin_neg in G. lra. }
  assert (GO : forall w, 0 <= w <= PI -> x = r * cos w -> y = r * sin w -> 0 <= sin (d - w) -> exists l r0, a <= l <= a + d /\ 0 <= r0 /\ c1 * cos a + c2 * cos (a + d) = r0 * cos l /\ c1 * sin a + c2 * sin (a + d) = r0 * sin l).
  { intros w W HX HY HS. assert (LE : w <= d).
    { apply Rnot_lt_le. intros L. destruct (Req_dec (w - d) PI) as [Q|Q].
      - assert (w = PI) by lra. assert (d = 0) by lra. subst w d. rewrite cos_PI in HX. unfold x in HX. rewrite cos_0 in HX. lra.
      - pose proof (sin_gt_0 (w - d) ltac:(lra) ltac:(lra)) as G. replace (d - w) with (- (w - d)) in HS by ring. rewrite sin_neg in HS. lra. }
    exists (a + w), r. split; [lra|]. split; [lra|]. rewrite EX, EY, HX, HY, cos_plus, sin_plus. split; ring. }
  destruct T0 as [T0|T0].
  - apply (GO th); try assumption; lra.
  - apply (GO PI); [lra| | |].
    + rewrite PX, T0, cos_neg. reflexivity.
    + rewrite PY, T0, sin_neg, sin_PI. ring.
    + rewrite T0 in SE. replace (d - - PI) with (d - PI + 2 * PI) in SE by ring. rewrite sin_plus, sin_2PI, cos_2PI in SE. lra.
Qed.

(** ** A positive combination of two points *)
Lemma cone_point A B P c1 c2 f1 l1 f2 l2 e : P = padd (pmul c1 A) (pmul c2 B) -> on_sphere P -> 0 <= c1 -> 0 <= c2 -> c1 + c2 <= 3000 ->
  - (PI / 2) <= f1 <= PI / 2 -> - (PI / 2) <= f2 <= PI / 2 -> l1 <= l2 <= l1 + PI -> chd A (sphere_at f1 l1) <= e -> chd B (sphere_at f2 l2) <= e ->
  exists l, l1 <= l <= l2 /\ chd P (sphere_at (asin (pz3 P)) l) <= 6000 * e.
Proof.
  intros PE SP C1 C2 CS F1 F2 L DA DB. assert (E0 : 0 <= e) by (eapply Rle_trans; [apply sqrt_pos|exact DA]). assert (K1 : 0 <= cos f1) by (apply cos_ge_0; lra). assert (K2 : 0 <= cos f2) by (apply cos_ge_0; lra).
  destruct (cone_angle l1 (l2 - l1) (c1 * cos f1) (c2 * cos f2)) as (l & r & LL & R0 & EX & EY); [apply Rmult_le_pos; assumption|apply Rmult_le_pos; assumption|lra|]. replace (l1 + (l2 - l1)) with l2 in * by ring. exists l. split; [exact LL|].
  set (Q := padd (pmul c1 (sphere_at f1 l1)) (pmul c2 (sphere_at f2 l2))). assert (PQ : len (psub P Q) <= 3000 * e).
  { replace (psub P Q) with (padd (pmul c1 (psub A (sphere_at f1 l1))) (pmul c2 (psub B (sphere_at f2 l2)))) by (rewrite PE; unfold Q; apply pos_eq; unfold padd, psub, pmul; cbn [px3 py3 pz3]; ring). eapply Rle_trans; [apply len_tri|]. rewrite !len_mul, !Rabs_pos_eq by assumption. rewrite chd_len in DA, DB.
    assert (c1 * len (psub A (sphere_at f1 l1)) <= c1 * e) by (apply Rmult_le_compat_l; assumption). assert (c2 * len (psub B (sphere_at f2 l2)) <= c2 * e) by (apply Rmult_le_compat_l; assumption). assert ((c1 + c2) * e <= 3000 * e) by (apply Rmult_le_compat_r; assumption). lra. }
  assert (QX : px3 Q = r * cos l) by (unfold Q, padd, pmul, sphere_at; cbn [px3 py3 pz3]; lra). assert (QY : py3 Q = r * sin l) by (unfold Q, padd, pmul, sphere_at; cbn [px3 py3 pz3]; lra).
  pose proof (len1 _ SP) as LP. destruct (len_comp P) as (_ & _ & PZ). rewrite LP in PZ. apply Rabs_le_inv in PZ. set (z := pz3 P) in *. set (h := sqrt (px3 P * px3 P + py3 P * py3 P)).
  assert (HC : cos (asin z) = h). { rewrite cos_asin by exact PZ. unfold h. f_equal. unfold on_sphere in SP. fold z in SP. unfold Rsqr. lra. }
  assert (HR : Rabs (h - r) <= 3000 * e). { eapply Rle_trans; [|exact PQ]. replace r with (sqrt (px3 Q * px3 Q + py3 Q * py3 Q)); [apply axis_lip|]. rewrite QX, QY. rewrite <- (sqrt_square r) at 5 by exact R0. f_equal. pose proof (sin2_cos2 l) as S. unfold Rsqr in S. replace (r * cos l * (r * cos l) + r * sin l * (r * sin l)) with (r * r * (sin l * sin l + cos l * cos l)) by ring. rewrite S. ring. }
  set (W := Pos (px3 Q) (py3 Q) z). apply Rle_trans with (chd P W + chd W (sphere_at (asin z) l)); [apply chd_tri|].
  assert (D1 : chd P W <= 3000 * e). { eapply Rle_trans; [|exact PQ]. unfold chd, len. apply sqrt_le_1_alt. unfold dist2, rdot, psub, W. cbn [px3 py3 pz3]. fold z. pose proof (Rle_0_sqr (z - pz3 Q)) as S. unfold Rsqr in S. lra. }
  assert (D2 : chd W (sphere_at (asin z) l) <= 3000 * e).
  { eapply Rle_trans; [|exact HR]. apply chd_le; [apply Rabs_pos|]. rewrite sqr_abs. unfold dist2, W, sphere_at. cbn [px3 py3 pz3]. rewrite HC, QX, QY, sin_asin by exact PZ. pose proof (sin2_cos2 l) as S. unfold Rsqr in S.
    replace ((r * cos l - cos l * h) * (r * cos l - cos l * h) + (r * sin l - sin l * h) * (r * sin l - sin l * h) + (z - z) * (z - z)) with ((h - r) * (h - r) * (sin l * sin l + cos l * cos l)) by ring. rewrite S. lra. }
  lra.
Qed.
(* the points of an edge are positive combinations of its ends *)
Lemma along_cone A B t : on_sphere A -> on_sphere B -> let o := angle_between A B in 0 < o <= 314 / 100 -> 0 <= t <= o ->
  exists c1 c2, 0 <= c1 /\ 0 <= c2 /\ c1 + c2 <= 3000 /\ along A B t = padd (pmul c1 A) (pmul c2 B).
Proof.
  intros SA SB o HO HT. destruct (angle_trig _ _ SA SB) as (O & CO & SI). cbv zeta in O, CO, SI. fold o in O, CO, SI. pose proof PI_tight as PT. assert (SP : 0 < sin o) by (apply sin_gt_0; lra).
  exists (sin (o - t) / sin o), (sin t / sin o). assert (S1 : 0 <= sin (o - t)) by (apply sin_ge_0; lra). assert (S2 : 0 <= sin t) by (apply sin_ge_0; lra). assert (IP : 0 < / sin o) by (apply Rinv_0_lt_compat; exact SP).
  split; [apply Rmult_le_pos; lra|]. split; [apply Rmult_le_pos; lra|]. split.
  - replace (sin (o - t) / sin o + sin t / sin o) with ((sin (o - t) + sin t) / sin o) by (field; lra). apply (Rmult_le_reg_r (sin o)); [exact SP|]. unfold Rdiv. rewrite Rmult_assoc, Rinv_l, Rmult_1_r by lra.
    rewrite form3. replace ((o - t + t) / 2) with (o / 2) by field. assert (SO : sin o = 2 * sin (o / 2) * cos (o / 2)) by (rewrite <- sin_2a; f_equal; field). rewrite SO. assert (SH : 0 < sin (o / 2)) by (apply sin_gt_0; lra).
    assert (CH : 1 / 3000 <= cos (o / 2)). { rewrite <- sin_shift. pose proof (sin_half (PI / 2 - o / 2) ltac:(lra)). lra. } pose proof (COS_bound ((o - t - t) / 2)) as CB.
    assert (cos ((o - t - t) / 2) * sin (o / 2) <= 1 * sin (o / 2)) by (apply Rmult_le_compat_r; lra). assert (1 / 3000 * sin (o / 2) <= cos (o / 2) * sin (o / 2)) by (apply Rmult_le_compat_r; lra). lra.
  - assert (LR : len (psub B (pmul (rdot A B) A)) = sin o). { rewrite SI. unfold len. f_equal. assert (AA : rdot A A = 1) by exact SA. assert (BB : rdot B B = 1) by exact SB. replace (rdot (psub B (pmul (rdot A B) A)) (psub B (pmul (rdot A B) A))) with (rdot B B - 2 * rdot A B * rdot A B + rdot A B * rdot A B * rdot A A) by (unfold rdot, psub, pmul; cbn [px3 py3 pz3]; ring). rewrite AA, BB. ring. }
    unfold along, heading. change (dot3 A B) with (rdot A B). change (Pos (px3 B - rdot A B * px3 A) (py3 B - rdot A B * py3 A) (pz3 B - rdot A B * pz3 A)) with (psub B (pmul (rdot A B) A)). change (length3 (psub B (pmul (rdot A B) A))) with (len (psub B (pmul (rdot A B) A))). rewrite LR. unfold psub, padd, pmul. cbn [px3 py3 pz3]. rewrite sin_minus, <- CO. apply pos_eq; cbn [px3 py3 pz3]; field; lra.
Qed.

(** ** The interval of the longitudes *)
Lemma pair_arc2 p q : angle p -> angle q -> let i := s1_from_point_pair p q in
  Valid i /\ nonempty i /\ span i <= pi + 6 * ulp1 /\
  (B2R (slo i) = B2R (norm_pi p) /\ B2R (shi i) = B2R (norm_pi q) \/ B2R (slo i) = B2R (norm_pi q) /\ B2R (shi i) = B2R (norm_pi p)).
Proof.
  intros Hp Hq i. pose proof pi_bounds as PB. destruct C48_s1_construction as (_ & W & _). destruct (W p q Hp Hq) as (V & _). fold i in V. split; [exact V|].
  destruct (norm_pi_val p Hp) as (Fp & Rp & _). destruct (norm_pi_val q Hq) as (Fq & Rq & _). unfold i, s1_from_point_pair. cbv zeta. set (a := norm_pi p) in *. set (b := norm_pi q) in *. clearbody a b. clear V i W.
  assert (Aa : angle a) by (split; [exact Fp|lra]). assert (Ab : angle b) by (split; [exact Fq|lra]). destruct (positive_distance_spec a b Aa Ab) as (D1 & D2 & D3).
  unfold nonempty, span, arc_end, turn in *. destruct (fle_R _ PI64 D1 PI64_finite) as [C|C]; rewrite pi_val in C; cbn [slo shi]; (split; [lra|]); repeat destruct Rle_dec; try lra; split; try lra; auto.
Qed.
Lemma turn_chd f x y (k : BinInt.Z) e : Rabs (x - y - 2 * PI * IZR k) <= e -> chd (sphere_at f x) (sphere_at f y) <= e.
Proof.
  intros H. assert (E : sphere_at f y = sphere_at f (y + 2 * PI * IZR k)) by (symmetry; apply sphere_turn).
  rewrite E. eapply Rle_trans; [apply place_lip|]. replace (f - f) with 0 by ring. rewrite Rabs_R0. replace (x - (y + 2 * PI * IZR k)) with (x - y - 2 * PI * IZR k) by ring. lra.
Qed.
Lemma edge_lng_ok fatan2 a b t : accurate_atan2 fatan2 -> is_unit a = true -> is_unit b = true ->
  let o := angle_between (direction a) (direction b) in 0 < o <= 314 / 100 -> 0 <= t <= o ->
  let P := along (direction a) (direction b) t in
  exists l, circ (edge_lng (ll_of_point fatan2 a) (ll_of_point fatan2 b)) l /\ Rabs l <= pi /\ chd P (sphere_at (asin (pz3 P)) l) <= 1 / 2 ^ 34.
Proof.
  intros AT UA UB o HO HT P. pose proof (unit_sphere a UA) as SA. pose proof (unit_sphere b UB) as SB. destruct (along_cone _ _ t SA SB HO HT) as (c1 & c2 & C1 & C2 & CS & PE). fold P in PE.
  assert (SP : on_sphere P). { destruct (edge_frame _ _ zaxis SA SB zaxis_on) as (EF & _). { pose proof PI_tight. apply sin_gt_0; fold o; lra. } apply (EF t). }
  destruct (C103_latlng fatan2 a AT UA) as [Va Da]. destruct (C103_latlng fatan2 b AT UB) as [Vb Db]. cbv zeta in *. rewrite apart_chd in Da, Db. set (p := ll_of_point fatan2 a) in *. set (q := ll_of_point fatan2 b) in *. apply valid_ll in Va, Vb. destruct Va as (_ & Fa & Ba & La). destruct Vb as (_ & Fb & Bb & Lb). apply Rabs_le_inv in Ba, La, Bb, Lb. unfold place in Da, Db. pose proof pi_PI as PP. pose proof PI_tight as PT. pose proof pi_bounds as PB.
  assert (Ap : angle (lng p)) by (split; [exact Fa|lra]). assert (Aq : angle (lng q)) by (split; [exact Fb|lra]). destruct (pair_arc2 (lng p) (lng q) Ap Aq) as (V & NE & SPN & ENDS). cbv zeta in V, NE, SPN, ENDS.
  assert (SUB : forall l, circ (s1_from_point_pair (lng p) (lng q)) l -> circ (edge_lng p q) l). { intros l H. unfold edge_lng. cbv zeta. destruct fge; [apply Arc_FULL|exact H]. }
  set (i := s1_from_point_pair (lng p) (lng q)) in *. clearbody i. pose proof (span_range i V NE) as SR.
  assert (CORE : exists l, B2R (slo i) <= l <= B2R (slo i) + span i /\ chd P (sphere_at (asin (pz3 P)) l) <= 6000 * (1 / 2 ^ 47)).
  { set (l2 := Rmin (B2R (slo i) + span i) (B2R (slo i) + PI)). assert (L2 : B2R (slo i) <= l2 <= B2R (slo i) + PI) by (unfold l2; split; [apply Rmin_glb; lra|apply Rmin_r]). assert (L3 : B2R (slo i) + span i - 6 * ulp1 <= l2 <= B2R (slo i) + span i) by (unfold l2; split; [apply Rmin_glb; lra|apply Rmin_l]).
    assert (SE : B2R (slo i) + span i = arc_end (B2R (slo i)) (B2R (shi i))) by (unfold span; ring).
    assert (TN : forall x : f64, angle x -> exists k, Rabs (B2R (norm_pi x) - B2R x - 2 * PI * IZR k) <= 0 + 2 * ulp1). { intros x Hx. apply (norm_pi_turn x (B2R x) 0 0 Hx). replace (B2R x - B2R x - 2 * PI * 0) with 0 by ring. rewrite Rabs_R0. lra. }
    assert (TE : forall x : f64, angle x -> B2R (shi i) = B2R (norm_pi x) -> exists k, Rabs (l2 - B2R x - 2 * PI * IZR k) <= 10 * ulp1). { intros x Hx E. destruct (TN x Hx) as [k Hk]. rewrite <- E in Hk. destruct (end_turn (B2R (slo i)) _ _ _ _ Hk) as [k' Hk']. exists k'. rewrite <- SE in Hk'. apply Rabs_le_inv in Hk'. apply Rabs_le. lra. }
    destruct (TN _ Ap) as [kp Hp]. destruct (TN _ Aq) as [kq Hq].
    destruct ENDS as [[E1 E2]|[E1 E2]].
    - destruct (TE _ Aq E2) as [k Hk]. rewrite <- E1 in Hp. destruct (cone_point (direction a) (direction b) P c1 c2 (B2R (lat p)) (B2R (slo i)) (B2R (lat q)) l2 (1 / 2 ^ 47)) as (l & LL & D); try assumption; try lra.
      + eapply Rle_trans; [apply chd_tri with (b := sphere_at (B2R (lat p)) (B2R (lng p)))|]. pose proof (turn_chd (B2R (lat p)) _ _ _ _ Hp) as TC. rewrite chd_sym in TC. rewrite chd_sym in Da. lra.
      + eapply Rle_trans; [apply chd_tri with (b := sphere_at (B2R (lat q)) (B2R (lng q)))|]. pose proof (turn_chd (B2R (lat q)) _ _ _ _ Hk) as TC. rewrite chd_sym in TC. rewrite chd_sym in Db. lra.
      + exists l. split; [lra|exact D].
    - destruct (TE _ Ap E2) as [k Hk]. rewrite <- E1 in Hq. destruct (cone_point (direction b) (direction a) P c2 c1 (B2R (lat q)) (B2R (slo i)) (B2R (lat p)) l2 (1 / 2 ^ 47)) as (l & LL & D); try assumption; try lra.
      + rewrite PE. apply pos_eq; unfold padd, pmul; cbn [px3 py3 pz3]; ring.
      + eapply Rle_trans; [apply chd_tri with (b := sphere_at (B2R (lat q)) (B2R (lng q)))|]. pose proof (turn_chd (B2R (lat q)) _ _ _ _ Hq) as TC. rewrite chd_sym in TC. rewrite chd_sym in Db. lra.
      + eapply Rle_trans; [apply chd_tri with (b := sphere_at (B2R (lat p)) (B2R (lng p)))|]. pose proof (turn_chd (B2R (lat p)) _ _ _ _ Hk) as TC. rewrite chd_sym in TC. rewrite chd_sym in Da. lra.
      + exists l. split; [lra|exact D]. }
  destruct CORE as (l & LL & D). destruct (arc_clamp i (B2R (slo i)) (B2R (slo i) + span i) l 0 V NE LL ltac:(lra)) as (l' & n & CI & BL & DL); [rewrite Rminus_diag_eq, Rabs_R0 by reflexivity; lra|rewrite Rminus_diag_eq, Rabs_R0 by reflexivity; lra|].
  exists l'. split; [apply SUB, CI|]. split; [exact BL|]. pose proof (turn_chd (asin (pz3 P)) l' l n _ DL) as T. rewrite chd_sym in T. pose proof (chd_tri P (sphere_at (asin (pz3 P)) l) (sphere_at (asin (pz3 P)) l')) as T2. lra.
Qed.
