(** The bounding rectangle of a cell. *)
From Coq Require Import ZArith Reals Lra Lia Psatz Bool List Classical.
From Flocq Require Import Core.
From Verif Require Import Base Spec F64 F64Facts IntervalSpec CircleSpec RectSpec F64Arith F64Error F64Neg R1Model R1Proofs S1Model S1Proofs S1Ops VectorModel StuvModel AngleModel AngleProofs ExpandProofs CircleProofs PropsInterval PropsCircle
  RectModel RectProofs PropsRect PropsRect2 CapSpec CapModel StuvError CellIdModel HilbertModel HilbertSpec HilbertGeom CellSpec CellModel CellLattice CellProofs CellPoint CellVertex ChordProofs CapError CapCell
  PredicatesError PredicatesFloat PredicatesSound PredicatesStable PredicatesProofs CapEdgeFloat CapEdgeMain RegionSpec CoverProofs TrigModel TrigSpec TrigProofs TrigWitness PropsTrig PropsCap2 PropsDist
  BoundModel BoundSpec BoundProofs.
Import ListNotations.
Open Scope R_scope.
Notation lat := AngleModel.lat.
Notation lng := AngleModel.lng.

(** ** Real geometry of the corners *)
Definition uz (f : BinInt.Z) : bool := (f <? 3)%Z || (f =? 5)%Z.
Definition vz0 (f : BinInt.Z) : bool := (2 <=? f)%Z.
Definition cross2 (a b : CapSpec.pos) : R := px3 a * py3 b - py3 a * px3 b.
Definition dot2 (a b : CapSpec.pos) : R := px3 a * px3 b + py3 a * py3 b.
Definition sgn_same (a b c : R) : Prop := 0 <= a /\ 0 <= b /\ 0 <= c \/ a <= 0 /\ b <= 0 /\ c <= 0.
Definition flat (a : CapSpec.pos) : R := px3 a * px3 a + py3 a * py3 a.
Definition high (a b : CapSpec.pos) : Prop := pz3 b * pz3 b * (flat a) <= pz3 a * pz3 a * (flat b).

Lemma corner_real f u0 u1 v0 v1 u v (i j : bool) : (0 <= f < 6)%Z -> -1 <= u0 -> u0 < u1 -> u1 <= 1 -> -1 <= v0 -> v0 < v1 -> v1 <= 1 ->
  u0 <= u <= u1 -> v0 <= v <= v1 ->
  u1 <= 0 /\ i = uz f \/ 0 <= u0 /\ i = negb (uz f) -> v1 <= 0 /\ j = vz0 f \/ 0 <= v0 /\ j = negb (vz0 f) ->
  let ub (b : bool) := if b then u1 else u0 in let vb (b : bool) := if b then v1 else v0 in
  let W := face_pos f u v in let P := face_pos f (ub i) (vb j) in let Q := face_pos f (ub (negb i)) (vb (negb j)) in
  let A := face_pos f (ub i) (vb (negb j)) in let B := face_pos f (ub (negb i)) (vb j) in
  sgn_same (pz3 W) (pz3 P) (pz3 Q) /\ high P W /\ high W Q /\ 0 < flat A /\ 0 < flat B /\
  0 <= dot2 A W /\ 0 <= dot2 W B /\ 0 <= dot2 A B /\
  (0 <= cross2 A W /\ 0 <= cross2 W B /\ 0 <= cross2 A B \/ 0 <= cross2 B W /\ 0 <= cross2 W A /\ 0 <= cross2 B A).
Proof.
  intros F U0 U1 U2 V0 V1 V2 HU HV HI HJ. cbv zeta. unfold sgn_same, high, flat, dot2, cross2.
  assert (M : forall a b c d, 0 <= a <= b -> 0 <= c <= d -> a * c <= b * d) by (intros; apply Rmult_le_compat; lra).
  assert (SQ : forall a b, 0 <= a <= b \/ b <= a <= 0 -> 0 <= a * a <= b * b) by (intros; nra).
  assert (SP : forall a b, 0 <= a /\ 0 <= b \/ a <= 0 /\ b <= 0 -> 0 <= a * b) by (intros; nra).
  destruct (face_zero_cases f F) as [-> | [-> | [-> | [-> | [-> | ->]]]]]; unfold face_pos, uz, vz0 in *; cbn [Z.eqb Pos.eqb Z.ltb Z.leb Z.compare Pos.compare Pos.compare_cont orb negb px3 py3 pz3] in *.
  all: destruct HI as [[HI ->]|[HI ->]]; destruct HJ as [[HJ ->]|[HJ ->]]; cbn [negb] in *.
  all: split; [lra|].
  all: assert (DJ : forall a b, 0 <= a <= b \/ b <= a <= 0 -> a * a <= b * b) by (intros; apply SQ; assumption).
  all: assert (G2 : forall a b c d e g, (0 <= a <= d \/ d <= a <= 0) -> (0 <= b <= e \/ e <= b <= 0) -> (0 <= c <= g \/ g <= c <= 0) ->
    a * a * (b * b + c * c) <= d * d * (e * e + g * g)) by (intros a b c d e g HA HB HC; apply SQ in HA; apply SQ in HB; apply SQ in HC; apply M; lra).
  all: assert (G3 : forall a b c d, (0 <= a <= c /\ 0 <= b <= d \/ c <= a <= 0 /\ d <= b <= 0 \/ 0 <= a <= c /\ d <= b <= 0 \/ c <= a <= 0 /\ 0 <= b <= d) -> 0 <= c * d - a * b \/ 0 <= a * b - c * d) by (intros; nra).
  all: split; [apply G2; first [left; lra | right; lra]|].
  all: split; [apply G2; first [left; lra | right; lra]|].
  all: split; [nra|]. all: split; [nra|]. all: split; [nra|]. all: split; [nra|]. all: split; [nra|].
  all: first [left; split; [nra|split; nra] | right; split; [nra|split; nra]].
Qed.

Lemma cone A B W : 0 < flat A -> 0 < flat B -> 0 <= dot2 A W -> 0 <= dot2 W B -> 0 <= dot2 A B -> 0 <= cross2 A W -> 0 <= cross2 W B -> 0 <= cross2 A B ->
  exists a b l, a <= l <= b /\ b <= a + PI / 2 /\ px3 A = sqrt (flat A) * cos a /\ py3 A = sqrt (flat A) * sin a /\
    px3 B = sqrt (flat B) * cos b /\ py3 B = sqrt (flat B) * sin b /\ px3 W = sqrt (flat W) * cos l /\ py3 W = sqrt (flat W) * sin l.
Proof.
  intros FA FB D1 D2 D3 C1 C2 C3. unfold dot2, cross2 in *. pose proof PI_tight as PT.
  assert (NA : 0 < sqrt (flat A)) by (apply sqrt_lt_R0; exact FA). assert (NB : 0 < sqrt (flat B)) by (apply sqrt_lt_R0; exact FB).
  assert (EA : sqrt (flat A) * sqrt (flat A) = flat A) by (apply sqrt_sqrt; lra). assert (EB : sqrt (flat B) * sqrt (flat B) = flat B) by (apply sqrt_sqrt; lra).
  assert (SA : exists a, px3 A = sqrt (flat A) * cos a /\ py3 A = sqrt (flat A) * sin a).
  { destruct (Rle_dec 0 (py3 A)) as [P|P].
    - destruct (turn_to 1 0 (px3 A) (py3 A) 1 (sqrt (flat A)) 0) as (a & _ & H1 & H2 & _); try (rewrite ?cos_0, ?sin_0; lra); try exact NA; try exact EA. exists a. auto.
    - destruct (turn_to (-1) 0 (px3 A) (py3 A) 1 (sqrt (flat A)) PI) as (a & _ & H1 & H2 & _); try (rewrite ?cos_PI, ?sin_PI; lra); try exact NA; try exact EA. exists a. auto. }
  destruct SA as (a & A1 & A2).
  destruct (turn_to _ _ (px3 B) (py3 B) _ (sqrt (flat B)) a NA NB A1 A2 EB C3) as (b & Rb & B1 & B2 & Hb). specialize (Hb D3).
  destruct (Rle_lt_or_eq_dec 0 (flat W)) as [FW|FW]; [unfold flat; nra| |].
  - assert (NW : 0 < sqrt (flat W)) by (apply sqrt_lt_R0; exact FW). assert (EW : sqrt (flat W) * sqrt (flat W) = flat W) by (apply sqrt_sqrt; lra).
    destruct (turn_to _ _ (px3 W) (py3 W) _ (sqrt (flat W)) a NA NW A1 A2 EW C1) as (l & Rl & W1 & W2 & Hl). specialize (Hl D1).
    exists a, b, l. split; [|split; [lra|repeat split; assumption]]. split; [lra|]. apply Rnot_lt_le. intros H.
    assert (S : 0 <= sqrt (flat W) * sqrt (flat B) * sin (b - l)). { rewrite sin_minus. replace (sqrt (flat W) * sqrt (flat B) * (sin b * cos l - cos b * sin l)) with ((sqrt (flat W) * cos l) * (sqrt (flat B) * sin b) - (sqrt (flat W) * sin l) * (sqrt (flat B) * cos b)) by ring. rewrite <- W1, <- W2, <- B1, <- B2. lra. }
    assert (sin (b - l) < 0) by (apply sin_lt_0_var; lra). assert (0 < sqrt (flat W) * sqrt (flat B)) by (apply Rmult_lt_0_compat; assumption). nra.
  - exists a, b, a. rewrite <- FW, sqrt_0. unfold flat in FW. assert (px3 W = 0 /\ py3 W = 0) as [-> ->] by nra. split; [lra|]. split; [lra|]. repeat split; try assumption; ring.
Qed.

Definition len3 (a : CapSpec.pos) : R := sqrt (flat a + pz3 a * pz3 a).
Lemma quot_le a b n m : 0 < n -> 0 < m -> 0 <= a -> 0 <= b -> (a * a) * (m * m) <= (b * b) * (n * n) -> a / n <= b / m.
Proof.
  intros N M A B H. apply (Rmult_le_reg_r (n * m)); [apply Rmult_lt_0_compat; assumption|]. replace (a / n * (n * m)) with (a * m) by (field; lra). replace (b / m * (n * m)) with (b * n) by (field; lra).
  apply Rnot_lt_le. intros L. assert (0 <= b * n) by (apply Rmult_le_pos; lra). assert ((b * n) * (b * n) < (a * m) * (a * m)) by (apply Rmult_le_0_lt_compat; lra). lra.
Qed.
Lemma high_quot a b : 1 <= flat a + pz3 a * pz3 a -> 1 <= flat b + pz3 b * pz3 b -> high a b ->
  (0 <= pz3 a -> 0 <= pz3 b -> pz3 b / len3 b <= pz3 a / len3 a) /\ (pz3 a <= 0 -> pz3 b <= 0 -> pz3 a / len3 a <= pz3 b / len3 b).
Proof.
  intros A B H. unfold high in H. assert (NA : 0 < len3 a) by (apply sqrt_lt_R0; lra). assert (NB : 0 < len3 b) by (apply sqrt_lt_R0; lra).
  assert (EA : len3 a * len3 a = flat a + pz3 a * pz3 a) by (apply sqrt_sqrt; lra). assert (EB : len3 b * len3 b = flat b + pz3 b * pz3 b) by (apply sqrt_sqrt; lra).
  assert (Q : (pz3 b * pz3 b) * (len3 a * len3 a) <= (pz3 a * pz3 a) * (len3 b * len3 b)) by (rewrite EA, EB; lra).
  split; intros PA PB.
  - apply quot_le; assumption.
  - assert (H1 : - pz3 b / len3 b <= - pz3 a / len3 a) by (apply quot_le; lra). unfold Rdiv in *. lra.
Qed.
Lemma asin_mono a b : -1 <= a -> a <= b -> b <= 1 -> asin a <= asin b.
Proof.
  intros A H B. pose proof (asin_bound a) as A1. pose proof (asin_bound b) as B1. apply Rnot_lt_le. intros C.
  assert (sin (asin b) < sin (asin a)) by (apply sin_increasing_1; lra). rewrite !sin_asin in H0 by lra. lra.
Qed.
Lemma quot_unit a : 1 <= flat a + pz3 a * pz3 a -> -1 <= pz3 a / len3 a <= 1.
Proof.
  intros A. assert (NA : 0 < len3 a) by (apply sqrt_lt_R0; lra). assert (EA : len3 a * len3 a = flat a + pz3 a * pz3 a) by (apply sqrt_sqrt; lra). unfold flat in *.
  assert (- len3 a <= pz3 a <= len3 a) by nra. split; apply (Rmult_le_reg_r (len3 a)); try lra; unfold Rdiv; rewrite Rmult_assoc, Rinv_l by lra; lra.
Qed.

(** ** Corners as computed *)
Lemma face_uv_some f (a b : f64) : (0 <= f < 6)%Z -> exists r, face_uv_to_xyz f a b = Some r.
Proof. intros F. unfold face_uv_to_xyz. destruct (face_zero_cases f F) as [-> | [-> | [-> | [-> | [-> | ->]]]]]; cbn [Z.eqb Pos.eqb]; eauto. Qed.
Lemma face_uv_fvec f (a b : f64) r : (0 <= f < 6)%Z -> finite a -> finite b -> face_uv_to_xyz f a b = Some r -> fvec r.
Proof.
  intros F Fa Fb. destruct f1_val as [F1 _]. destruct (fneg_val f1 F1) as [Fn _]. destruct (fneg_val a Fa) as [Fna _]. destruct (fneg_val b Fb) as [Fnb _].
  unfold face_uv_to_xyz. destruct (face_zero_cases f F) as [-> | [-> | [-> | [-> | [-> | ->]]]]]; cbn [Z.eqb Pos.eqb]; intros E; apply Some_inj in E; subst r; repeat split; assumption.
Qed.
Lemma corner_pt s f (i j : bool) : c_face s = f -> (0 <= f < 6)%Z ->
  finite (lo1 (rx (c_uv s))) -> finite (hi1 (rx (c_uv s))) -> finite (lo1 (ry (c_uv s))) -> finite (hi1 (ry (c_uv s))) ->
  -1 <= B2R (lo1 (rx (c_uv s))) <= 1 -> -1 <= B2R (hi1 (rx (c_uv s))) <= 1 -> -1 <= B2R (lo1 (ry (c_uv s))) <= 1 -> -1 <= B2R (hi1 (ry (c_uv s))) <= 1 ->
  exists r, point_from_ij s i j = Some r /\ fvec r /\ Rabs (X r) <= 1 /\ Rabs (Y r) <= 1 /\ Rabs (Z r) <= 1 /\
    let p := face_pos f (if i then B2R (hi1 (rx (c_uv s))) else B2R (lo1 (rx (c_uv s)))) (if j then B2R (hi1 (ry (c_uv s))) else B2R (lo1 (ry (c_uv s)))) in
    X r = px3 p /\ Y r = py3 p /\ Z r = pz3 p.
Proof.
  intros Ef Hf F1 F2 F3 F4 B1 B2 B3 B4. unfold point_from_ij. rewrite Ef. unfold uv_from_ij. cbn [px py].
  set (a := if i then hi1 (rx (c_uv s)) else lo1 (rx (c_uv s))). set (b := if j then hi1 (ry (c_uv s)) else lo1 (ry (c_uv s))).
  assert (Fa : finite a) by (unfold a; destruct i; assumption). assert (Fb : finite b) by (unfold b; destruct j; assumption).
  assert (Ba : -1 <= B2R a <= 1) by (unfold a; destruct i; assumption). assert (Bb : -1 <= B2R b <= 1) by (unfold b; destruct j; assumption).
  replace (if i then B2R (hi1 (rx (c_uv s))) else B2R (lo1 (rx (c_uv s)))) with (B2R a) by (unfold a; destruct i; reflexivity).
  replace (if j then B2R (hi1 (ry (c_uv s))) else B2R (lo1 (ry (c_uv s)))) with (B2R b) by (unfold b; destruct j; reflexivity).
  destruct (face_uv_some f a b Hf) as [r Er]. exists r. destruct (face_uv_pos f a b r Hf Fa Fb Er) as (P1 & P2 & P3). split; [exact Er|]. split; [exact (face_uv_fvec f a b r Hf Fa Fb Er)|].
  cbv zeta. rewrite <- P1, <- P2, <- P3. clear - Ba Bb Hf. destruct (face_zero_cases f Hf) as [-> | [-> | [-> | [-> | [-> | ->]]]]]; unfold face_pos; cbn [Z.eqb Pos.eqb px3 py3 pz3]; repeat split; apply Rabs_le; lra.
Qed.
Lemma far_corner_ok axis (a b : f64) (z : bool) : feq (vz axis) f0 = z -> finite a -> finite b -> -1 <= B2R a -> B2R a + / 1073741824 <= B2R b -> B2R b <= 1 -> B2R b <= 0 \/ 0 <= B2R a ->
  B2R b <= 0 /\ far_corner axis (fadd a b) = z \/ 0 <= B2R a /\ far_corner axis (fadd a b) = negb z.
Proof.
  intros EZ Fa Fb A G B Q. unfold far_corner. rewrite EZ. destruct f0_val as [F0 V0]. unfold fgt.
  destruct (half2 _ _ (fadd_result _ _ Fa Fb) ltac:(apply Rabs_le; lra)) as (FS & _ & ES).
  destruct (flt_R (fadd a b) f0 FS F0) as [L1|L1]; destruct (flt_R f0 (fadd a b) F0 FS) as [L2|L2]; rewrite V0 in *; destruct Q as [Q|Q]; try lra; [left|right]; (split; [exact Q|]); destruct z; reflexivity.
Qed.
Lemma axes f : (0 <= f < 6)%Z -> exists a b, u_axis f = Some a /\ v_axis f = Some b /\ feq (vz a) f0 = uz f /\ feq (vz b) f0 = vz0 f.
Proof. intros F. destruct (face_zero_cases f F) as [-> | [-> | [-> | [-> | [-> | ->]]]]]; eexists _, _; (split; [reflexivity|split; [reflexivity|]]); split; vm_compute; reflexivity. Qed.
Lemma half_cut a l : (0 < l <= 30)%Z -> (side l | a)%Z -> (a + side l <= 2 ^ 29 \/ 2 ^ 29 <= a)%Z.
Proof.
  intros L [m ->]. unfold side. assert (E : (2 ^ 29 = 2 ^ (l - 1) * 2 ^ (30 - l))%Z) by (rewrite <- Z.pow_add_r by lia; f_equal; lia). rewrite E.
  pose proof (Z.pow_pos_nonneg 2 (30 - l) ltac:(lia) ltac:(lia)) as P. destruct (Z_lt_le_dec m (2 ^ (l - 1))) as [H|H]; [left|right]; nia.
Qed.

(* the four values of the corners of a cell below the top level *)
Lemma cell_quadrant c : wf c -> (0 < lv c)%Z -> let r := uvrect (sq c) in
  finite (lo1 (rx r)) /\ finite (hi1 (rx r)) /\ finite (lo1 (ry r)) /\ finite (hi1 (ry r)) /\
  -1 <= B2R (lo1 (rx r)) /\ B2R (lo1 (rx r)) + / 1073741824 <= B2R (hi1 (rx r)) /\ B2R (hi1 (rx r)) <= 1 /\
  -1 <= B2R (lo1 (ry r)) /\ B2R (lo1 (ry r)) + / 1073741824 <= B2R (hi1 (ry r)) /\ B2R (hi1 (ry r)) <= 1 /\
  (B2R (hi1 (rx r)) <= 0 \/ 0 <= B2R (lo1 (rx r))) /\ (B2R (hi1 (ry r)) <= 0 \/ 0 <= B2R (lo1 (ry r))).
Proof.
  intros W LV. destruct (sq_aligned c W) as ((_ & P & D1 & D2 & B1 & B2 & B3 & B4) & F & S). cbv zeta. unfold uvrect. cbn [rx ry lo1 hi1].
  destruct (cell_line (sq_i (sq c)) (sq_i (sq c) + sq_side (sq c)) ltac:(lia) ltac:(lia) ltac:(lia)) as (X0 & X0' & X1 & X2 & X3).
  destruct (cell_line (sq_j (sq c)) (sq_j (sq c) + sq_side (sq c)) ltac:(lia) ltac:(lia) ltac:(lia)) as (Y0 & Y0' & Y1 & Y2 & Y3).
  assert (W' := W). destruct W' as [WL _].
  assert (K : forall a, (side (lv c) | a)%Z -> (0 <= a)%Z -> (a + side (lv c) <= 2 ^ 30)%Z -> B2R (uvl (2 * (a + side (lv c)))) <= 0 \/ 0 <= B2R (uvl (2 * a))).
  { intros a Da A0 A1. destruct uvl_ends as (_ & _ & E). assert (SP : (0 < side (lv c))%Z) by (rewrite <- S; exact P).
    destruct (half_cut a (lv c) ltac:(lia) Da) as [H|H]; [left|right]; rewrite <- E.
    - destruct (Z.eq_dec (2 * (a + side (lv c))) (2 ^ 30)) as [->|NE]; [lra|]. pose proof (uvl_gap (2 * (a + side (lv c))) (2 ^ 30) ltac:(lia) ltac:(lia)). lra.
    - destruct (Z.eq_dec (2 * a) (2 ^ 30)) as [->|NE]; [lra|]. pose proof (uvl_gap (2 ^ 30) (2 * a) ltac:(lia) ltac:(lia)). lra. }
  rewrite S in *. do 10 (split; [assumption|]). split; apply K; assumption.
Qed.

(** ** Growing a rectangle *)
Lemma m_val : finite (fmul f2 DBL_EPSILON) /\ B2R (fmul f2 DBL_EPSILON) = 2 * ulp1.
Proof.
  assert (E : feq (fmul f2 DBL_EPSILON) (lit 1 (-51)) = true) by (vm_compute; reflexivity). destruct (lit_val 1 (-51) ltac:(lia) ltac:(lia)) as [F V].
  assert (FM : finite (fmul f2 DBL_EPSILON)) by (vm_compute; reflexivity). split; [exact FM|]. rewrite (feq_B2R _ _ FM F E), V. change (bpow radix2 (-51)) with (/ 2251799813685248). lra.
Qed.
Lemma expand_sub i : okc i -> ~ void (circ i) -> subset (circ i) (circ (s1_expanded i (fmul f2 DBL_EPSILON))).
Proof.
  intros V N. destruct m_val as [FM VM]. destruct (classic (seam i)) as [S|S].
  - assert (E : i = S1 PI64 (lit (-7074237752028439) (-51))).
    { destruct S as [S1 S2]. pose proof pi_bounds as PB. destruct V as (F1 & F2 & _). destruct (lit_val (-7074237752028439) (-51) ltac:(lia) ltac:(lia)) as [FL VL].
      assert (VL' : B2R (lit (-7074237752028439) (-51)) = - pi + 2 * PropsCircle.tiny). { rewrite VL, tiny_eq, pi_num. change (bpow radix2 (-51)) with (/ 2251799813685248). lra. }
      destruct i as [a b]. cbn [slo shi] in *. f_equal.
      - apply B2R_inj; [apply is_finite_strict_B2R; lra|reflexivity|rewrite S1; symmetry; apply pi_val].
      - apply B2R_inj; [apply is_finite_strict_B2R; rewrite tiny_eq in S2; lra|apply is_finite_strict_B2R; rewrite VL', tiny_eq; lra|lra]. }
    pose proof (s1_expanded_valid i (fmul f2 DBL_EPSILON) V FM) as VE. apply (C48_s1_predicates _ _ VE V). rewrite E. vm_compute. reflexivity.
  - destruct (C88_expanded_partial i (fmul f2 DBL_EPSILON) V N S FM ltac:(lra)) as (_ & W & _). exact W.
Qed.
Lemma grow_sub r m : okz r -> ~ void (zset r) -> finite (lat m) -> finite (lng m) -> 0 <= B2R (lat m) -> subset (circ (rlng r)) (circ (s1_expanded (rlng r) (lng m))) ->
  okz (rect_expanded r m) /\ subset (zset r) (zset (rect_expanded r m)).
Proof.
  intros V N FA FB PA W1. pose proof pi_bounds as PB. destruct (C95_expanded_sides r m V FA FB) as [VJ SJ]. split; [exact VJ|]. set (j := rect_expanded r m) in *.
  destruct (okz_ends r V N) as (FH & B1 & B2 & NW & SL). pose proof V as (FL & _).
  destruct (lat_down _ _ FL ltac:(apply Rabs_le; lra) FA PA) as (N1 & D1 & _). destruct (lat_up _ _ FH ltac:(apply Rabs_le; lra) FA PA) as (N2 & U1 & _).
  assert (E : r1_expanded (rlat r) (lat m) = R1 (fsub (lo1 (rlat r)) (lat m)) (fadd (hi1 (rlat r)) (lat m))).
  { unfold r1_expanded. destruct (r1_is_empty (rlat r)) eqn:Q; [|reflexivity]. exfalso. apply N. apply zset_void; auto. apply (r1_is_empty_spec _ (okz_lat r V)), Q. }
  rewrite E in SJ. unfold between in SJ. cbn [lo1 hi1] in SJ.
  intros [f t] [Hf Ht]. cbn [fst snd] in *. apply SL in Hf. apply SJ. cbn [fst snd]. split; [split|].
  - destruct (ev (fsub (lo1 (rlat r)) (lat m))); unfold ele in *; try contradiction; auto. lra.
  - destruct (ev (fadd (hi1 (rlat r)) (lat m))); unfold ele in *; try contradiction; auto. lra.
  - split; [lra|]. apply W1, Ht.
Qed.
Lemma closure_sub r : okz r -> ~ void (zset r) -> okz (rect_polar_closure r) /\ subset (zset r) (zset (rect_polar_closure r)).
Proof.
  intros V N. destruct (C94_polar_closure r V N) as (VC & H1 & H2). split; [exact VC|].
  destruct (classic (exists x, zset r x /\ (fst x = pi / 2 \/ fst x = - (pi / 2)))) as [P|P].
  - intros x Hx. apply (H1 P). apply Hx.
  - rewrite (H2 P). intros x Hx. exact Hx.
Qed.
Lemma lat_pair (a b : f64) : finite a -> finite b -> let i := r1_add (r1_from_point a) b in
  finite (lo1 i) /\ finite (hi1 i) /\ B2R (lo1 i) = Rmin (B2R a) (B2R b) /\ B2R (hi1 i) = Rmax (B2R a) (B2R b).
Proof.
  intros Fa Fb. cbv zeta. unfold r1_add, r1_from_point, r1_is_empty, fgt. cbn [lo1 hi1].
  destruct (flt_R a a Fa Fa) as [L|_]; [lra|]. destruct (flt_R b a Fb Fa) as [L|L]; destruct (flt_R a b Fa Fb) as [M|M]; cbn [lo1 hi1]; unfold Rmin, Rmax; repeat destruct Rle_dec; try lra; repeat split; auto; lra.
Qed.

(** ** Cells below the top level *)
Lemma turn_cos a (n : BinInt.Z) : cos (a + 2 * PI * IZR n) = cos a /\ sin (a + 2 * PI * IZR n) = sin a.
Proof.
  replace (a + 2 * PI * IZR n) with (a + 2 * IZR n * PI) by ring. destruct (Z_le_gt_dec 0 n) as [Hn|Hn].
  - rewrite <- (Z2Nat.id n) by lia. rewrite <- INR_IZR_INZ. split; [apply cos_period|apply sin_period].
  - rewrite <- (cos_period (a + 2 * IZR n * PI) (Z.to_nat (- n))), <- (sin_period (a + 2 * IZR n * PI) (Z.to_nat (- n))). rewrite INR_IZR_INZ, Z2Nat.id by lia. rewrite opp_IZR.
    replace (a + 2 * IZR n * PI + 2 * - IZR n * PI) with a by ring. auto.
Qed.
Lemma sphere_turn p a (n : BinInt.Z) : sphere_at p (a + 2 * PI * IZR n) = sphere_at p a.
Proof. destruct (turn_cos a n) as [C S]. unfold sphere_at. rewrite C, S. reflexivity. Qed.
Lemma sphere_of W d t l : on_sphere d -> 0 < t -> px3 d = t * px3 W -> py3 d = t * py3 W -> pz3 d = t * pz3 W -> px3 W = sqrt (flat W) * cos l -> py3 W = sqrt (flat W) * sin l ->
  d = sphere_at (asin (pz3 W / len3 W)) l.
Proof.
  intros S T E1 E2 E3 W1 W2. unfold on_sphere in S. rewrite E1, E2, E3 in S. assert (F0 : 0 <= flat W) by (unfold flat; nra). assert (S' : t * t * (flat W + pz3 W * pz3 W) = 1) by (rewrite <- S; unfold flat; ring).
  assert (P : 0 < flat W + pz3 W * pz3 W). { destruct (Rle_lt_or_eq_dec 0 (flat W + pz3 W * pz3 W)) as [H|H]; [nra|exact H|]. rewrite <- H in S'. lra. }
  assert (LP : 0 < len3 W) by (apply sqrt_lt_R0; exact P). assert (LL : len3 W * len3 W = flat W + pz3 W * pz3 W) by (apply sqrt_sqrt; lra).
  assert (TL : t * len3 W = 1). { assert (0 < t * len3 W) by (apply Rmult_lt_0_compat; assumption). assert ((t * len3 W) * (t * len3 W) = 1) by (rewrite <- S', <- LL; ring). nra. }
  assert (Q : pz3 W / len3 W = t * pz3 W). { apply (Rmult_eq_reg_r (len3 W)); [|lra]. unfold Rdiv. rewrite Rmult_assoc, Rinv_l, Rmult_1_r by lra. replace (t * pz3 W * len3 W) with (pz3 W * (t * len3 W)) by ring. rewrite TL. ring. }
  rewrite Q. set (z := t * pz3 W). set (w := t * sqrt (flat W)). pose proof (sqrt_pos (flat W)) as SP. assert (W0 : 0 <= w) by (apply Rmult_le_pos; lra).
  assert (WW : w * w = 1 - z * z). { unfold w, z. replace (t * sqrt (flat W) * (t * sqrt (flat W))) with (t * t * (sqrt (flat W) * sqrt (flat W))) by ring. rewrite sqrt_sqrt by exact F0. lra. }
  assert (Z1 : -1 <= z <= 1) by nra. assert (SZ : sin (asin z) = z) by (apply sin_asin; exact Z1).
  assert (CZ : cos (asin z) = w). { rewrite cos_asin by exact Z1. unfold Rsqr. rewrite <- WW. apply sqrt_square. exact W0. }
  destruct d as [d1 d2 d3]. cbn [px3 py3 pz3] in *. unfold sphere_at. rewrite SZ, CZ, E1, E2, E3, W1, W2. unfold w, z. f_equal; ring.
Qed.
Lemma near_rect r d f l e g p : okz r -> d = sphere_at f l -> between (lo1 (rlat r)) (hi1 (rlat r)) (Fin p) -> Rabs (p - f) <= e ->
  (exists t (n : BinInt.Z), circ (rlng r) t /\ Rabs t <= pi /\ Rabs (t - l - 2 * PI * IZR n) <= g) ->
  near_area (lo1 (rlat r)) (hi1 (rlat r)) (slo (rlng r)) (shi (rlng r)) (e + g) d.
Proof.
  intros V -> B E (t & n & C & T & D). pose proof pi_PI as PP. exists (sphere_at p t). split.
  - exists p, t. split; [split; [exact B|exact C]|]. split; [lra|reflexivity].
  - unfold apart. fold (chd (sphere_at f l) (sphere_at p t)). rewrite <- (sphere_turn f l n). rewrite chd_sym. eapply Rle_trans; [apply place_lip|].
    replace (t - (l + 2 * PI * IZR n)) with (t - l - 2 * PI * IZR n) by ring. lra.
Qed.
Lemma near_sub r r' e d : subset (zset r) (zset r') -> near_area (lo1 (rlat r)) (hi1 (rlat r)) (slo (rlng r)) (shi (rlng r)) e d ->
  near_area (lo1 (rlat r')) (hi1 (rlat r')) (slo (rlng r')) (shi (rlng r')) e d.
Proof. intros S (d' & (p & t & Z & T & E) & A). exists d'. split; [|exact A]. exists p, t. split; [apply S, Z|]. auto. Qed.

Lemma clamp_mid a b x y z e : Rabs (a - x) <= e -> Rabs (b - y) <= e -> y <= z <= x \/ x <= z <= y ->
  exists p, Rmin a b <= p <= Rmax a b /\ Rabs (p - z) <= e.
Proof.
  intros A B H. pose proof (Rabs_pos (a - x)) as E0. apply Rabs_le_inv in A, B. pose proof (Rmin_l a b) as M1. pose proof (Rmin_r a b) as M2. pose proof (Rmax_l a b) as M3. pose proof (Rmax_r a b) as M4.
  assert (M7 : Rmin a b = a \/ Rmin a b = b) by (unfold Rmin; destruct Rle_dec; auto). assert (M8 : Rmax a b = a \/ Rmax a b = b) by (unfold Rmax; destruct Rle_dec; auto).
  destruct (Rle_dec z (Rmin a b)) as [C|C]; [|destruct (Rle_dec z (Rmax a b)) as [C'|C']].
  - exists (Rmin a b). split; [lra|]. apply Rabs_le. lra.
  - exists z. split; [lra|]. rewrite Rminus_eq_0, Rabs_R0. lra.
  - exists (Rmax a b). split; [lra|]. apply Rabs_le. lra.
Qed.

Lemma lower_rect fatan2 fasin c : accurate_atan2 fatan2 -> wf c -> (0 < lv c)%Z -> exists r, cell_rect_bound fatan2 fasin (cell_of c) = Some r /\ okz r /\
  forall d, patch (cell_of c) d -> near_area (lo1 (rlat r)) (hi1 (rlat r)) (slo (rlng r)) (shi (rlng r)) (104 * u) d.
Proof.
  intros A W LV. pose proof (face_of_range c W) as Hf. destruct (cell_quadrant c W LV) as (F1 & F2 & F3 & F4 & U0 & U1 & U2 & V0 & V1 & V2 & UQ & VQ).
  unfold cell_rect_bound. cbn [cell_of c_level c_face c_uv]. replace (lv c >? 0)%Z with true by (symmetry; apply Z.gtb_lt; lia).
  destruct (axes (face_of c) Hf) as (ua & va & -> & -> & ZU & ZV). set (R := uvrect (sq c)) in *. set (f := face_of c) in *.
  pose proof (far_corner_ok ua _ _ _ ZU F1 F2 U0 U1 U2 UQ) as HI. pose proof (far_corner_ok va _ _ _ ZV F3 F4 V0 V1 V2 VQ) as HJ.
  set (i := far_corner ua _) in *. set (j := far_corner va _) in *. clearbody i j.
  assert (CP : forall i j, exists r, point_from_ij (cell_of c) i j = Some r /\ fvec r /\ Rabs (X r) <= 1 /\ Rabs (Y r) <= 1 /\ Rabs (Z r) <= 1 /\
    let p := face_pos f (if i then B2R (hi1 (rx R)) else B2R (lo1 (rx R))) (if j then B2R (hi1 (ry R)) else B2R (lo1 (ry R))) in X r = px3 p /\ Y r = py3 p /\ Z r = pz3 p).
  { intros i' j'. apply (corner_pt (cell_of c) f i' j'); auto; cbn [cell_of c_uv]; fold R; lra. }
  destruct (CP i j) as (rP & EP & FVP & XP & YP & ZP & P1 & P2 & P3). destruct (CP (negb i) (negb j)) as (rQ & EQ & FVQ & XQ & YQ & ZQ & Q1 & Q2 & Q3).
  destruct (CP i (negb j)) as (rA & EA & FVA & XA & YA & ZA & A1 & A2 & A3). destruct (CP (negb i) j) as (rB & EB & FVB & XB & YB & ZB & B1 & B2 & B3).
  unfold cell_latitude, cell_longitude. change (S2Cell _ _ _ _ _) with (cell_of c) in *. rewrite EP, EQ, EA, EB.
  set (u0 := B2R (lo1 (rx R))) in *. set (u1 := B2R (hi1 (rx R))) in *. set (v0 := B2R (lo1 (ry R))) in *. set (v1 := B2R (hi1 (ry R))) in *.
  set (ub := fun b : bool => if b then u1 else u0). set (vb := fun b : bool => if b then v1 else v0).
  set (pP := face_pos f (ub i) (vb j)). set (pQ := face_pos f (ub (negb i)) (vb (negb j))). set (pA := face_pos f (ub i) (vb (negb j))). set (pB := face_pos f (ub (negb i)) (vb j)).
  change (X rP = px3 pP) in P1. change (Y rP = py3 pP) in P2. change (Z rP = pz3 pP) in P3. change (X rQ = px3 pQ) in Q1. change (Y rQ = py3 pQ) in Q2. change (Z rQ = pz3 pQ) in Q3.
  change (X rA = px3 pA) in A1. change (Y rA = py3 pA) in A2. change (Z rA = pz3 pA) in A3. change (X rB = px3 pB) in B1. change (Y rB = py3 pB) in B2. change (Z rB = pz3 pB) in B3.
  assert (LN : forall x y, 1 <= flat (face_pos f x y) + pz3 (face_pos f x y) * pz3 (face_pos f x y)) by (intros x y; unfold flat; rewrite face_pos_len; nra).
  assert (SP : sqn rP = flat pP + pz3 pP * pz3 pP) by (unfold sqn, flat; rewrite P1, P2, P3; reflexivity). assert (SQ : sqn rQ = flat pQ + pz3 pQ * pz3 pQ) by (unfold sqn, flat; rewrite Q1, Q2, Q3; reflexivity).
  destruct (latitude_ok fatan2 rP A FVP XP YP ZP ltac:(rewrite SP; apply LN)) as (FLa & BLa & DLa). destruct (latitude_ok fatan2 rQ A FVQ XQ YQ ZQ ltac:(rewrite SQ; apply LN)) as (FLb & BLb & DLb).
  rewrite SP, P3 in DLa. rewrite SQ, Q3 in DLb. fold (len3 pP) in DLa. fold (len3 pQ) in DLb. set (la := latitude fatan2 rP) in *. set (lb := latitude fatan2 rQ) in *. set (oa := longitude fatan2 rA). set (ob := longitude fatan2 rB).
  destruct (lat_pair la lb FLa FLb) as (FL1 & FL2 & VL1 & VL2). set (I := r1_add (r1_from_point la) lb) in *. apply Rabs_le_inv in BLa, BLb, DLa, DLb.
  set (J := s1_add (s1_add s1_EMPTY oa) ob).
  (* longitudes *)
  assert (LNG : forall x y, u0 <= x <= u1 -> v0 <= y <= v1 -> Valid J /\ nonempty J /\
     exists l, px3 (face_pos f x y) = sqrt (flat (face_pos f x y)) * cos l /\ py3 (face_pos f x y) = sqrt (flat (face_pos f x y)) * sin l /\
     exists t (n : BinInt.Z), circ J t /\ Rabs t <= pi /\ Rabs (t - l - 2 * PI * IZR n) <= 3 * e50 + 20 * ulp1).
  { intros x y Hx Hy. destruct (corner_real f u0 u1 v0 v1 x y i j Hf U0 ltac:(lra) U2 V0 ltac:(lra) V2 Hx Hy HI HJ) as (_ & _ & _ & FA & FB & D1 & D2 & D3 & CR).
    change (if i then u1 else u0) with (ub i) in *. change (if negb i then u1 else u0) with (ub (negb i)) in *. change (if j then v1 else v0) with (vb j) in *. change (if negb j then v1 else v0) with (vb (negb j)) in *. fold pA in FA, D1, D3, CR. fold pB in FB, D2, D3, CR. set (w := face_pos f x y) in *.
    assert (NA : 0 < sqrt (flat pA)) by (apply sqrt_lt_R0; exact FA). assert (NB : 0 < sqrt (flat pB)) by (apply sqrt_lt_R0; exact FB).
    destruct CR as [(C1 & C2 & C3)|(C1 & C2 & C3)].
    - destruct (cone pA pB w FA FB D1 D2 D3 C1 C2 C3) as (a & b & l & R1 & R2 & H1 & H2 & H3 & H4 & H5 & H6).
      destruct (longitude_ok fatan2 rA a _ A FVA NA ltac:(lra) ltac:(lra)) as (GA & k & KA). destruct (longitude_ok fatan2 rB b _ A FVB NB ltac:(lra) ltac:(lra)) as (GB & m & KB).
      destruct (short_arc oa ob a b l e50 k m GA GB R1 R2 ltac:(lra) KA KB J (or_introl eq_refl)) as (VJ & NJ & H). split; [exact VJ|]. split; [exact NJ|]. exists l. auto.
    - unfold dot2 in D1, D2, D3. destruct (cone pB pA w FB FA ltac:(unfold dot2; lra) ltac:(unfold dot2; lra) ltac:(unfold dot2; lra) C1 C2 C3) as (a & b & l & R1 & R2 & H1 & H2 & H3 & H4 & H5 & H6).
      destruct (longitude_ok fatan2 rB a _ A FVB NB ltac:(lra) ltac:(lra)) as (GB & k & KB). destruct (longitude_ok fatan2 rA b _ A FVA NA ltac:(lra) ltac:(lra)) as (GA & m & KA).
      destruct (short_arc ob oa a b l e50 k m GB GA R1 R2 ltac:(lra) KB KA J (or_intror eq_refl)) as (VJ & NJ & H). split; [exact VJ|]. split; [exact NJ|]. exists l. auto. }
  destruct (LNG u0 v0 ltac:(lra) ltac:(lra)) as (VJ & NJ & _).
  assert (NV : ~ void (circ J)) by (apply not_void; assumption).
  (* the rectangle before it grows *)
  set (r0 := Rect I J). pose proof (Rmin_l (B2R la) (B2R lb)) as M1. pose proof (Rmin_r (B2R la) (B2R lb)) as M2. pose proof (Rmax_l (B2R la) (B2R lb)) as M3. pose proof (Rmax_r (B2R la) (B2R lb)) as M4.
  assert (M5 : - (pi / 2) <= Rmin (B2R la) (B2R lb)) by (apply Rmin_glb; lra). assert (M6 : Rmax (B2R la) (B2R lb) <= pi / 2) by (apply Rmax_lub; lra).
  assert (BT : forall p, between (lo1 I) (hi1 I) (Fin p) <-> Rmin (B2R la) (B2R lb) <= p <= Rmax (B2R la) (B2R lb)).
  { intros p. unfold between. rewrite (ev_fin _ FL1), (ev_fin _ FL2), VL1, VL2. reflexivity. }
  assert (OK : okz r0).
  { unfold valid_zone, r0. cbn [rlat rlng]. split; [exact FL1|]. split; [apply finite_number, FL2|]. split; [rewrite VL1; lra|]. split; [rewrite (ev_fin _ FL2), VL2; exact M6|]. split; [exact VJ|].
    split; intros H; exfalso; [apply (H (Fin (B2R la))), BT; lra|apply NV, H]. }
  assert (NZ : ~ void (zset r0)). { intros H. apply (zset_void r0 OK) in H. apply (H (Fin (B2R la))), BT. lra. }
  destruct m_val as [FM VM]. set (m := fmul f2 DBL_EPSILON) in *.
  destruct (grow_sub r0 (LL m m) OK NZ FM FM ltac:(cbn [lat]; lra) (expand_sub J VJ NV)) as [OK1 SUB1].
  assert (NZ1 : ~ void (zset (rect_expanded r0 (LL m m)))). { intros H. apply NZ. intros x Hx. apply (H x), SUB1, Hx. }
  destruct (closure_sub _ OK1 NZ1) as [OK2 SUB2].
  eexists. split; [reflexivity|]. split; [exact OK2|]. fold r0. intros d (SD & x & y & t & Hx & Hy & T & E1 & E2 & E3). cbn [cell_of c_uv c_face] in Hx, Hy, E1, E2, E3. fold R f in Hx, Hy, E1, E2, E3. fold u0 u1 in Hx. fold v0 v1 in Hy.
  apply (near_sub _ _ _ _ SUB2), (near_sub _ _ _ _ SUB1).
  destruct (LNG x y Hx Hy) as (_ & _ & l & W1 & W2 & HT).
  destruct (corner_real f u0 u1 v0 v1 x y i j Hf U0 ltac:(lra) U2 V0 ltac:(lra) V2 Hx Hy HI HJ) as (SG & HP & HQ & _).
  change (if i then u1 else u0) with (ub i) in *. change (if negb i then u1 else u0) with (ub (negb i)) in *. change (if j then v1 else v0) with (vb j) in *. change (if negb j then v1 else v0) with (vb (negb j)) in *. fold pP pQ in SG, HP, HQ. set (w := face_pos f x y) in *.
  pose proof (sphere_of w d t l SD T E1 E2 E3 W1 W2) as ED. set (ph := asin (pz3 w / len3 w)) in *.
  destruct (high_quot pP w (LN _ _) (LN _ _) HP) as [HP1 HP2]. destruct (high_quot w pQ (LN _ _) (LN _ _) HQ) as [HQ1 HQ2].
  pose proof (quot_unit pP (LN _ _)) as UP. pose proof (quot_unit pQ (LN _ _)) as UQ'. pose proof (quot_unit w (LN _ _)) as UW.
  set (fP := asin (pz3 pP / len3 pP)) in *. set (fQ := asin (pz3 pQ / len3 pQ)) in *.
  assert (BP : fQ <= ph <= fP \/ fP <= ph <= fQ).
  { destruct SG as [(G1 & G2 & G3)|(G1 & G2 & G3)]; [left|right]; split; apply asin_mono; lra || auto. }
  assert (EP' : exists p, between (lo1 I) (hi1 I) (Fin p) /\ Rabs (p - ph) <= 20 * u).
  { destruct (clamp_mid (B2R la) (B2R lb) fP fQ ph (20 * u) ltac:(apply Rabs_le; exact DLa) ltac:(apply Rabs_le; exact DLb) BP) as (p & H1 & H2). exists p. split; [apply BT, H1|exact H2]. }
  destruct EP' as (p & BTp & Dp). replace (104 * u) with (20 * u + (3 * e50 + 30 * ulp1)) by lra.
  apply (near_rect r0 d ph l _ _ p OK ED BTp Dp). destruct HT as (t' & n & H1 & H2 & H3). exists t', n. split; [exact H1|]. split; [exact H2|lra].
Qed.
