(** Caps against exact geometry: how far computed squared distances and sums of
    chord angles are from those of the real unit sphere. *)
From Coq Require Import Reals Lra Lia Psatz Bool.
From Flocq Require Import Core.
From Verif Require Import F64 F64Facts IntervalSpec F64Arith F64Error S1Proofs VectorModel PredicatesModel F64Neg PredicatesProofs
  PredicatesError PredicatesFloat PredicatesSound PredicatesStable CapSpec CapModel StuvError ChordProofs CapProofs.
Open Scope R_scope.

Lemma EPS2_tight : finite EPSILON2 /\ B2R EPSILON2 <= 501 / 10000000000000000.
Proof.
  destruct (lit_val 0x1C25C268497682 (-97) ltac:(lia) ltac:(lia)) as [F V]. split; [exact F|].
  unfold EPSILON2. rewrite V. change (bpow radix2 (-97)) with (/ 158456325028528675187087900672). lra.
Qed.
Definition KU := 52 / 1000000000000000.
Lemma unit_near v : is_unit v = true -> fvec v /\ Rabs (sqn v - 1) <= KU.
Proof.
  intros H. destruct (unit_bound v H) as [FV _]. split; [exact FV|]. unfold is_unit in H. destruct EPS2_tight as [FE VE].
  pose proof (finite_lt _ _ H FE) as Fd. destruct (fsub_finite _ _ Fd) as [Fn _].
  destruct (fabs_val _ Fd) as [Fa Va]. destruct (flt_R _ _ Fa FE) as [L|]; try discriminate. rewrite Va in L.
  assert (F1 : finite f1) by reflexivity. assert (V1 : B2R f1 = 1).
  { destruct (of_int_val 1 ltac:(lia)) as [_ V]. exact V. }
  pose proof (fsub_result _ _ Fn F1) as R. apply result_finite in R; auto.
  pose proof (rnd_minus_rel (norm2 v) f1) as RR. rewrite <- R, V1 in RR.
  pose proof (norm2_near v Fn) as N.
  assert (S0 : 0 <= sqn v) by (unfold sqn; pose proof (Rle_0_sqr (X v)); pose proof (Rle_0_sqr (Y v)); pose proof (Rle_0_sqr (Z v)); unfold Rsqr in *; lra).
  pose proof h_tiny as HT. pose proof h_pos as HP. unfold KU. apply Rabs_le.
  apply Rabs_le_inv in N. apply Rabs_lt_inv in L. revert RR. unfold Rabs at 2. destruct (Rcase_abs _); intros RR; apply Rabs_le_inv in RR;
   generalize dependent (B2R (fsub (norm2 v) f1)); intros; generalize dependent (B2R (norm2 v)); intros; generalize dependent (sqn v); intros; lra.
Qed.

(** ** The real sphere *)
Definition rdot (d e : pos) : R := px3 d * px3 e + py3 d * py3 e + pz3 d * pz3 e.
Lemma dist2_dot d e : on_sphere d -> on_sphere e -> dist2 d e = 2 - 2 * rdot d e.
Proof. unfold on_sphere, dist2, rdot. intros. lra. Qed.
Lemma rdot_range d e : on_sphere d -> on_sphere e -> -1 <= rdot d e <= 1.
Proof.
  intros D E. unfold on_sphere in *. unfold rdot. destruct d as [a b c], e as [x y z]. cbn in *. split.
  - pose proof (Rle_0_sqr (a + x)). pose proof (Rle_0_sqr (b + y)). pose proof (Rle_0_sqr (c + z)). unfold Rsqr in *. lra.
  - pose proof (Rle_0_sqr (a - x)). pose proof (Rle_0_sqr (b - y)). pose proof (Rle_0_sqr (c - z)). unfold Rsqr in *. lra.
Qed.
Lemma dist2_range d e : on_sphere d -> on_sphere e -> 0 <= dist2 d e <= 4.
Proof. intros D E. rewrite dist2_dot by auto. pose proof (rdot_range d e D E). lra. Qed.
Lemma dist2_sym d e : dist2 d e = dist2 e d.
Proof. unfold dist2. ring. Qed.
Lemma gram d e f : on_sphere d -> on_sphere e -> on_sphere f ->
  (rdot d f - rdot d e * rdot e f) * (rdot d f - rdot d e * rdot e f) <= (1 - rdot d e * rdot d e) * (1 - rdot e f * rdot e f).
Proof.
  intros D E F. unfold on_sphere in *. destruct d as [a b c], e as [x y z], f as [p q r]. unfold rdot. cbn in *.
  set (m := a * (y * r - z * q) - b * (x * r - z * p) + c * (x * q - y * p)).
  assert (H : (1 - (a * x + b * y + c * z) * (a * x + b * y + c * z)) * (1 - (x * p + y * q + z * r) * (x * p + y * q + z * r)) -
    ((a * p + b * q + c * r) - (a * x + b * y + c * z) * (x * p + y * q + z * r)) * ((a * p + b * q + c * r) - (a * x + b * y + c * z) * (x * p + y * q + z * r)) = m * m).
  { assert (G : m * m = (a * a + b * b + c * c) * (x * x + y * y + z * z) * (p * p + q * q + r * r)
      + 2 * (a * x + b * y + c * z) * (x * p + y * q + z * r) * (a * p + b * q + c * r)
      - (a * a + b * b + c * c) * ((x * p + y * q + z * r) * (x * p + y * q + z * r))
      - (x * x + y * y + z * z) * ((a * p + b * q + c * r) * (a * p + b * q + c * r))
      - (p * p + q * q + r * r) * ((a * x + b * y + c * z) * (a * x + b * y + c * z))) by (unfold m; ring).
    rewrite D, E, F in G. rewrite G. ring. }
  pose proof (Rle_0_sqr m). unfold Rsqr in *. lra.
Qed.
(* the triangle inequality of the sphere *)
Lemma sphere_triangle d e f : on_sphere d -> on_sphere e -> on_sphere f -> dist2 d f <= csum (dist2 d e) (dist2 e f).
Proof.
  intros D E F. rewrite !dist2_dot by auto. pose proof (gram d e f D E F) as G. pose proof (rdot_range d e D E) as R1. pose proof (rdot_range e f E F) as R2.
  set (u1 := rdot d e) in *. set (v1 := rdot e f) in *. set (w := rdot d f) in *. unfold csum.
  set (X := (2 - 2 * u1) * (1 - (2 - 2 * v1) / 4)). set (Y := (2 - 2 * v1) * (1 - (2 - 2 * u1) / 4)).
  assert (EX : X + Y = 2 - 2 * (u1 * v1)) by (unfold X, Y; field).
  assert (EY : X * Y = (1 - u1 * u1) * (1 - v1 * v1)) by (unfold X, Y; field).
  rewrite EX, EY. assert (u1 * v1 - w <= sqrt ((1 - u1 * u1) * (1 - v1 * v1))); [|lra].
  destruct (Rle_dec (u1 * v1 - w) 0) as [N|N]; [pose proof (sqrt_pos ((1 - u1 * u1) * (1 - v1 * v1))); lra|].
  rewrite <- (sqrt_square (u1 * v1 - w)) by lra. apply sqrt_le_1_alt. lra.
Qed.

(* the sum of two chord angles, at most a half turn *)
Definition cs (a b : R) : R := if Rle_dec (a + b) 4 then csum a b else 4.
Lemma cs_chord t u : 0 <= t <= PI -> 0 <= u <= PI -> cs (chord t) (chord u) = chord (Rmin PI (t + u)).
Proof.
  intros Ht Hu. unfold cs. destruct (Rle_dec _ _) as [L|L].
  - apply chord_sum_4 in L; auto. rewrite Rmin_right by lra. apply csum_chord; auto.
  - rewrite Rmin_left; [symmetry; apply chord_PI|]. apply Rnot_lt_le. intros C. apply L, chord_sum_4; auto. lra.
Qed.
Lemma cs_range a b : 0 <= a <= 4 -> 0 <= b <= 4 -> 0 <= cs a b <= 4.
Proof. intros. unfold cs. destruct (Rle_dec _ _); [apply csum_sq; auto|lra]. Qed.
Lemma cs_mono a b a' b' : 0 <= a -> a <= a' -> a' <= 4 -> 0 <= b -> b <= b' -> b' <= 4 -> cs a b <= cs a' b'.
Proof.
  intros A1 A2 A3 B1 B2 B3.
  destruct (chord_onto a ltac:(lra)) as (t & Ht & <-). destruct (chord_onto a' ltac:(lra)) as (t' & Ht' & <-).
  destruct (chord_onto b ltac:(lra)) as (v & Hv & <-). destruct (chord_onto b' ltac:(lra)) as (v' & Hv' & <-).
  assert (t <= t'). { apply Rnot_lt_le. intros C. pose proof (chord_incr_lt t' t ltac:(lra) C ltac:(lra)). lra. }
  assert (v <= v'). { apply Rnot_lt_le. intros C. pose proof (chord_incr_lt v' v ltac:(lra) C ltac:(lra)). lra. }
  rewrite !cs_chord by auto. apply chord_incr; [apply Rmin_glb; lra| |apply Rmin_l]. apply Rle_min_compat_l. lra.
Qed.
Lemma cs_full a : 0 <= a <= 4 -> cs (4 - a) a = 4.
Proof.
  intros A. destruct (chord_onto a A) as (t & Ht & <-). rewrite <- chord_supplement, cs_chord by (auto; lra).
  replace (Rmin PI (PI - t + t)) with PI; [apply chord_PI|]. rewrite Rmin_left; lra.
Qed.
Lemma sphere_triangle_cs d e f r : on_sphere d -> on_sphere e -> on_sphere f -> dist2 e f <= r <= 4 -> dist2 d f <= cs (dist2 d e) r.
Proof.
  intros D E F R. pose proof (dist2_range d e D E). pose proof (dist2_range e f E F). pose proof (dist2_range d f D F).
  apply Rle_trans with (cs (dist2 d e) (dist2 e f)); [|apply cs_mono; lra].
  unfold cs. destruct (Rle_dec _ _); [apply sphere_triangle; auto|lra].
Qed.
(* a relative change of one angle *)
Lemma cs_step A B r k s : 0 <= A <= 4 -> 0 <= B <= 4 -> 0 <= r <= 4 -> 0 <= k <= 1 -> 0 <= s -> A <= B * (1 + k) + s * s ->
  cs A r <= cs B r + (4 * k + s * s + 4 * s).
Proof.
  intros HA HB Hr Hk Hs H. pose proof (cs_range A r HA Hr). assert (S2 : 0 <= s * s) by nra.
  destruct (Rle_dec (B + r) 4) as [LB|LB]; [|unfold cs at 2; destruct (Rle_dec (B + r) 4); lra].
  assert (CORE : forall A, 0 <= A -> A + r <= 4 -> B <= A -> A <= B * (1 + k) + s * s -> cs A r <= cs B r + (4 * k + s * s + 4 * s)).
  { clear A HA H H0. intros A HA L BA H. unfold cs. destruct (Rle_dec (A + r) 4) as [_|]; [|lra]. destruct (Rle_dec (B + r) 4) as [_|]; [|lra].
    destruct (csum_sq B r HB Hr LB) as [CB _]. unfold csum in *.
    set (x' := A * (1 - r / 4)). set (y' := r * (1 - A / 4)). set (x := B * (1 - r / 4)) in *. set (y := r * (1 - B / 4)) in *.
    assert (0 <= 1 - r / 4 <= 1) by lra. assert (0 <= 1 - A / 4 <= 1) by lra. assert (0 <= 1 - B / 4 <= 1) by lra.
    assert (X0 : 0 <= x) by (apply Rmult_le_pos; lra). assert (Y0 : 0 <= y) by (apply Rmult_le_pos; lra). assert (Y0' : 0 <= y') by (apply Rmult_le_pos; lra).
    assert (Y4 : y <= 4). { unfold y. apply Rle_trans with (r * 1); [apply Rmult_le_compat_l; lra|lra]. }
    assert (XX : x' <= x * (1 + k) + s * s).
    { unfold x', x. apply Rle_trans with ((B * (1 + k) + s * s) * (1 - r / 4)); [apply Rmult_le_compat_r; lra|]. nra. }
    assert (YY : y' <= y) by (apply Rmult_le_compat_l; lra).
    assert (Q : sqrt (x' * y') <= sqrt (x * y) * (1 + k) + 2 * s).
    { apply Rle_trans with (sqrt ((sqrt (x * y) * (1 + k) + 2 * s) * (sqrt (x * y) * (1 + k) + 2 * s))).
      - apply sqrt_le_1_alt. pose proof (sqrt_pos (x * y)). pose proof (sqrt_sqrt (x * y) ltac:(nra)) as SS. set (q := sqrt (x * y)) in *.
        apply Rle_trans with ((x * (1 + k) + s * s) * y).
        + apply Rle_trans with ((x * (1 + k) + s * s) * y'); [apply Rmult_le_compat_r; lra|]. apply Rmult_le_compat_l; nra.
        + assert (s * s * y <= s * s * 4) by (apply Rmult_le_compat_l; lra).
          assert (q * q * (1 + k) <= q * q * ((1 + k) * (1 + k))) by (apply Rmult_le_compat_l; nra).
          assert (0 <= q * (1 + k) * s) by (repeat apply Rmult_le_pos; lra). replace ((x * (1 + k) + s * s) * y) with (q * q * (1 + k) + s * s * y) by (rewrite SS; ring). nra.
      - rewrite sqrt_square; [lra|]. pose proof (sqrt_pos (x * y)). nra. }
    assert (x + y + 2 * sqrt (x * y) <= 4) by lra. pose proof (sqrt_pos (x * y)). nra. }
  destruct (Rle_dec A B) as [AB|AB].
  { pose proof (cs_mono A r B r ltac:(lra) AB ltac:(lra) ltac:(lra) ltac:(lra) ltac:(lra)). lra. }
  destruct (Rle_dec (A + r) 4) as [LA|LA]; [apply CORE; lra|].
  assert (E : cs A r = cs (4 - r) r). { rewrite cs_full by auto. unfold cs. destruct (Rle_dec (A + r) 4); lra. }
  rewrite E. apply CORE; lra.
Qed.

(** ** Distances between computed points *)
Definition KR := 27 / 1000000000000000.
Definition KC := 60 / 1000000000000000.
Lemma unit_norm v : is_unit v = true -> fvec v /\ sqn v = sqrt (sqn v) * sqrt (sqn v) /\ Rabs (sqrt (sqn v) - 1) <= KR.
Proof.
  intros H. destruct (unit_near v H) as [F N]. split; [exact F|]. unfold KU in N. apply Rabs_le_inv in N.
  pose proof (sqrt_sqrt (sqn v) ltac:(lra)) as S. split; [auto|]. pose proof (sqrt_pos (sqn v)) as P. set (r := sqrt (sqn v)) in *.
  assert (99 / 100 <= r). { apply Rnot_lt_le. intros C. assert (r * r <= 99 / 100 * (99 / 100)) by (apply Rmult_le_compat; lra). lra. }
  unfold KR. apply Rabs_le. split; apply Rnot_lt_le; intros C; nra.
Qed.
Lemma direction_sphere v : 0 < sqn v -> on_sphere (direction v).
Proof.
  intros H. unfold on_sphere, direction. cbn [px3 py3 pz3]. fold (sqn v). pose proof (sqrt_sqrt (sqn v) ltac:(lra)) as S. pose proof (sqrt_lt_R0 _ H) as P.
  set (r := sqrt (sqn v)) in *. transitivity ((X v * X v + Y v * Y v + Z v * Z v) / (r * r)); [field; lra|]. rewrite S. unfold sqn. field. unfold sqn in H. lra.
Qed.
Lemma unit_sphere v : is_unit v = true -> on_sphere (direction v).
Proof. intros H. apply direction_sphere. destruct (unit_near v H) as [_ N]. apply Rabs_le_inv in N. unfold KU in N. lra. Qed.
Lemma d2_dist v w : 0 < sqn v -> 0 < sqn w ->
  d2 v w = (sqrt (sqn v) - sqrt (sqn w)) * (sqrt (sqn v) - sqrt (sqn w)) + sqrt (sqn v) * sqrt (sqn w) * dist2 (direction v) (direction w).
Proof.
  intros Hv Hw. rewrite dist2_dot by (apply direction_sphere; auto). unfold rdot, direction. cbn [px3 py3 pz3]. fold (sqn v) (sqn w).
  pose proof (sqrt_sqrt (sqn v) ltac:(lra)) as Sv. pose proof (sqrt_lt_R0 _ Hv) as Pv. pose proof (sqrt_sqrt (sqn w) ltac:(lra)) as Sw. pose proof (sqrt_lt_R0 _ Hw) as Pw.
  set (r := sqrt (sqn v)) in *. set (s := sqrt (sqn w)) in *. unfold d2, dx, dy, dz.
  transitivity (r * r + s * s - 2 * (X v * X w + Y v * Y w + Z v * Z w)); [rewrite Sv, Sw; unfold sqn; ring|]. field. split; lra.
Qed.
Lemma sq_rel_up a a' : Rabs (a' - a) <= u * Rabs a -> a' * a' <= (1 + 3 * u) * (a * a).
Proof.
  intros H. rewrite <- (sqr_abs a), <- (sqr_abs a'). pose proof (Rabs_pos a) as P.
  assert (L : Rabs a' <= (1 + u) * Rabs a).
  { pose proof (Rabs_triang (a' - a) a) as T. replace (a' - a + a) with a' in T by ring. lra. }
  assert (Q : Rabs a' * Rabs a' <= ((1 + u) * Rabs a) * ((1 + u) * Rabs a)) by (apply Rmult_le_compat; auto; apply Rabs_pos).
  pose proof (Rmult_le_pos _ _ P P). lra.
Qed.
Lemma norm2_sub v w : vbound v -> vbound w ->
  finite (norm2 (vsub v w)) /\ (1 - 7 * u) * d2 v w - 8 * h <= B2R (norm2 (vsub v w)) <= (1 + 8 * u) * d2 v w + 8 * h.
Proof.
  intros V W'. destruct (vsub_rel v w V W') as (S & E1 & E2 & E3). destruct (norm2_small _ S) as [F B]. split; [exact F|].
  pose proof (norm2_near _ F) as N. apply Rabs_le_inv in N. pose proof (sq_rel_up _ _ E1). pose proof (sq_rel_up _ _ E2). pose proof (sq_rel_up _ _ E3).
  apply sq_rel in E1, E2, E3. unfold d2 in *.
  pose proof (Rle_0_sqr (dx v w)). pose proof (Rle_0_sqr (dy v w)). pose proof (Rle_0_sqr (dz v w)). unfold Rsqr in *.
  revert N E1 E2 E3 H H0 H1 H2 H3 H4. unfold sqn. generalize (X (vsub v w) * X (vsub v w)), (Y (vsub v w) * Y (vsub v w)), (Z (vsub v w) * Z (vsub v w)).
  generalize (dx v w * dx v w), (dy v w * dy v w), (dz v w * dz v w), (B2R (norm2 (vsub v w))), h. intros. lra.
Qed.
(* the computed squared distance against that of the directions *)
Lemma chordangle_near p q : is_unit p = true -> is_unit q = true ->
  let c := B2R (chordangle p q) in let d := dist2 (direction p) (direction q) in
  0 <= d <= 4 /\ c <= d * (1 + KC) + KC * KC /\ d <= c * (1 + KC) + KC * KC.
Proof.
  intros Hp Hq. cbv zeta. destruct (unit_norm p Hp) as (_ & Sp & Np). destruct (unit_norm q Hq) as (_ & Sq & Nq).
  pose proof (dist2_range _ _ (unit_sphere p Hp) (unit_sphere q Hq)) as D. split; [exact D|].
  destruct (norm2_sub p q (unit_vbound p Hp) (unit_vbound q Hq)) as [F N]. destruct c4_val as [F4 V4].
  unfold chordangle. destruct (fmin_R c4 _ F4 F) as [_ ->]. rewrite V4.
  apply Rabs_le_inv in Np. apply Rabs_le_inv in Nq. unfold KR in *.
  assert (Pp : 0 < sqn p) by (rewrite Sp; nra). assert (Pq : 0 < sqn q) by (rewrite Sq; nra).
  rewrite d2_dist in N by auto. pose proof h_tiny as HT. pose proof h_pos as HP. clear Sp Sq.
  set (r := sqrt (sqn p)) in *. set (s := sqrt (sqn q)) in *. set (d := dist2 (direction p) (direction q)) in *.
  assert (DD : 0 <= (r - s) * (r - s) <= 54 / 1000000000000000 * (54 / 1000000000000000)).
  { rewrite <- (sqr_abs (r - s)). pose proof (Rabs_pos (r - s)). assert (Rabs (r - s) <= 54 / 1000000000000000) by (apply Rabs_le; lra).
    split; [apply Rmult_le_pos; auto|apply Rmult_le_compat; auto]. }
  assert (RS : 1 - 541 / 10000000000000000 <= r * s <= 1 + 541 / 10000000000000000).
  { split.
    - apply Rle_trans with ((1 - 27 / 1000000000000000) * (1 - 27 / 1000000000000000)); [lra|apply Rmult_le_compat; lra].
    - apply Rle_trans with ((1 + 27 / 1000000000000000) * (1 + 27 / 1000000000000000)); [apply Rmult_le_compat; lra|lra]. }
  assert (RSD : (1 - 541 / 10000000000000000) * d <= r * s * d <= (1 + 541 / 10000000000000000) * d) by (split; apply Rmult_le_compat_r; lra).
  set (n := B2R (norm2 (vsub p q))) in *. set (e := (r - s) * (r - s)) in *. set (t := r * s * d) in *. unfold KC. split.
  - apply Rle_trans with n; [apply Rmin_r|]. lra.
  - apply Rmin_case; lra.
Qed.

(** ** Sums of radii against exact sums *)
Lemma chord_add_cs (a b : f64) : finite a -> finite b -> 0 <= B2R a <= 4 -> 0 <= B2R b <= 4 ->
  finite (chord_add a b) /\ 0 <= B2R (chord_add a b) <= 4 /\ Rabs (B2R (chord_add a b) - cs (B2R a) (B2R b)) <= pow2 (-47).
Proof.
  intros Fa Fb Ba Bb. destruct (chord_add_err a b Fa Fb Ba Bb) as (F & B & FULL & E). split; [exact F|]. split; [exact B|].
  unfold cs. destruct (Rle_dec _ _) as [L|L].
  - specialize (E L). eapply Rle_trans; [exact E|]. destruct (csum_sq _ _ Ba Bb L) as [C _].
    assert (8 * eps * csum (B2R a) (B2R b) <= 8 * eps * 4) by (apply Rmult_le_compat_l; lra).
    pose proof (bpow_le radix2 (-515) (-60) ltac:(lia)) as P. change (pow2 (-60)) with (/ 1152921504606846976) in P. change (pow2 (-47)) with (/ 140737488355328). lra.
  - rewrite FULL by lra. rewrite Rminus_eq_0, Rabs_R0. apply bpow_ge_0.
Qed.
Lemma cs_near p q r : is_unit p = true -> is_unit q = true -> 0 <= r <= 4 ->
  Rabs (cs (B2R (chordangle p q)) r - cs (dist2 (direction p) (direction q)) r) <= 49 / 100000000000000.
Proof.
  intros Hp Hq Hr. destruct (chordangle_near p q Hp Hq) as (D & A & B). destruct (chordangle_range p q) as [_ C].
  unfold KC in *.
  pose proof (cs_step _ _ r (60 / 1000000000000000) (60 / 1000000000000000) C D Hr ltac:(lra) ltac:(lra) A).
  pose proof (cs_step _ _ r (60 / 1000000000000000) (60 / 1000000000000000) D C Hr ltac:(lra) ltac:(lra) B).
  apply Rabs_le. lra.
Qed.
