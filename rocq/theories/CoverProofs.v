(** The cell bound of a cap covers the cap. *)
From Coq Require Import ZArith Reals Lra Lia Psatz List Bool.
From Flocq Require Import Core.
From Verif Require Import Base Spec F64 F64Facts IntervalSpec F64Arith F64Error S1Proofs VectorModel StuvModel R1Model
  CellIdModel CellIdArith CellIdProofs CellUnionModel HilbertModel HilbertSpec HilbertGeom NeighborSpec NeighborModel NeighborLists
  CellSpec CellModel StuvError CellLattice CellProofs CellPoint CellVertex MetricModel MetricProofs PropsMetric
  PredicatesFloat CapSpec CapModel ChordProofs CapProofs CapError PropsCap CapCell CapEdge CapEdgeFloat CapEdgeMain CoverGeom CoverCell RegionModel RegionSpec.
Import ListNotations.
Open Scope R_scope.

Lemma leaves_anc c m : wf c -> leaves c m -> anc (lv c) (leaf m) = c.
Proof.
  intros [L I] H. unfold leaves in H. unfold anc, leaf. cbn [lv ix]. destruct c as [l i]. cbn [lv ix] in *. f_equal.
  symmetry. apply (Z.div_unique m (4 ^ (30 - l)) i (m - i * 4 ^ (30 - l))); lia.
Qed.
Lemma patch_make c d x y t : on_sphere d -> 0 < t ->
  gv (2 * sq_i (sq c) - N) <= x <= gv (2 * (sq_i (sq c) + sq_side (sq c)) - N) ->
  gv (2 * sq_j (sq c) - N) <= y <= gv (2 * (sq_j (sq c) + sq_side (sq c)) - N) -> d = shrink t (face_pos (face_of c) x y) ->
  patch (cell_of c) d.
Proof.
  intros S T BX BY E. split; [exact S|]. exists x, y, t. unfold gv in BX, BY. rewrite !Z.sub_add in BX, BY.
  split; [exact BX|]. split; [exact BY|]. split; [exact T|]. rewrite E. repeat split.
Qed.
Lemma patch_nest c m d : wf c -> leaves c m -> wf (leaf m) -> patch (cell_of (leaf m)) d -> patch (cell_of c) d.
Proof.
  intros W L Wm P. pose proof W as (HL & _). destruct (leaf_in (leaf m) (lv c) Wm eq_refl ltac:(lia)) as (Sq & Fq & Fp & Sp & Li & Lj).
  rewrite (leaves_anc c m W L) in Fp, Sp, Li, Lj. destruct (sq_aligned c W) as ((_ & _ & _ & _ & A1 & A2 & A3 & A4) & Fc & Sc).
  destruct (sq_aligned _ Wm) as ((_ & _ & _ & _ & B1 & B2 & B3 & B4) & _ & _). rewrite Sq in B2, B4. rewrite Sc in A2, A4.
  destruct (patch_pos _ d Wm P) as (S & x & y & t & T & X & Y & E). rewrite Sq in X, Y.
  apply (patch_make c d x y t S T); rewrite ?Sc.
  - pose proof (gv_mono (2 * sq_i (sq c) - N) (2 * sq_i (sq (leaf m)) - N) ltac:(lia) ltac:(lia) ltac:(lia)).
    pose proof (gv_mono (2 * (sq_i (sq (leaf m)) + 1) - N) (2 * (sq_i (sq c) + side (lv c)) - N) ltac:(lia) ltac:(lia) ltac:(lia)). lra.
  - pose proof (gv_mono (2 * sq_j (sq c) - N) (2 * sq_j (sq (leaf m)) - N) ltac:(lia) ltac:(lia) ltac:(lia)).
    pose proof (gv_mono (2 * (sq_j (sq (leaf m)) + 1) - N) (2 * (sq_j (sq c) + side (lv c)) - N) ltac:(lia) ltac:(lia) ltac:(lia)). lra.
  - rewrite E. f_equal. f_equal. congruence.
Qed.

(** ** The level chosen from the radius *)
Lemma asin_ge x : 0 <= x <= 1 -> x <= asin x.
Proof.
  intros H. destruct (Req_dec x 0) as [->|N]; [rewrite asin_0; lra|].
  pose proof (asin_bound x) as B. pose proof PI_RGT_0 as PP.
  assert (P : 0 < asin x).
  { apply Rnot_le_lt. intros [C|C].
    - pose proof (sin_lt_0_var (asin x) ltac:(lra) C) as K. rewrite sin_asin in K; lra.
    - assert (K : sin (asin x) = 0) by (rewrite C; apply sin_0). rewrite sin_asin in K; lra. }
  pose proof (sin_lt_x (asin x) P). rewrite sin_asin in *; lra.
Qed.
Lemma rad_lower fasin (r : f64) : accurate_asin fasin -> finite r -> 0 <= B2R r <= 4 ->
  finite (chord_to_angle fasin r) /\ sqrt (B2R r) - 1 / 2 ^ 48 <= B2R (chord_to_angle fasin r).
Proof.
  intros A F R. unfold chord_to_angle. destruct (flt_R r f0 F eq_refl) as [K|_]; [change (B2R f0) with 0 in K; lra|].
  assert (I : is_infinite r = false) by (destruct r; [reflexivity|discriminate F|discriminate F|reflexivity]). rewrite I.
  destruct (fsqrt_val r F ltac:(lra)) as [Fs Vs]. set (s := sqrt (B2R r)) in *.
  assert (S : 0 <= s <= 2).
  { split; [apply sqrt_pos|]. unfold s. replace 2 with (sqrt 4) by (replace 4 with (2 * 2) by ring; apply sqrt_square; lra). apply sqrt_le_1_alt. lra. }
  pose proof (rnd_err s 1 ltac:(lia) ltac:(change (bpow radix2 1) with 2; rewrite Rabs_pos_eq; lra)) as E1. change (bpow radix2 (1 - 53)) with (/ 4503599627370496) in E1. apply Rabs_le_inv in E1.
  assert (S2 : 0 <= rnd s <= 2).
  { destruct f2_val as [F2 V2]. split; [rewrite <- rnd_0; apply rnd_le; lra|]. rewrite <- V2, <- (rnd_fix f2), V2. apply rnd_le. lra. }
  destruct (fhalf_val) as [Fh Vh]. pose proof (fmul_result _ _ Fh Fs) as RH. rewrite Vh, Vs in RH.
  assert (X0 : 0 <= / 2 * rnd s <= 1) by lra.
  pose proof (rnd_err (/ 2 * rnd s) 0 ltac:(lia) ltac:(change (bpow radix2 0) with 1; rewrite Rabs_pos_eq; lra)) as E2. change (bpow radix2 (0 - 53)) with (/ 9007199254740992) in E2. apply Rabs_le_inv in E2.
  assert (FH : finite (fmul fhalf (fsqrt r)) /\ B2R (fmul fhalf (fsqrt r)) = rnd (/ 2 * rnd s)).
  { destruct RH as [(P & Q & _)|(sg & _ & Q & _)]; [auto|]. exfalso. assert (bpow radix2 1024 <= 2) by (eapply Rle_trans; [exact Q|]; apply Rabs_le; lra).
    assert (bpow radix2 2 <= bpow radix2 1024) by (apply bpow_le; lia). change (bpow radix2 2) with 4 in *. lra. }
  destruct FH as [FH VH]. set (x := fmul fhalf (fsqrt r)) in *.
  assert (X1 : 0 <= B2R x <= 1).
  { rewrite VH. destruct f1_val as [F1 V1]. split; [rewrite <- rnd_0; apply rnd_le; lra|]. rewrite <- V1, <- (rnd_fix f1), V1. apply rnd_le. lra. }
  destruct (A x FH X1) as [FA VA]. apply Rabs_le_inv in VA. pose proof (asin_ge _ X1) as AG. pose proof (asin_bound (B2R x)) as AB.
  set (y := fasin x) in *. assert (PB : PI <= 4) by apply PI_4.
  destruct f2_val as [F2 V2]. pose proof (fmul_result _ _ F2 FA) as RM. rewrite V2 in RM.
  assert (YB : Rabs (2 * B2R y) <= 8) by (apply Rabs_le; lra).
  pose proof (rnd_err (2 * B2R y) 3 ltac:(lia) YB) as E3. change (bpow radix2 (3 - 53)) with (/ 1125899906842624) in E3. apply Rabs_le_inv in E3.
  assert (FM : finite (fmul f2 y) /\ B2R (fmul f2 y) = rnd (2 * B2R y)).
  { destruct RM as [(P & Q & _)|(sg & _ & Q & _)]; [auto|]. exfalso. apply Rabs_le_inv in YB. assert (bpow radix2 1024 <= 9) by (eapply Rle_trans; [exact Q|]; apply Rabs_le; lra).
    assert (bpow radix2 4 <= bpow radix2 1024) by (apply bpow_le; lia). change (bpow radix2 4) with 16 in *. lra. }
  destruct FM as [FM VM]. split; [exact FM|]. rewrite VM. lra.
Qed.
Lemma deriv_val : B2R (m_deriv MIN_WIDTHMETRIC) <= 2 * S2_3 + 1 / 2 ^ 50.
Proof.
  unfold MIN_WIDTHMETRIC. cbn [m_deriv].
  assert (E : B2R (fdiv (fmul f2 SQRT_2) (of_int 3)) = B2R (lit 8492068896701031 (-53))).
  { apply feq_B2R; vm_compute; reflexivity. }
  rewrite E. destruct (lit_val 8492068896701031 (-53) ltac:(lia) ltac:(lia)) as [_ ->]. change (bpow radix2 (-53)) with (/ 9007199254740992).
  destruct S2_3_val as (A & B & C). nra.
Qed.

Lemma center_finite v : is_unit v = true -> fvec v -> finite_point v.
Proof.
  intros U (F1 & F2 & F3). split; [exact F1|]. split; [exact F2|]. split; [exact F3|].
  destruct (unit_near v U) as [_ K]. apply Rabs_le_inv in K. unfold KU in K.
  destruct (Req_dec (B2R (vx v)) 0) as [E1|]; [|auto]. destruct (Req_dec (B2R (vy v)) 0) as [E2|]; [|auto]. destruct (Req_dec (B2R (vz v)) 0) as [E3|]; [|auto].
  exfalso. unfold sqn in K. rewrite E1, E2, E3 in K. lra.
Qed.
Lemma six_faces m : wf (leaf m) -> cov [Cell 0 0; Cell 0 1; Cell 0 2; Cell 0 3; Cell 0 4; Cell 0 5] m.
Proof.
  intros W. exists (Cell 0 (face_of (leaf m))). pose proof (face_of_range _ W) as H. split.
  - assert (K : (face_of (leaf m) = 0 \/ face_of (leaf m) = 1 \/ face_of (leaf m) = 2 \/ face_of (leaf m) = 3 \/ face_of (leaf m) = 4 \/ face_of (leaf m) = 5)%Z) by lia.
    cbn [In]. destruct K as [-> |[-> |[-> |[-> |[-> | ->]]]]]; auto 8.
  - unfold leaves, face_of, leaf. cbn [lv ix]. pose proof (Z.div_mod m (4 ^ 30) ltac:(lia)). pose proof (Z.mod_pos_bound m (4 ^ 30) ltac:(lia)). change (30 - 0)%Z with 30%Z. lia.
Qed.

Lemma side_ratio L : (1 <= L <= 30)%Z -> IZR (side (L - 1)) / RN = 2 / IZR (2 ^ L).
Proof.
  intros H. unfold side. replace (30 - (L - 1))%Z with (31 - L)%Z by lia. unfold RN.
  assert (E : (2 ^ (31 - L) * 2 ^ L = 2147483648)%Z) by (rewrite <- Z.pow_add_r by lia; replace (31 - L + L)%Z with 31%Z by lia; reflexivity).
  apply (f_equal IZR) in E. rewrite mult_IZR in E. assert (0 < IZR (2 ^ L)) by (apply IZR_lt; apply Z.pow_pos_nonneg; lia).
  apply Rmult_eq_reg_r with (IZR (2 ^ L)); [|lra]. unfold Rdiv. rewrite Rmult_assoc, (Rmult_comm (/ 1073741824)), <- Rmult_assoc, E.
  rewrite (Rmult_assoc 2), Rinv_l by lra. lra.
Qed.

Lemma cell_dec (a b : cell) : {a = b} + {a <> b}. Proof. decide equality; apply Z.eq_dec. Qed.

Lemma cap_bound_ok fasin cp : accurate_asin fasin -> valid_cap cp ->
  exists cs, cap_cell_union_bound fasin cp = Some (map code cs) /\ Forall wf cs /\
  (0 <= B2R (radius cp) -> forall m d, wf (leaf m) -> patch (cell_of (leaf m)) d -> chd (direction (center cp)) d < sqrt (B2R (radius cp)) - 1 / 2 ^ 45 -> cov cs m) /\
  (23 / 100 <= B2R (radius cp) -> forall m, wf (leaf m) -> cov cs m).
Proof.
  intros A VC. destruct (valid_cap_facts cp VC) as (Uc & Fv & Fr & Br). set (val := chord_to_angle fasin (radius cp)).
  assert (NV : is_nan val = false /\ (0 <= B2R (radius cp) -> finite val /\ sqrt (B2R (radius cp)) - 1 / 2 ^ 48 <= B2R val)).
  { destruct (Rle_dec 0 (B2R (radius cp))) as [P|P].
    - destruct (rad_lower fasin (radius cp) A Fr (conj P Br)) as [F V]. fold val in F, V. split; [destruct val; try discriminate F; reflexivity|auto].
    - split; [|lra]. unfold val, chord_to_angle. destruct (flt_R (radius cp) f0 Fr eq_refl) as [K|K]; [reflexivity|change (B2R f0) with 0 in K; lra]. }
  destruct NV as [NV RV']. assert (Rm : reasonable MIN_WIDTHMETRIC) by (split; [left; reflexivity|split; vm_compute; reflexivity]).
  destruct (C54_max_level MIN_WIDTHMETRIC val Rm NV) as (L & EL & (RL & _ & GL)).
  unfold cap_cell_union_bound. fold val. rewrite EL.
  destruct (Z.eqb_spec L 0) as [Z0|Z0].
  - exists [Cell 0 0; Cell 0 1; Cell 0 2; Cell 0 3; Cell 0 4; Cell 0 5]. rewrite !from_face_ok by lia. split; [reflexivity|]. split.
    + repeat constructor; cbn; lia.
    + split; [intros _ m d W _ _|intros _ m W]; apply six_faces; assumption.
  - destruct (near_leaf (center cp) (center_finite _ Uc Fv)) as (m0 & Em & Wm & d0 & P0 & C0). rewrite Em.
    destruct (leaf_gap (leaf m0) (L - 1) Wm eq_refl ltac:(lia)) as (ds & E & Wd & G). exists ds. split; [exact E|]. split; [exact Wd|].
    assert (HV : 0 <= B2R (radius cp) -> sqrt (B2R (radius cp)) <= 2 * S2_3 / IZR (2 ^ L) + 1 / 2 ^ 47).
    { intros P. destruct (RV' P) as [Fval LV]. destruct GL as [GL|(GL & _)]; [|lia]. destruct (C54_value MIN_WIDTHMETRIC L Rm ltac:(lia)) as [Fl Vl]. unfold fge in GL. set (vl := value MIN_WIDTHMETRIC L) in *. clearbody vl.
      destruct (fle_R val vl Fval Fl) as [K|K]; [|discriminate]. rewrite Vl in K. cbn [m_dim MIN_WIDTHMETRIC] in K. rewrite Z.mul_1_l in K.
      pose proof deriv_val as DV. assert (P2 : 1 <= IZR (2 ^ L)) by (apply IZR_le; pose proof (Z.pow_pos_nonneg 2 L ltac:(lia) ltac:(lia)); lia).
      assert (I2 : 0 < / IZR (2 ^ L) <= 1) by (split; [apply Rinv_0_lt_compat; lra|rewrite <- Rinv_1; apply Rinv_le_contravar; lra]).
      unfold Rdiv in *. set (i := / IZR (2 ^ L)) in *. nra. }
    split; cycle 1.
    { (* a large cap has level 0 *)
      intros P. exfalso. specialize (HV ltac:(lra)). destruct S2_3_val as (S0 & S1 & _). destruct (sqrt_nonneg (B2R (radius cp)) ltac:(lra)) as [R0 RR].
      assert (P2 : 2 <= IZR (2 ^ L)) by (apply IZR_le; change 2%Z with (2 ^ 1)%Z at 1; apply Z.pow_le_mono_r; lia).
      assert (I2 : / IZR (2 ^ L) <= / 2) by (apply Rinv_le_contravar; lra). unfold Rdiv in HV.
      assert (H1 : 2 * S2_3 * / IZR (2 ^ L) <= 2 * S2_3 * / 2) by (apply Rmult_le_compat_l; lra).
      assert (H2 : S2_3 <= 472 / 1000) by (apply Rnot_lt_le; intros K; assert (472 / 1000 * (472 / 1000) < S2_3 * S2_3) by (apply Rmult_le_0_lt_compat; lra); lra).
      assert (H3 : 479 / 1000 <= sqrt (B2R (radius cp))) by (apply Rnot_lt_le; intros K; assert (sqrt (B2R (radius cp)) * sqrt (B2R (radius cp)) < 479 / 1000 * (479 / 1000)) by (apply Rmult_le_0_lt_compat; lra); lra). lra. }
    intros P m d W Pd Cd. specialize (HV P).
    destruct (in_dec cell_dec (anc (L - 1) (leaf m)) ds) as [I|NI].
    { exists (anc (L - 1) (leaf m)). split; [exact I|]. pose proof (anc_is_ancestor (leaf m) (L - 1) ltac:(cbn; lia)) as AA.
      unfold leaves, anc, leaf. cbn [lv ix]. pose proof (Z.div_mod m (4 ^ (30 - (L - 1))) ltac:(lia)). pose proof (Z.mod_pos_bound m (4 ^ (30 - (L - 1))) ltac:(lia)). lia. }
    exfalso. pose proof (G (leaf m) d0 d W eq_refl NI P0 Pd) as GG. unfold sig in GG.
    pose proof (chd_tri d0 (direction (center cp)) d) as T. rewrite (chd_sym d0 (direction (center cp))) in T. rewrite (side_ratio L ltac:(lia)) in GG. unfold Rdiv in *. lra.
Qed.
