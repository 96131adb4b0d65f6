(** The cap bound of a union of cells contains the inside of every leaf of the union, with room to spare. *)
From Coq Require Import ZArith Reals Lra Lia Psatz List Bool.
From Flocq Require Import Core.
From Verif Require Import Base Spec F64 F64Facts IntervalSpec F64Arith F64Error S1Proofs VectorModel StuvModel R1Model
  CellIdModel CellIdArith CellIdProofs CellUnionModel HilbertModel HilbertSpec HilbertGeom NeighborSpec
  CellSpec CellModel StuvError CellLattice CellProofs CellPoint CellVertex MetricModel
  PredicatesError PredicatesFloat CapSpec CapModel ChordProofs CapProofs CapError PropsCap CapCell CapEdgeFloat CapEdgeMain NormProofs RegionModel CoverProofs CellBound ExpandProofs MetricProofs PropsMetric.
Import ListNotations.
Open Scope R_scope.

(** ** Sums of distances *)
Lemma sqrt_csum A B : 0 <= A <= 1 -> 0 <= B <= 1 ->
  csum (A * A) (B * B) = (A * sqrt (1 - B * B / 4) + B * sqrt (1 - A * A / 4)) * (A * sqrt (1 - B * B / 4) + B * sqrt (1 - A * A / 4)).
Proof.
  intros HA HB. assert (A * A <= 1) by nra. assert (B * B <= 1) by nra. unfold csum.
  pose proof (sqrt_sqrt (1 - B * B / 4) ltac:(lra)) as SB. pose proof (sqrt_sqrt (1 - A * A / 4) ltac:(lra)) as SA.
  pose proof (sqrt_pos (1 - B * B / 4)) as PB. pose proof (sqrt_pos (1 - A * A / 4)) as PA.
  set (b := sqrt (1 - B * B / 4)) in *. set (a := sqrt (1 - A * A / 4)) in *. rewrite <- SB, <- SA.
  replace (A * A * (b * b) * (B * B * (a * a))) with ((A * b * (B * a)) * (A * b * (B * a))) by ring.
  rewrite sqrt_square; [ring|]. apply Rmult_le_pos; apply Rmult_le_pos; lra.
Qed.
Lemma half_cos A : 0 <= A <= 51 / 100 -> 96 / 100 <= sqrt (1 - A * A / 4) <= 1.
Proof.
  intros H. assert (A * A <= 51 / 100 * (51 / 100)) by (apply Rmult_le_compat; lra). assert (0 <= A * A) by (apply Rmult_le_pos; lra). split.
  - rewrite <- (sqrt_square (96 / 100)) by lra. apply sqrt_le_1_alt. lra.
  - apply Rle_trans with (sqrt 1); [apply sqrt_le_1_alt; lra|rewrite sqrt_1; lra].
Qed.
Lemma csum_gap A B e g : 0 <= A <= 1 / 2 -> 0 <= B <= 1 / 2 -> 0 <= e <= 1 / 1000 -> 0 <= g -> g <= B ->
  let F a b := a * sqrt (1 - b * b / 4) + b * sqrt (1 - a * a / 4) in
  F (A + e) (B - g) <= F A B + 2 * e - 8 / 10 * g.
Proof.
  intros HA HB He Hg GB. cbv zeta. destruct (half_cos A ltac:(lra)) as [a1 a2]. destruct (half_cos B ltac:(lra)) as [b1 b2].
  destruct (half_cos (A + e) ltac:(lra)) as [c1 c2]. destruct (half_cos (B - g) ltac:(lra)) as [d1 d2].
  assert (M : sqrt (1 - (A + e) * (A + e) / 4) <= sqrt (1 - A * A / 4)) by (apply sqrt_le_1_alt; nra).
  assert (D : sqrt (1 - (B - g) * (B - g) / 4) <= sqrt (1 - B * B / 4) + 14 / 100 * g).
  { pose proof (sqrt_sqrt (1 - (B - g) * (B - g) / 4) ltac:(nra)) as E1. pose proof (sqrt_sqrt (1 - B * B / 4) ltac:(nra)) as E2.
    set (x := sqrt (1 - (B - g) * (B - g) / 4)) in *. set (y := sqrt (1 - B * B / 4)) in *.
    apply Rnot_lt_le. intros L. assert (14 / 100 * g * (192 / 100) <= (x - y) * (x + y)) by (apply Rmult_le_compat; lra).
    assert (E : (x - y) * (x + y) = g * (2 * B - g) / 4) by lra. assert (g * (2 * B - g) <= g * 1) by (apply Rmult_le_compat_l; lra).
    assert (P : 0 < x - y) by lra. assert ((x - y) * (192 / 100) <= (x - y) * (x + y)) by (apply Rmult_le_compat_l; lra). lra. }
  set (x := sqrt (1 - (B - g) * (B - g) / 4)) in *. set (y := sqrt (1 - B * B / 4)) in *. set (z := sqrt (1 - (A + e) * (A + e) / 4)) in *. set (w := sqrt (1 - A * A / 4)) in *.
  assert (T1 : (A + e) * x <= (A + e) * (y + 14 / 100 * g)) by (apply Rmult_le_compat_l; lra).
  assert (T2 : (B - g) * z <= (B - g) * w) by (apply Rmult_le_compat_l; lra).
  assert (T3 : g * (96 / 100) <= g * w) by (apply Rmult_le_compat_l; lra).
  assert (T4 : e * y <= e * 1) by (apply Rmult_le_compat_l; lra). assert (T5 : (A + e) * g <= 51 / 100 * g) by (apply Rmult_le_compat_r; lra). lra.
Qed.
(* the cap of a cell, added to another cap *)
Lemma add_gap a v (r : f64) d : is_unit a = true -> is_unit v = true -> finite r -> 0 <= B2R r <= 4 -> on_sphere d ->
  let x := chord_add (chordangle a v) r in
  chd (direction v) d <= sqrt (B2R r) - 1 / 2 ^ 37 -> B2R x < 23 / 100 -> chd (direction a) d <= sqrt (B2R x) - 1 / 2 ^ 39.
Proof.
  intros Ua Uv Fr Br Sd. cbv zeta. intros G RX. destruct (chordangle_range a v) as [Fc Bc]. destruct (chordangle_near a v Ua Uv) as (DR & _ & DN). cbv zeta in DR, DN.
  destruct (chord_add_err _ _ Fc Fr Bc Br) as (Fx & Bx & FULL & ERR).
  pose proof (unit_sphere _ Ua) as Sa. pose proof (unit_sphere _ Uv) as Sv. destruct (chd_range _ _ Sv Sd) as ((V0 & _) & VV & _). destruct (chd_range _ _ Sa Sv) as ((A0 & _) & AA & _). destruct (chd_range _ _ Sa Sd) as ((D0 & _) & DD & _).
  destruct (Rle_dec (B2R (chordangle a v) + B2R r) 4) as [S4|S4]; [|rewrite FULL in RX by lra; lra]. specialize (ERR S4). destruct (csum_sq _ _ Bc Br S4) as (C0 & C1).
  set (c := B2R (chordangle a v)) in *. set (rr := B2R r) in *. set (X := B2R (chord_add (chordangle a v) r)) in *.
  assert (TI : pow2 (-515) <= / 2 ^ 120). { apply Rle_trans with (pow2 (-120)); [apply bpow_le; lia|]. change (pow2 (-120)) with (/ 1329227995784915872903807060280344576). lra. }
  apply Rabs_le_inv in ERR.
  assert (SM : c + rr <= 24 / 100) by lra.
  destruct (sqrt_nonneg c ltac:(lra)) as [c0 cc]. destruct (sqrt_nonneg rr ltac:(lra)) as [r0 rs]. set (A := sqrt c) in *. set (B := sqrt rr) in *.
  assert (HA : A <= 1 / 2) by (apply sq_le_le; lra). assert (HB : B <= 1 / 2) by (apply sq_le_le; lra).
  set (e := / 4398046511104). set (g := 1 / 2 ^ 37) in *. assert (G37 : g = / 137438953472) by (unfold g; lra).
  assert (AE : chd (direction a) (direction v) <= A + e).
  { apply sq_le_le; [lra|unfold e; lra|]. rewrite AA. unfold KC in DN. assert (0 <= A * e) by (apply Rmult_le_pos; unfold e; lra). rewrite <- cc in DN. assert (A * A <= A * 1) by (apply Rmult_le_compat_l; lra).
    unfold e. lra. }
  pose proof (csum_gap A B e g ltac:(lra) ltac:(lra) ltac:(unfold e; lra) ltac:(lra) ltac:(lra)) as CG. cbv zeta in CG.
  pose proof (sqrt_csum A B ltac:(lra) ltac:(lra)) as SC. pose proof (sqrt_csum (A + e) (B - g) ltac:(unfold e; lra) ltac:(lra)) as SC'.
  assert (PF : forall x y, 0 <= x -> 0 <= y -> 0 <= x * sqrt (1 - y * y / 4) + y * sqrt (1 - x * x / 4)).
  { intros x y Px Py. apply Rplus_le_le_0_compat; apply Rmult_le_pos; auto; apply sqrt_pos. }
  pose proof (PF A B ltac:(lra) ltac:(lra)) as F0. pose proof (PF (A + e) (B - g) ltac:(unfold e; lra) ltac:(lra)) as F0'.
  assert (FB : 96 / 100 * g <= A * sqrt (1 - B * B / 4) + B * sqrt (1 - A * A / 4)).
  { destruct (half_cos A ltac:(lra)) as [a1 _]. assert (0 <= A * sqrt (1 - B * B / 4)) by (apply Rmult_le_pos; [lra|apply sqrt_pos]).
    assert (g * (96 / 100) <= B * sqrt (1 - A * A / 4)) by (apply Rmult_le_compat; lra). lra. }
  set (F := A * sqrt (1 - B * B / 4) + B * sqrt (1 - A * A / 4)) in *. set (F' := (A + e) * sqrt (1 - (B - g) * (B - g) / 4) + (B - g) * sqrt (1 - (A + e) * (A + e) / 4)) in *.
  rewrite cc, rs in SC.
  (* the real distance *)
  assert (UP : chd (direction a) d <= F').
  { apply sq_le_le; [lra|lra|]. rewrite DD, <- SC'.
    assert (M : dist2 (direction a) d <= cs ((A + e) * (A + e)) ((B - g) * (B - g))).
    { apply Rle_trans with (cs (dist2 (direction a) (direction v)) ((B - g) * (B - g))).
      - apply sphere_triangle_cs; auto. split; [rewrite <- VV; apply Rmult_le_compat; lra|]. assert ((B - g) * (B - g) <= 1 / 2 * (1 / 2)) by (apply Rmult_le_compat; lra). lra.
      - apply cs_mono; try lra.
        + rewrite <- AA. apply Rmult_le_compat; lra.
        + assert ((A + e) * (A + e) <= 1 * 1) by (apply Rmult_le_compat; unfold e; lra). lra.
        + apply Rmult_le_pos; lra.
        + assert ((B - g) * (B - g) <= 1 / 2 * (1 / 2)) by (apply Rmult_le_compat; lra). lra. }
    unfold cs in M. destruct (Rle_dec _ _) as [_|N]; [exact M|]. exfalso. apply N. assert ((B - g) * (B - g) <= 1 / 2 * (1 / 2)) by (apply Rmult_le_compat; lra). assert ((A + e) * (A + e) <= 1 * 1) by (apply Rmult_le_compat; unfold e; lra). lra. }
  (* the computed one *)
  assert (LOW : F - / 2 ^ 48 <= sqrt X).
  { destruct (sqrt_nonneg X ltac:(lra)) as [X0 XX]. apply sq_le_le; [lra|exact X0|]. rewrite XX. rewrite SC in ERR.
    assert (F1 : F <= 1). { apply sq_le_le; [lra|lra|]. rewrite <- SC. lra. }
    assert (F2 : F * F <= F * 1) by (apply Rmult_le_compat_l; lra). assert (F3 : g * (96 / 100) * (/ 2 ^ 48) <= F * / 2 ^ 48) by (apply Rmult_le_compat_r; lra). rewrite G37 in F3. lra. }
  unfold e in CG. lra.
Qed.

(** ** The weighted sum of the centres: zero or far from zero *)
Definition on_grid (x : R) : Prop := exists n : BinInt.Z, x = IZR n * pow2 (-160).
Lemma grid_ge (x : f64) j : (-100 <= j <= 900)%Z -> pow2 j <= Rabs (B2R x) -> on_grid (B2R x).
Proof.
  intros Hj H. destruct (grid x j ltac:(lia) H) as (k & E). exists (k * 2 ^ (j - 52 + 160))%Z. rewrite E, mult_IZR, Rmult_assoc. f_equal.
  change (IZR (2 ^ (j - 52 + 160))) with (IZR (radix2 ^ (j - 52 + 160))). rewrite IZR_Zpower by lia. rewrite <- bpow_plus. f_equal. lia.
Qed.
Lemma grid_0 : on_grid 0. Proof. exists 0%Z. lra. Qed.
Lemma grid_add x y : on_grid x -> on_grid y -> on_grid (x + y).
Proof. intros (a & ->) (b & ->). exists (a + b)%Z. rewrite plus_IZR. ring. Qed.
Lemma grid_rnd z x : finite z -> B2R z = rnd x -> on_grid x -> on_grid (B2R z).
Proof.
  intros F V (n & E). destruct (Z_lt_ge_dec (Z.abs n) (2 ^ 53)) as [L|G].
  - exists n. rewrite V, <- E. apply round_generic; [apply valid_rnd_N|]. apply generic_format_FLT. exists (Float radix2 n (-160)); [exact E|exact L|cbn [Fexp]; lia].
  - assert (B : pow2 (-107) <= Rabs x).
    { rewrite E, Rabs_mult, (Rabs_pos_eq (pow2 (-160))) by apply bpow_ge_0. rewrite <- abs_IZR.
      replace (pow2 (-107)) with (IZR (2 ^ 53) * pow2 (-160)). 2:{ change (IZR (2 ^ 53)) with (IZR (radix2 ^ 53)). rewrite IZR_Zpower by lia. rewrite <- bpow_plus. reflexivity. }
      apply Rmult_le_compat_r; [apply bpow_ge_0|]. apply IZR_le. lia. }
    assert (B' : pow2 (-107) <= Rabs (B2R z)).
    { rewrite V. unfold rnd. apply abs_round_ge_generic; [apply FLT_exp_valid; reflexivity|apply valid_rnd_N| |exact B]. apply generic_format_bpow. unfold FLT_exp. lia. }
    destruct (grid z (-107) ltac:(lia) B') as (k & Ek). exists (k * 2)%Z. rewrite Ek, mult_IZR, Rmult_assoc. f_equal.
    change 2 with (bpow radix2 1). rewrite <- bpow_plus. f_equal.
Qed.
Lemma grid_min x : on_grid x -> x = 0 \/ pow2 (-160) <= Rabs x.
Proof.
  intros (n & ->). destruct (Z.eq_dec n 0) as [->|N]; [left; lra|right]. rewrite Rabs_mult, (Rabs_pos_eq (pow2 (-160))) by apply bpow_ge_0.
  rewrite <- (Rmult_1_l (pow2 (-160))) at 1. apply Rmult_le_compat_r; [apply bpow_ge_0|]. rewrite <- abs_IZR. change 1 with (IZR 1). apply IZR_le. lia.
Qed.

(* sums do not pass 2^60: beyond it there is no room for terms as small as these *)
Definition term (x : f64) : Prop := finite x /\ Rabs (B2R x) <= 4 /\ on_grid (B2R x).
Definition sum_ok (x : f64) : Prop := finite x /\ Rabs (B2R x) <= IZR (2 ^ 60) /\ on_grid (B2R x).
Lemma sum_step x t : sum_ok x -> term t -> sum_ok (fadd x t).
Proof.
  intros (Fx & Bx & Gx) (Ft & Bt & Gt). pose proof (fadd_result x t Fx Ft) as R.
  assert (B : Rabs (B2R x + B2R t) <= IZR (2 ^ 60) + 4) by (pose proof (Rabs_triang (B2R x) (B2R t)); lra).
  destruct (result_half _ _ 61 ltac:(lia) R) as (F & V & E).
  { eapply Rle_trans; [exact B|]. change (pow2 61) with (IZR (2 ^ 61)). rewrite <- plus_IZR. apply IZR_le. lia. }
  split; [exact F|]. split; [|apply (grid_rnd _ _ F V), grid_add; auto].
  destruct (Rle_dec (Rabs (B2R (fadd x t))) (IZR (2 ^ 60))) as [|N]; [auto|exfalso].
  set (z := fadd x t) in *. set (s := B2R x + B2R t) in *.
  destruct (grid z 60 ltac:(lia)) as (k & K); [change (pow2 60) with (IZR (2 ^ 60)); lra|]. change (pow2 (60 - 52)) with 256 in K.
  assert (NEAR : Rabs (B2R z) <= IZR (2 ^ 60) + 8).
  { destruct (Rle_dec (Rabs s) (IZR (2 ^ 60))) as [S|S].
    - exfalso. apply N. rewrite V. unfold rnd. apply abs_round_le_generic; [apply FLT_exp_valid; reflexivity|apply valid_rnd_N| |exact S].
      change (IZR (2 ^ 60)) with (pow2 60). apply generic_format_bpow. unfold FLT_exp. lia.
    - pose proof (round_N_pt radix2 (FLT_exp (-1074) 53) (fun x => negb (Z.even x)) s) as (_ & M). fold ZnearestE in M. change (round radix2 (FLT_exp (-1074) 53) ZnearestE s) with (rnd s) in M. rewrite <- V in M.
      assert (G60 : generic_format radix2 (FLT_exp (-1074) 53) (IZR (2 ^ 60))) by (change (IZR (2 ^ 60)) with (pow2 60); apply generic_format_bpow; unfold FLT_exp; lia).
      pose proof (M _ G60) as M1. pose proof (M _ (generic_format_opp _ _ _ G60)) as M2. clear M.
      change (IZR (2 ^ 60)) with 1152921504606846976 in *. revert S B M1 M2. unfold Rabs. repeat destruct (Rcase_abs _); lra. }
  rewrite K, Rabs_mult, (Rabs_pos_eq 256) in NEAR, N by lra. rewrite <- abs_IZR in NEAR, N. change (IZR (2 ^ 60)) with 1152921504606846976 in *.
  rewrite <- mult_IZR in NEAR, N. rewrite <- plus_IZR in NEAR. apply le_IZR in NEAR. apply N. apply IZR_le. lia.
Qed.

(* components of centres before they are normalised *)
Definition part (x : f64) : Prop := finite x /\ Rabs (B2R x) <= 1 /\ (B2R x = 0 \/ / 2147483648 <= Rabs (B2R x)).
Lemma part_1 : part f1.
Proof. destruct f1_val as [F V]. unfold part. rewrite V, Rabs_R1. repeat split; auto; lra. Qed.
Lemma part_neg x : part x -> part (fneg x).
Proof. intros (F & B & Z). destruct (fneg_val x F) as [Fn Vn]. unfold part. rewrite Vn, Rabs_Ropp. repeat split; auto. destruct Z as [Z|Z]; [left; rewrite Z; lra|right; exact Z]. Qed.
Lemma part_uvl k : (0 <= k <= 2 ^ 31)%Z -> part (uvl k).
Proof.
  intros H. destruct (uvl_val k H) as (F & _ & B). split; [exact F|]. split; [apply Rabs_le; lra|]. destruct uvl_ends as (_ & _ & E0).
  destruct (Z.lt_trichotomy k (2 ^ 30)) as [L|[->|L]]; [right|left; exact E0|right].
  - pose proof (uvl_gap k (2 ^ 30) ltac:(lia) ltac:(lia)). rewrite Rabs_left1; lra.
  - pose proof (uvl_gap (2 ^ 30) k ltac:(lia) ltac:(lia)). rewrite Rabs_pos_eq; lra.
Qed.
Lemma face_parts f u v r : face_uv_to_xyz f u v = Some r -> part u -> part v -> part (vx r) /\ part (vy r) /\ part (vz r).
Proof.
  intros E Pu Pv. pose proof part_1 as P1. pose proof (part_neg _ P1). pose proof (part_neg _ Pu). pose proof (part_neg _ Pv).
  unfold face_uv_to_xyz in E. repeat match type of E with context [if ?b then _ else _] => destruct b end; try discriminate; injection E as <-; cbn [vx vy vz]; auto.
Qed.
Lemma area_val l : (0 <= l <= 30)%Z -> finite (value AVG_AREAMETRIC l) /\ pow2 (-60) <= B2R (value AVG_AREAMETRIC l) <= 3.
Proof.
  intros Hl. assert (Rm : reasonable AVG_AREAMETRIC) by (split; [right; reflexivity|split; vm_compute; reflexivity]).
  destruct (value_val _ l (reasonable_good _ Rm) ltac:(lia)) as [F V]. split; [exact F|]. rewrite V. change (m_dim AVG_AREAMETRIC) with 2%Z.
  assert (D : 1 <= B2R (m_deriv AVG_AREAMETRIC) <= 3).
  { assert (L1 : fle f1 (m_deriv AVG_AREAMETRIC) = true) by (vm_compute; reflexivity). assert (L2 : fle (m_deriv AVG_AREAMETRIC) (of_int 3) = true) by (vm_compute; reflexivity).
    assert (FD : finite (m_deriv AVG_AREAMETRIC)) by (vm_compute; reflexivity). destruct f1_val as [F1 V1]. destruct (of_int_val 3 ltac:(lia)) as [F3 V3].
    destruct (fle_R f1 _ F1 FD) as [A|A]; [|discriminate]. destruct (fle_R _ (of_int 3) FD F3) as [C|C]; [|discriminate]. lra. }
  assert (P : pow2 (-60) <= pow2 (- (2) * l) <= 1). { split; [apply bpow_le; lia|]. change 1 with (pow2 0). apply bpow_le. lia. }
  pose proof (bpow_gt_0 radix2 (-60)). split.
  - rewrite <- (Rmult_1_l (pow2 (-60))). apply Rmult_le_compat; lra.
  - replace 3 with (3 * 1) by ring. apply Rmult_le_compat; lra.
Qed.
Lemma term_ok x s a : part x -> finite s -> 57 / 100 <= B2R s <= 1 -> finite a -> pow2 (-60) <= B2R a <= 3 -> term (fmul (fmul x s) a).
Proof.
  intros (Fx & Bx & Zx) Fs Bs Fa Ba. destruct (comp_val x s Fx Bx Fs Bs) as (Fy & _ & By & _). pose proof (fmul_result x s Fx Fs) as Ry. pose proof (result_finite _ _ Ry Fy) as Vy.
  set (y := fmul x s) in *. pose proof (bpow_gt_0 radix2 (-60)) as P60.
  assert (Zy : B2R y = 0 \/ pow2 (-32) <= Rabs (B2R y)).
  { destruct Zx as [Zx|Zx]; [left; rewrite Vy, Zx, Rmult_0_l; apply rnd_0|right]. rewrite Vy. unfold rnd. apply abs_round_ge_generic; [apply FLT_exp_valid; reflexivity|apply valid_rnd_N|apply generic_format_bpow; unfold FLT_exp; lia|].
    rewrite Rabs_mult, (Rabs_pos_eq (B2R s)) by lra. change (pow2 (-32)) with (/ 4294967296). assert (/ 2147483648 * (57 / 100) <= Rabs (B2R x) * B2R s) by (apply Rmult_le_compat; lra). lra. }
  pose proof (fmul_result y a Fy Fa) as R. assert (UB : Rabs (B2R y * B2R a) <= 3).
  { rewrite Rabs_mult, (Rabs_pos_eq (B2R a)) by lra. replace 3 with (1 * 3) by ring. apply Rmult_le_compat; try lra. apply Rabs_pos. }
  destruct (result_half _ _ 2 ltac:(lia) R) as (F & V & E); [change (pow2 2) with 4; lra|]. set (t := fmul y a) in *.
  assert (G : B2R t = 0 \/ pow2 (-92) <= Rabs (B2R t)).
  { destruct Zy as [Zy|Zy]; [left; rewrite V, Zy, Rmult_0_l; apply rnd_0|right]. rewrite V. unfold rnd. apply abs_round_ge_generic; [apply FLT_exp_valid; reflexivity|apply valid_rnd_N|apply generic_format_bpow; unfold FLT_exp; lia|].
    rewrite Rabs_mult, (Rabs_pos_eq (B2R a)) by lra. change (-92)%Z with (-32 + -60)%Z. rewrite bpow_plus. apply Rmult_le_compat; try lra. apply bpow_ge_0. }
  split; [exact F|]. split.
  - rewrite V. unfold rnd. apply abs_round_le_generic; [apply FLT_exp_valid; reflexivity|apply valid_rnd_N| |lra]. change 4 with (pow2 2). apply generic_format_bpow. unfold FLT_exp. lia.
  - destruct G as [G|G]; [rewrite G; apply grid_0|apply (grid_ge t (-92) ltac:(lia) G)].
Qed.
Definition vec_ok (v : vec) : Prop := sum_ok (vx v) /\ sum_ok (vy v) /\ sum_ok (vz v).
Lemma centre_part c : wf c -> exists r, point_from_cellid (code c) = Some (VectorModel.normalize r) /\ cube_pt r /\ part (vx r) /\ part (vy r) /\ part (vz r).
Proof.
  intros W. pose proof (face_of_range c W) as Hf. destruct (center_ok c W) as [E _].
  destruct (sq_aligned c W) as ((_ & P & Di & Dj & B1 & B2 & B3 & B4) & F & S). rewrite S in *. change (2 ^ 30)%Z with 1073741824%Z in *.
  set (k := (2 * sq_i (sq c) + side (lv c))%Z) in *. set (l := (2 * sq_j (sq c) + side (lv c))%Z) in *.
  assert (Hk : (0 < k < 2 ^ 31)%Z) by lia. assert (Hl : (0 < l < 2 ^ 31)%Z) by lia.
  destruct (uvl_val k ltac:(lia)) as (Fk & _ & Bk). destruct (uvl_val l ltac:(lia)) as (Fl & _ & Bl).
  destruct (face_uv_cube (face_of c) (uvl k) (uvl l) Hf Fk Fl ltac:(apply Rabs_le; lra) ltac:(apply Rabs_le; lra)) as (r & Er & C).
  assert (ER : raw_point (code c) = Some r). { unfold raw_point. rewrite E, !as_u64_pos, !siti_lat by lia. exact Er. }
  exists r. split; [unfold point_from_cellid; rewrite ER; reflexivity|]. split; [exact C|]. apply (face_parts _ _ _ _ Er); apply part_uvl; lia.
Qed.
Lemma centroid_ok cs : Forall wf cs -> forall acc, vec_ok acc -> exists s, centroid_loop (map code cs) acc = Some s /\ vec_ok s.
Proof.
  induction 1 as [|c t W _ IH]; intros acc A; [exists acc; split; [reflexivity|exact A]|]. cbn [map centroid_loop].
  rewrite (level_code c W). destruct (centre_part c W) as (r & -> & C & P1 & P2 & P3). destruct (scale_range r C) as [Fs Bs]. rewrite (normalize_cube r C).
  pose proof W as (LV & _). destruct (area_val (lv c) ltac:(lia)) as [Fa Ba]. destruct A as (A1 & A2 & A3).
  apply IH. unfold vec_ok, vadd, vscale. cbn [vx vy vz]. repeat split; try apply sum_step; auto; apply term_ok; auto.
Qed.
Lemma axis_ok s : vec_ok s -> is_unit (if feq (vx s) f0 && feq (vy s) f0 && feq (vz s) f0 then VectorModel.normalize (Vec f1 f0 f0) else VectorModel.normalize s) = true.
Proof.
  intros ((F1 & B1 & G1) & (F2 & B2 & G2) & (F3 & B3 & G3)).
  destruct (feq (vx s) f0 && feq (vy s) f0 && feq (vz s) f0) eqn:EZ; [vm_compute; reflexivity|].
  enough (MO : moderate s) by (destruct (normalize_close s MO) as (n & _ & _ & _ & _ & _ & _ & H); exact H).
  split; [repeat split; auto|]. unfold sqn.
  assert (M : forall x, finite x -> on_grid (B2R x) -> feq x f0 = false -> pow2 (-320) <= B2R x * B2R x).
  { intros x F G N. destruct (feq_R x f0 F eq_refl) as [K|K]; [discriminate|]. change (B2R f0) with 0 in K. destruct (grid_min _ G) as [Z|Z]; [lra|].
    change (-320)%Z with (-160 + -160)%Z. rewrite bpow_plus. rewrite <- (Rabs_pos_eq (B2R x * B2R x)) by apply Rle_0_sqr. rewrite Rabs_mult. apply Rmult_le_compat; auto; apply bpow_ge_0. }
  assert (U : forall x : f64, Rabs (B2R x) <= IZR (2 ^ 60) -> 0 <= B2R x * B2R x <= pow2 120).
  { intros x B. split; [apply Rle_0_sqr|]. rewrite <- (Rabs_pos_eq (B2R x * B2R x)) by apply Rle_0_sqr. rewrite Rabs_mult. change 120%Z with (60 + 60)%Z. rewrite bpow_plus. change (pow2 60) with (IZR (2 ^ 60)). apply Rmult_le_compat; auto; apply Rabs_pos. }
  pose proof (U _ B1). pose proof (U _ B2). pose proof (U _ B3). assert (P1 : pow2 (-900) <= pow2 (-320)) by (apply bpow_le; lia). assert (P2 : pow2 120 * 4 <= pow2 900).
  { change 4 with (pow2 2). rewrite <- bpow_plus. apply bpow_le. lia. }
  split; [|lra]. destruct (feq (vx s) f0) eqn:X1; [|pose proof (M _ F1 G1 X1); lra]. destruct (feq (vy s) f0) eqn:X2; [|pose proof (M _ F2 G2 X2); lra].
  destruct (feq (vz s) f0) eqn:X3; [discriminate|]. pose proof (M _ F3 G3 X3). lra.
Qed.

(** ** Sums of angles: the length of the sum grows no faster than the length of a term *)
Lemma sqrt_chord t : 0 <= t <= PI -> sqrt (chord t) = 2 * sin (t / 2).
Proof.
  intros H. unfold chord. replace (4 * (sin (t / 2) * sin (t / 2))) with ((2 * sin (t / 2)) * (2 * sin (t / 2))) by ring. apply sqrt_square.
  pose proof (sin_ge_0 (t / 2) ltac:(lra) ltac:(lra)). lra.
Qed.
Lemma sin_gap x y z : 0 <= x -> 0 <= y <= z -> x + z <= PI / 2 -> sin (x + z) - sin (x + y) <= sin z - sin y.
Proof.
  intros Hx Hy Hz. rewrite (form4 (x + z) (x + y)), (form4 z y). replace ((x + z - (x + y)) / 2) with ((z - y) / 2) by lra.
  assert (S : 0 <= sin ((z - y) / 2)) by (apply sin_ge_0; pose proof PI_RGT_0; lra).
  assert (C : cos ((x + z + (x + y)) / 2) <= cos ((z + y) / 2)) by (apply cos_decr_1; pose proof PI_RGT_0; lra).
  assert (cos ((x + z + (x + y)) / 2) * sin ((z - y) / 2) <= cos ((z + y) / 2) * sin ((z - y) / 2)) by (apply Rmult_le_compat_r; lra). lra.
Qed.
Lemma cs_grow a b b' : 0 <= a <= 4 -> 0 <= b -> b <= b' -> b' <= 4 -> sqrt (cs a b') <= sqrt (cs a b) + (sqrt b' - sqrt b).
Proof.
  intros Ha Hb L Hb'. destruct (chord_onto a Ha) as (t & Ht & <-). destruct (chord_onto b ltac:(lra)) as (v & Hv & <-). destruct (chord_onto b' ltac:(lra)) as (v' & Hv' & <-).
  assert (V : v <= v'). { apply Rnot_lt_le. intros C. pose proof (chord_incr_lt v' v ltac:(lra) C ltac:(lra)). lra. }
  rewrite !cs_chord by auto. rewrite !sqrt_chord; auto; [|split; [apply Rmin_glb|apply Rmin_l]; lra|split; [apply Rmin_glb|apply Rmin_l]; lra].
  assert (M : sin (v / 2) <= sin (v' / 2)) by (apply sin_incr_1; lra).
  unfold Rmin. destruct (Rle_dec PI (t + v)) as [A|A], (Rle_dec PI (t + v')) as [A'|A']; try lra.
  - pose proof (sin_gap (t / 2) (v / 2) (PI / 2 - t / 2) ltac:(lra) ltac:(lra) ltac:(lra)) as G. replace (t / 2 + (PI / 2 - t / 2)) with (PI / 2) in G by ring.
    assert (sin (PI / 2 - t / 2) <= sin (v' / 2)) by (apply sin_incr_1; lra). replace ((t + v) / 2) with (t / 2 + v / 2) by lra. lra.
  - pose proof (sin_gap (t / 2) (v / 2) (v' / 2) ltac:(lra) ltac:(lra) ltac:(lra)) as G. replace ((t + v) / 2) with (t / 2 + v / 2) by lra. replace ((t + v') / 2) with (t / 2 + v' / 2) by lra. lra.
Qed.
(* a point near a cap is near the cap that contains it *)
Lemma add_near a v (r : f64) d : is_unit a = true -> is_unit v = true -> finite r -> 0 <= B2R r <= 4 -> on_sphere d ->
  chd (direction v) d <= sqrt (B2R r) + 1 / 2 ^ 41 -> dist2 (direction a) d <= B2R (chord_add (chordangle a v) r) + 1 / 2 ^ 38.
Proof.
  intros Ua Uv Fr Br Sd H. destruct (chordangle_range a v) as [Fc Bc]. pose proof (unit_sphere _ Ua) as Sa. pose proof (unit_sphere _ Uv) as Sv.
  destruct (chord_add_cs _ _ Fc Fr Bc Br) as (Fx & Bx & Ex). pose proof (cs_near a v (B2R r) Ua Uv Br) as CN. change (pow2 (-47)) with (/ 140737488355328) in Ex. apply Rabs_le_inv in CN, Ex.
  destruct (chd_range _ _ Sv Sd) as ((V0 & V2) & VV & _). destruct (chd_range _ _ Sa Sd) as ((D0 & D2) & DD & _). pose proof (dist2_range _ _ Sa Sv) as R1. pose proof (dist2_range _ _ Sv Sd) as R2.
  set (B' := Rmin 4 ((sqrt (B2R r) + 1 / 2 ^ 41) * (sqrt (B2R r) + 1 / 2 ^ 41))). destruct (sqrt_nonneg (B2R r) ltac:(lra)) as [r0 rs]. set (q := sqrt (B2R r)) in *.
  assert (Q2 : q <= 2) by (apply sq_le_le; lra).
  assert (B1 : dist2 (direction v) d <= B'). { unfold B'. apply Rmin_glb; [lra|]. rewrite <- VV. apply Rmult_le_compat; lra. }
  assert (B2 : B2R r <= B'). { unfold B'. apply Rmin_glb; [lra|]. rewrite <- rs. apply Rmult_le_compat; lra. }
  assert (B3 : sqrt B' <= q + 1 / 2 ^ 41). { rewrite <- (sqrt_square (q + 1 / 2 ^ 41)) by lra. apply sqrt_le_1_alt. apply Rmin_r. }
  assert (B4 : B' <= 4) by apply Rmin_l.
  pose proof (sphere_triangle_cs _ _ d B' Sa Sv Sd ltac:(lra)) as T. pose proof (cs_grow (dist2 (direction a) (direction v)) (B2R r) B' ltac:(lra) ltac:(lra) B2 B4) as G. fold q in G.
  set (Y := cs (dist2 (direction a) (direction v)) (B2R r)) in *. set (Y' := cs (dist2 (direction a) (direction v)) B') in *.
  assert (Y00 : 0 <= Y). { unfold Y, cs. destruct (Rle_dec _ _) as [L|L]; [|lra]. apply (csum_sq (dist2 (direction a) (direction v)) (B2R r) ltac:(lra) Br L). }
  assert (Y0 : 0 <= Y <= 4 + / 1000) by lra.
  destruct (sqrt_nonneg Y ltac:(lra)) as [y0 ys]. assert (y2 : sqrt Y <= 21 / 10) by (apply sq_le_le; lra).
  assert (Y'0 : 0 <= Y') by (pose proof (dist2_range _ _ Sa Sd); lra). destruct (sqrt_nonneg Y' Y'0) as [y'0 ys'].
  assert (sqrt Y' * sqrt Y' <= (sqrt Y + 1 / 2 ^ 41) * (sqrt Y + 1 / 2 ^ 41)) by (apply Rmult_le_compat; lra). lra.
Qed.

(** ** Adding the bounds of the cells *)
Definition caught (cp : cap) (m : BinInt.Z) : Prop :=
  23 / 100 <= B2R (radius cp) \/ exists d, patch (cell_of (leaf m)) d /\ chd (direction (center cp)) d <= sqrt (B2R (radius cp)) - 1 / 2 ^ 39.
Lemma caught_grow a b m : center b = center a -> B2R (radius a) <= B2R (radius b) -> caught a m -> caught b m.
Proof.
  intros C L [H|(d & P & H)]; [left; lra|right]. exists d. split; [exact P|]. rewrite C. pose proof (sqrt_le_1_alt _ _ L). lra.
Qed.
Lemma caps_ok cs : Forall wf cs -> forall acc, is_unit (center acc) = true -> finite (radius acc) -> 0 <= B2R (radius acc) <= 4 ->
  exists cp, caps_loop (map code cs) acc = Some cp /\ center cp = center acc /\ finite (radius cp) /\ B2R (radius acc) <= B2R (radius cp) <= 4 /\
  (forall c m, In c cs -> leaves c m -> wf (leaf m) -> caught cp m) /\
  (forall c d, In c cs -> patch (cell_of c) d -> dist2 (direction (center cp)) d <= B2R (radius cp) + 1 / 2 ^ 38).
Proof.
  induction 1 as [|c t W _ IH]; intros acc U F B.
  - exists acc. cbn. repeat split; auto; try lra; intros ? ? [].
  - cbn [map caps_loop]. rewrite (cell_from_ok c W). destruct (cell_bound_ok c W) as (b & -> & VB & B0 & _ & _ & HP & HB).
    destruct (valid_cap_facts b VB) as (Ub & _ & Fb & Bb).
    assert (NE : cap_is_empty acc = false) by (destruct (empty_R acc F) as [E|E]; [lra|reflexivity]).
    assert (NEb : cap_is_empty b = false) by (destruct (empty_R b Fb) as [E|E]; [lra|reflexivity]).
    destruct (cap_add_radius acc b Fb ltac:(lra)) as (Fd & Bd & Fx & Bx). cbv zeta in *.
    assert (EA : cap_add acc b = Cap (center acc) (fmax (chord_expanded (chord_add (chordangle (center acc) (center b)) (radius b)) (fmul DBL_EPSILON (chord_add (chordangle (center acc) (center b)) (radius b)))) (radius acc))).
    { unfold cap_add. rewrite NE, NEb. reflexivity. }
    set (dd := chord_add (chordangle (center acc) (center b)) (radius b)) in *. set (xx := chord_expanded dd (fmul DBL_EPSILON dd)) in *.
    destruct (fmax_R xx (radius acc) Fx F) as [Fm Vm].
    destruct (IH (cap_add acc b)) as (cp & E & C & Fc & Bc & H & HH); rewrite ?EA; cbn [center radius]; auto; [rewrite Vm; split; [apply Rle_trans with (B2R xx); [lra|apply Rmax_l]|apply Rmax_lub; lra]|].
    rewrite EA in C, Bc. cbn [center radius] in C, Bc. rewrite Vm in Bc. pose proof (Rmax_l (B2R xx) (B2R (radius acc))). pose proof (Rmax_r (B2R xx) (B2R (radius acc))).
    exists cp. rewrite <- EA. split; [exact E|]. split; [exact C|]. split; [exact Fc|]. split; [lra|]. split.
    2:{ intros c' d [<-|I] Pd; [|apply (HH c'); auto]. pose proof (add_near (center acc) (center b) (radius b) d U Ub Fb (conj B0 Bb) ltac:(apply (patch_corner _ _ W Pd)) (HP d Pd)) as K. fold dd in K. rewrite C. lra. }
    intros c' m [<-|I] Lm Wm; [|apply (H c'); auto].
    destruct (HB m Lm Wm) as (d & Pd & Hd). apply (caught_grow (Cap (center acc) dd)); [exact C|cbn [radius]; lra|].
    destruct (Rle_dec (23 / 100) (B2R dd)) as [K|K]; [left; exact K|right]. exists d. split; [exact Pd|]. cbn [center radius].
    apply (add_gap (center acc) (center b) (radius b) d U Ub Fb (conj B0 Bb)); auto; [apply (patch_corner _ _ Wm Pd)|fold dd; lra].
Qed.

Theorem union_bound_ok cs : Forall wf cs -> cs <> [] -> exists cp, union_cap_bound (map code cs) = Some cp /\ valid_cap cp /\ 0 <= B2R (radius cp) /\
  (forall c m, In c cs -> leaves c m -> wf (leaf m) -> caught cp m) /\
  (forall c d, In c cs -> patch (cell_of c) d -> in_disc (center cp) (B2R (radius cp) + 1 / 2 ^ 38) d).
Proof.
  intros W NE. unfold union_cap_bound. destruct (map code cs) as [|x t] eqn:E; [destruct cs; [contradiction|discriminate]|]. rewrite <- E.
  assert (Z0 : sum_ok f0) by (split; [reflexivity|]; change (B2R f0) with 0; rewrite Rabs_R0; split; [apply IZR_le; lia|apply grid_0]).
  destruct (centroid_ok cs W (Vec f0 f0 f0) (conj Z0 (conj Z0 Z0))) as (s & -> & S). pose proof (axis_ok s S) as U.
  match type of U with is_unit ?t = true => set (a := t) in * end. destruct (caps_ok cs W (cap_from_point a) U eq_refl ltac:(cbn [radius cap_from_point]; change (B2R f0) with 0; lra)) as (cp & EC & C & F & B & H & HH).
  change (B2R (radius (cap_from_point a))) with 0 in B. change (center (cap_from_point a)) with a in C.
  exists cp. split; [exact EC|]. split; [|split; [lra|split; [exact H|]]].
  2:{ intros c d I P. split; [|apply (HH c); auto]. rewrite Forall_forall in W. apply (patch_corner c d (W c I) P). }
  unfold valid_cap, cap_is_valid. split; [|exact F]. rewrite C, U. destruct c4_val as [F4 V4]. unfold STRAIGHT. destruct (fle_R _ _ F F4); [reflexivity|lra].
Qed.
