(** C82-C84: unit vectors, orthogonal vectors, largest and smallest components. *)
From Coq Require Import Reals Lra Lia Psatz Bool.
From Flocq Require Import Core.
From Verif Require Import F64 F64Facts IntervalSpec F64Arith F64Error S1Proofs VectorModel PredicatesModel F64Neg PredicatesProofs
  StuvError PredicatesError PredicatesFloat PredicatesSound PredicatesStable NormProofs CapError.
Open Scope R_scope.

(** ** C82: the squared length of a vector lies in [2^-900, 2^900]: normalize returns the
    direction, with a relative error of 2^-50 in each component, and a unit vector. *)
Definition length2 (v : vec) : R := B2R (vx v) * B2R (vx v) + B2R (vy v) * B2R (vy v) + B2R (vz v) * B2R (vz v).
Definition finite3 (v : vec) : Prop := finite (vx v) /\ finite (vy v) /\ finite (vz v).
Definition near_quotient (r : f64) (x : f64) (n : R) : Prop :=
  finite r /\ Rabs (B2R r - B2R x / n) <= 1 / 2 ^ 50 * Rabs (B2R x / n) + bpow radix2 (-1074).
Theorem C82_normalize_partial : forall v, finite3 v -> bpow radix2 (-900) <= length2 v <= bpow radix2 900 ->
  let w := VectorModel.normalize v in let n := sqrt (length2 v) in
  near_quotient (vx w) (vx v) n /\ near_quotient (vy w) (vy v) n /\ near_quotient (vz w) (vz v) n /\ is_unit w = true.
Proof.
  intros v F B. cbv zeta. destruct (normalize_close v (conj F B)) as (n & P & SS & (G1 & G2 & G3) & E1 & E2 & E3 & U).
  assert (EN : sqrt (length2 v) = n). { unfold length2. fold (sqn v). rewrite <- SS. apply sqrt_square. lra. }
  rewrite EN. unfold near_quotient. fold h. replace (1 / 2 ^ 50) with (8 * u) by lra. auto.
Qed.
Definition v123 : vec := Vec (of_int 1) (of_int 2) (of_int 3).
Example C82_example : finite3 v123 /\ bpow radix2 (-900) <= length2 v123 <= bpow radix2 900.
Proof.
  split; [repeat split|]. destruct (of_int_val 1 ltac:(lia)) as [_ V1]. destruct (of_int_val 2 ltac:(lia)) as [_ V2]. destruct (of_int_val 3 ltac:(lia)) as [_ V3].
  unfold length2, v123. cbn [vx vy vz]. rewrite V1, V2, V3. split.
  - apply Rle_trans with (bpow radix2 0); [apply bpow_le; lia|]. change (bpow radix2 0) with 1. lra.
  - apply Rle_trans with (bpow radix2 4); [|apply bpow_le; lia]. change (bpow radix2 4) with 16. lra.
Qed.
Print Assumptions C82_normalize_partial.

(* outside that range the direction is lost: a tiny vector becomes infinite, a huge one
   becomes the zero vector, and neither is a unit vector *)
Theorem C82_normalize_refuted :
  (exists v, finite3 v /\ flt f0 (vx v) = true /\ is_finite (vx (VectorModel.normalize v)) = false /\ is_unit (VectorModel.normalize v) = false) /\
  (exists v, finite3 v /\ flt f0 (vx v) = true /\ feq (vx (VectorModel.normalize v)) f0 = true /\ is_unit (VectorModel.normalize v) = false).
Proof.
  split.
  - exists (Vec (lit 1 (-600)) f0 f0). repeat split; vm_compute; reflexivity.
  - exists (Vec (lit 1 600) f0 f0). repeat split; vm_compute; reflexivity.
Qed.
Print Assumptions C82_normalize_refuted.

(** ** C84: largest_component and smallest_component *)
Definition comp (v : vec) (a : axis) : f64 := match a with AX => vx v | AY => vy v | AZ => vz v end.
Theorem C84_components : forall v a, finite3 v ->
  Rabs (B2R (comp v a)) <= Rabs (B2R (comp v (largest_component v))) /\
  Rabs (B2R (comp v (smallest_component v))) <= Rabs (B2R (comp v a)).
Proof.
  intros v a (F1 & F2 & F3). destruct (fabs_val _ F1) as [G1 V1]. destruct (fabs_val _ F2) as [G2 V2]. destruct (fabs_val _ F3) as [G3 V3].
  unfold largest_component, smallest_component, vabs, fgt. cbn [vx vy vz]. split.
  - destruct (flt_R _ _ G2 G1); [destruct (flt_R _ _ G3 G1)|destruct (flt_R _ _ G3 G2)]; destruct a; cbn [comp]; lra.
  - destruct (flt_R _ _ G1 G2); [destruct (flt_R _ _ G1 G3)|destruct (flt_R _ _ G2 G3)]; destruct a; cbn [comp]; lra.
Qed.
Example C84_example : finite3 v123 /\ largest_component v123 = AZ /\ smallest_component v123 = AX. Proof. repeat split; vm_compute; reflexivity. Qed.
Print Assumptions C84_components.

(** ** C83: ortho of a unit vector is a unit vector, orthogonal to it up to 10^-14, and
    ortho of the opposite vector is the opposite vector. *)
Lemma cross_part (a b c d : f64) : finite a -> finite b -> finite c -> finite d ->
  Rabs (B2R a) <= 3 / 2 -> Rabs (B2R b) <= 1 -> Rabs (B2R c) <= 3 / 2 -> Rabs (B2R d) <= 1 ->
  finite (fsub (fmul a b) (fmul c d)) /\ Rabs (B2R (fsub (fmul a b) (fmul c d)) - (B2R a * B2R b - B2R c * B2R d)) <= 8 * u.
Proof.
  intros Fa Fb Fc Fd Ba Bb Bc Bd.
  assert (M : forall x y, Rabs x <= 3 / 2 -> Rabs y <= 1 -> Rabs (x * y) <= 3 / 2).
  { intros x y Hx Hy. rewrite Rabs_mult. pose proof (Rabs_pos x). pose proof (Rabs_pos y). nra. }
  pose proof (M _ _ Ba Bb) as M1. pose proof (M _ _ Bc Bd) as M2.
  assert (P1 : pow2 1 = 2) by reflexivity. assert (P2 : pow2 2 = 4) by reflexivity.
  destruct (result_near _ _ 1 ltac:(lia) (fmul_result a b Fa Fb) ltac:(change (bpow radix2 1) with 2; lra)) as (G1 & W1 & E1).
  destruct (result_near _ _ 1 ltac:(lia) (fmul_result c d Fc Fd) ltac:(change (bpow radix2 1) with 2; lra)) as (G2 & W2 & E2).
  change (bpow radix2 (1 - 53)) with (/ 4503599627370496) in *.
  assert (B : Rabs (B2R (fmul a b) - B2R (fmul c d)) <= bpow radix2 2).
  { change (bpow radix2 2) with 4. apply Rabs_le. apply Rabs_le_inv in M1. apply Rabs_le_inv in M2. apply Rabs_le_inv in E1. apply Rabs_le_inv in E2. lra. }
  destruct (result_near _ _ 2 ltac:(lia) (fsub_result _ _ G1 G2) B) as (G & W0 & E). split; [exact G|].
  change (bpow radix2 (2 - 53)) with (/ 2251799813685248) in E.
  apply Rabs_le_inv in E1. apply Rabs_le_inv in E2. apply Rabs_le_inv in E. apply Rabs_le. lra.
Qed.
Definition opposite_vec (v : vec) : vec := Vec (fneg (vx v)) (fneg (vy v)) (fneg (vz v)).
Definition real_dot (v w : vec) : R := B2R (vx v) * B2R (vx w) + B2R (vy v) * B2R (vy w) + B2R (vz v) * B2R (vz w).

(* the vector the cross product is taken with *)
Definition helper (a : axis) : vec :=
  let ox := lit 0x189374BC6A7EFA (-59) in let oy := lit 0x15B573EAB367A1 (-60) in let oz := lit 0x12B7FE08AEFB2B (-60) in
  match a with AX => Vec ox oy f1 | AY => Vec f1 oy oz | AZ => Vec ox f1 oz end.
Lemma ortho_helper v : ortho v = VectorModel.normalize (cross v (helper (largest_component v))). Proof. reflexivity. Qed.
Lemma helper_vals : forall a, fvec (helper a) /\ 0 <= X (helper a) <= 1 /\ 0 <= Y (helper a) <= 1 /\ 0 <= Z (helper a) <= 1 /\
  match a with AX => Z (helper a) = 1 /\ X (helper a) <= 1 / 50 | AY => X (helper a) = 1 /\ Y (helper a) <= 1 / 50 | AZ => Y (helper a) = 1 /\ Z (helper a) <= 1 / 50 end.
Proof.
  destruct (lit_val 0x189374BC6A7EFA (-59) ltac:(lia) ltac:(lia)) as [F1 V1]. destruct (lit_val 0x15B573EAB367A1 (-60) ltac:(lia) ltac:(lia)) as [F2 V2].
  destruct (lit_val 0x12B7FE08AEFB2B (-60) ltac:(lia) ltac:(lia)) as [F3 V3]. destruct f1_val as [G1 W1].
  change (bpow radix2 (-59)) with (/ 576460752303423488) in V1. change (bpow radix2 (-60)) with (/ 1152921504606846976) in V2, V3.
  intros a. destruct a; unfold helper; cbv zeta iota; cbn [vx vy vz]; rewrite ?V1, ?V2, ?V3, ?W1; (split; [repeat split; assumption|]); repeat split; lra.
Qed.
(* the cross product: close to the exact one, and long *)
Lemma cross_helper v : is_unit v = true -> let w := helper (largest_component v) in let c := cross v w in
  fvec c /\ 1 / 4 <= sqn c <= 16 /\
  Rabs (X c - (Y v * Z w - Z v * Y w)) <= 8 * u /\ Rabs (Y c - (Z v * X w - X v * Z w)) <= 8 * u /\ Rabs (Z c - (X v * Y w - Y v * X w)) <= 8 * u.
Proof.
  intros U. cbv zeta. destruct (unit_small v U) as (((F1 & F2 & F3) & _) & B1 & B2 & B3).
  assert (S : 9 / 10 <= sqn v).
  { destruct (CapError.unit_near v U) as [_ N]. unfold CapError.KU in N. apply Rabs_le_inv in N. lra. }
  pose proof (C84_components v AX (conj F1 (conj F2 F3))) as [LX _]. pose proof (C84_components v AY (conj F1 (conj F2 F3))) as [LY _]. pose proof (C84_components v AZ (conj F1 (conj F2 F3))) as [LZ _].
  cbn [comp] in LX, LY, LZ. set (a := largest_component v) in *. destruct (helper_vals a) as ((H1 & H2 & H3) & W1 & W2 & W3 & W).
  assert (AB : forall x, 0 <= x <= 1 -> Rabs x <= 1) by (intros; rewrite Rabs_pos_eq; lra).
  unfold cross. cbn [vx vy vz].
  destruct (cross_part (vy v) (vz (helper a)) (vz v) (vy (helper a))) as [G1 E1]; auto.
  destruct (cross_part (vz v) (vx (helper a)) (vx v) (vz (helper a))) as [G2 E2]; auto.
  destruct (cross_part (vx v) (vy (helper a)) (vy v) (vx (helper a))) as [G3 E3]; auto.
  split; [repeat split; assumption|]. split; [|auto]. unfold sqn. cbn [vx vy vz].
  set (c1 := B2R (fsub (fmul (vy v) (vz (helper a))) (fmul (vz v) (vy (helper a))))) in *.
  set (c2 := B2R (fsub (fmul (vz v) (vx (helper a))) (fmul (vx v) (vz (helper a))))) in *.
  set (c3 := B2R (fsub (fmul (vx v) (vy (helper a))) (fmul (vy v) (vx (helper a))))) in *. clearbody c1 c2 c3.
  (* the largest component is at least 0.54 *)
  assert (BIG : 54 / 100 <= Rabs (B2R (comp v a))).
  { unfold sqn in S. rewrite <- (sqr_abs (X v)), <- (sqr_abs (Y v)), <- (sqr_abs (Z v)) in S. pose proof (Rabs_pos (X v)). pose proof (Rabs_pos (Y v)). pose proof (Rabs_pos (Z v)).
    set (m := Rabs (B2R (comp v a))) in *. apply Rnot_lt_le. intros C.
    assert (Rabs (X v) * Rabs (X v) <= m * m) by (apply Rmult_le_compat; lra). assert (Rabs (Y v) * Rabs (Y v) <= m * m) by (apply Rmult_le_compat; lra).
    assert (Rabs (Z v) * Rabs (Z v) <= m * m) by (apply Rmult_le_compat; lra). assert (m * m <= 54 / 100 * (54 / 100)) by (apply Rmult_le_compat; lra). lra. }
  assert (UP : forall c p q r s, Rabs (c - (p * q - r * s)) <= 8 * u -> Rabs p <= 21 / 20 -> 0 <= q <= 1 -> Rabs r <= 21 / 20 -> 0 <= s <= 1 -> c * c <= 5).
  { clear. intros c p q r s E Hp Hq Hr Hs. apply Rabs_le_inv in E. apply Rabs_le_inv in Hp. apply Rabs_le_inv in Hr.
    assert (-(21/20) <= p * q <= 21 / 20) by nra. assert (-(21/20) <= r * s <= 21 / 20) by nra. assert (-(22 / 10) <= c <= 22 / 10) by lra. nra. }
  destruct (unit_bound v U) as [_ UB]. unfold ONE in UB. destruct (sqn_comp v (21 / 20) ltac:(lra) ltac:(lra)) as (T1 & T2 & T3).
  pose proof (UP _ _ _ _ _ E1 T2 W3 T3 W2) as U1. pose proof (UP _ _ _ _ _ E2 T3 W1 T1 W3) as U2. pose proof (UP _ _ _ _ _ E3 T1 W2 T2 W1) as U3.
  split; [|lra].
  assert (LOW : forall c x y q, Rabs (c - (y * q - x)) <= 8 * u \/ Rabs (c - (x - y * q)) <= 8 * u -> 0 <= q <= 1 / 50 -> Rabs y <= 21 / 20 -> 54 / 100 <= Rabs x -> 1 / 4 <= c * c).
  { clear. intros c x y q E Hq Hy Hx. apply Rabs_le_inv in Hy. assert (-(3 / 100) <= y * q <= 3 / 100) by nra.
    unfold Rabs in Hx. destruct (Rcase_abs x); destruct E as [E|E]; apply Rabs_le_inv in E; nra. }
  pose proof (Rle_0_sqr c1) as Q1. pose proof (Rle_0_sqr c2) as Q2. pose proof (Rle_0_sqr c3) as Q3. unfold Rsqr in *.
  destruct a; cbn [comp] in *; destruct W as [We Wl]; rewrite We in *.
  - assert (1 / 4 <= c2 * c2); [|lra]. apply (LOW c2 (X v) (Z v) (X (helper AX))); auto; try lra. left. rewrite Rmult_1_r in E2. exact E2.
  - assert (1 / 4 <= c3 * c3); [|lra]. apply (LOW c3 (Y v) (X v) (Y (helper AY))); auto; try lra. left. rewrite Rmult_1_r in E3. exact E3.
  - assert (1 / 4 <= c1 * c1); [|lra]. apply (LOW c1 (Z v) (Y v) (Z (helper AZ))); auto; try lra. left. rewrite Rmult_1_r in E1. exact E1.
Qed.
Lemma cross_moderate v : is_unit v = true -> moderate (cross v (helper (largest_component v))).
Proof.
  intros U. destruct (cross_helper v U) as (F & S & _). split; [exact F|]. split.
  - apply Rle_trans with (pow2 (-2)); [apply bpow_le; lia|change (pow2 (-2)) with (/ 4); lra].
  - apply Rle_trans with (pow2 4); [change (pow2 4) with 16; lra|apply bpow_le; lia].
Qed.
Theorem C83_ortho : forall v, is_unit v = true ->
  is_unit (ortho v) = true /\ Rabs (real_dot v (ortho v)) <= 1 / 100000000000000.
Proof.
  intros v U. rewrite ortho_helper. destruct (cross_helper v U) as (F & S & E1 & E2 & E3). pose proof (cross_moderate v U) as M.
  set (w := helper (largest_component v)) in *. set (c := cross v w) in *.
  destruct (normalize_close c M) as (n & P & SS & _ & N1 & N2 & N3 & UU). split; [exact UU|].
  set (r := VectorModel.normalize c) in *. unfold real_dot.
  destruct (unit_bound v U) as [_ UB]. unfold ONE in UB. destruct (sqn_comp v (21 / 20) ltac:(lra) ltac:(lra)) as (T1 & T2 & T3).
  assert (BN : 1 / 2 <= n) by nra. destruct (sqn_comp c n ltac:(lra) ltac:(lra)) as (C1 & C2 & C3).
  assert (IN : 0 < / n <= 2). { split; [apply Rinv_0_lt_compat; lra|]. replace 2 with (/ (1 / 2)) by field. apply Rinv_le_contravar; lra. }
  pose proof h_tiny as HT. pose proof h_pos as HP.
  assert (LE1 : forall x, Rabs x <= n -> Rabs (x / n) <= 1).
  { intros x Hx. unfold Rdiv. rewrite Rabs_mult, (Rabs_pos_eq (/ n)) by lra. apply Rmult_le_reg_r with n; [lra|]. rewrite Rmult_assoc, Rinv_l by lra. lra. }
  pose proof (LE1 _ C1) as L1. pose proof (LE1 _ C2) as L2. pose proof (LE1 _ C3) as L3.
  assert (PB : forall a b k, Rabs a <= 21 / 20 -> Rabs b <= k -> Rabs (a * b) <= 21 / 20 * k).
  { intros a b k Ha Hb. rewrite Rabs_mult. apply Rmult_le_compat; auto; apply Rabs_pos. }
  assert (N1' : Rabs (X r - X c / n) <= 9 * u) by lra. assert (N2' : Rabs (Y r - Y c / n) <= 9 * u) by lra. assert (N3' : Rabs (Z r - Z c / n) <= 9 * u) by lra.
  pose proof (PB _ _ _ T1 N1') as D1. pose proof (PB _ _ _ T2 N2') as D2. pose proof (PB _ _ _ T3 N3') as D3.
  pose proof (PB _ _ _ T1 E1) as K1. pose proof (PB _ _ _ T2 E2) as K2. pose proof (PB _ _ _ T3 E3) as K3.
  assert (ZZ : Rabs (X v * X c + Y v * Y c + Z v * Z c) <= 26 * u).
  { replace (X v * X c + Y v * Y c + Z v * Z c) with (X v * (X c - (Y v * Z w - Z v * Y w)) + Y v * (Y c - (Z v * X w - X v * Z w)) + Z v * (Z c - (X v * Y w - Y v * X w))) by ring.
    apply Rabs_le_inv in K1. apply Rabs_le_inv in K2. apply Rabs_le_inv in K3. apply Rabs_le. lra. }
  assert (Q : Rabs ((X v * X c + Y v * Y c + Z v * Z c) * / n) <= 52 * u).
  { rewrite Rabs_mult, (Rabs_pos_eq (/ n)) by lra. apply Rle_trans with (26 * u * 2); [apply Rmult_le_compat; try lra; apply Rabs_pos|lra]. }
  replace (X v * X r + Y v * Y r + Z v * Z r) with (X v * (X r - X c / n) + Y v * (Y r - Y c / n) + Z v * (Z r - Z c / n) + (X v * X c + Y v * Y c + Z v * Z c) * / n) by (unfold Rdiv; ring).
  apply Rabs_le_inv in D1. apply Rabs_le_inv in D2. apply Rabs_le_inv in D3. apply Rabs_le_inv in Q. apply Rabs_le. lra.
Qed.
Example C83_example : is_unit (Vec f0 f1 f0) = true /\ veq (ortho (Vec f0 f1 f0)) (Vec f0 f1 f0) = false. Proof. split; vm_compute; reflexivity. Qed.
Print Assumptions C83_ortho.

Lemma largest_opposite v : finite3 v -> largest_component (opposite_vec v) = largest_component v.
Proof.
  intros (F1 & F2 & F3). assert (A : forall x, finite x -> fabs (fneg x) = fabs x) by (intros [s|s| |s m e H]; reflexivity).
  unfold largest_component, vabs, opposite_vec. cbn [vx vy vz]. rewrite !A by auto. reflexivity.
Qed.
Lemma cross_part_neg (a b c d : f64) : finite a -> finite b -> finite c -> finite d ->
  Rabs (B2R a) <= 3 / 2 -> Rabs (B2R b) <= 1 -> Rabs (B2R c) <= 3 / 2 -> Rabs (B2R d) <= 1 ->
  opposite (fsub (fmul (fneg a) b) (fmul (fneg c) d)) (fsub (fmul a b) (fmul c d)).
Proof.
  intros Fa Fb Fc Fd Ba Bb Bc Bd.
  assert (O1 : opposite (fmul (fneg a) b) (fmul a b)) by (apply fmul_opp; [apply opposite_neg|apply same_refl]).
  assert (O2 : opposite (fmul (fneg c) d) (fmul c d)) by (apply fmul_opp; [apply opposite_neg|apply same_refl]).
  unfold opposite in O1, O2. eapply same_trans; [apply (fsub_same _ _ _ _ O1 O2)|]. clear O1 O2.
  assert (M : forall x y, Rabs x <= 3 / 2 -> Rabs y <= 1 -> Rabs (x * y) <= bpow radix2 1).
  { intros x y Hx Hy. change (bpow radix2 1) with 2. rewrite Rabs_mult. pose proof (Rabs_pos x). pose proof (Rabs_pos y). nra. }
  destruct (result_near _ _ 1 ltac:(lia) (fmul_result a b Fa Fb) (M _ _ Ba Bb)) as (G1 & _ & _).
  destruct (result_near _ _ 1 ltac:(lia) (fmul_result c d Fc Fd) (M _ _ Bc Bd)) as (G2 & _ & _).
  destruct (fneg_val _ G1) as [N1 V1]. destruct (fneg_val _ G2) as [N2 V2].
  pose proof (fsub_result _ _ N1 N2) as R1. rewrite V1, V2 in R1. pose proof (result_neg _ _ (fsub_result _ _ G1 G2)) as R2.
  replace (- (B2R (fmul a b) - B2R (fmul c d))) with (- B2R (fmul a b) - - B2R (fmul c d)) in R2 by ring. exact (result_same _ _ _ R1 R2).
Qed.
Theorem C83_ortho_opposite : forall v, is_unit v = true -> veq (ortho (opposite_vec v)) (opposite_vec (ortho v)) = true.
Proof.
  intros v U. rewrite !ortho_helper. destruct (unit_small v U) as ((F & _) & B1 & B2 & B3). rewrite (largest_opposite v F).
  pose proof (cross_moderate v U) as M. destruct (helper_vals (largest_component v)) as ((H1 & H2 & H3) & W1 & W2 & W3 & _). set (w := helper (largest_component v)) in *.
  assert (AB : forall x, 0 <= x <= 1 -> Rabs x <= 1) by (intros; rewrite Rabs_pos_eq; lra). destruct F as (F1 & F2 & F3).
  assert (O1 : opposite (vx (cross (opposite_vec v) w)) (vx (cross v w))) by (unfold cross, opposite_vec; cbn [vx vy vz]; apply cross_part_neg; auto).
  assert (O2 : opposite (vy (cross (opposite_vec v) w)) (vy (cross v w))) by (unfold cross, opposite_vec; cbn [vx vy vz]; apply cross_part_neg; auto).
  assert (O3 : opposite (vz (cross (opposite_vec v) w)) (vz (cross v w))) by (unfold cross, opposite_vec; cbn [vx vy vz]; apply cross_part_neg; auto).
  set (c := cross v w) in *. set (d := cross (opposite_vec v) w) in *. clearbody c d.
  assert (OV : forall x y, finite y -> opposite x y -> finite x /\ B2R x = - B2R y).
  { intros x y Fy [-> | [Zx Zy]]; [apply fneg_val; auto|]. rewrite is_zero_neg in Zy. destruct x; try discriminate; destruct y; try discriminate. split; [reflexivity|]. cbn. lra. }
  destruct M as ((G1 & G2 & G3) & MS). destruct (OV _ _ G1 O1) as [K1 V1]. destruct (OV _ _ G2 O2) as [K2 V2]. destruct (OV _ _ G3 O3) as [K3 V3].
  assert (MC : moderate c) by (repeat split; auto; apply MS).
  assert (MD : moderate d). { split; [repeat split; auto|]. unfold sqn. rewrite V1, V2, V3. replace (- X c * - X c + - Y c * - Y c + - Z c * - Z c) with (sqn c) by (unfold sqn; ring). exact MS. }
  destruct (moderate_scale c MC) as (n & P & SS & EC & SC). destruct (moderate_scale d MD) as (n' & P' & SS' & ED & SD).
  assert (SN : same (norm d) (norm c)).
  { unfold norm, norm2, dot. apply fsqrt_same. apply fadd_same; [apply fadd_same|]; apply fmul_opp_opp; assumption. }
  assert (EN : norm d = norm c).
  { destruct SN as [E|[_ Zc]]; [exact E|]. exfalso. destruct (moderate_norm c MC) as (m & Pm & _ & _ & _ & Em).
    destruct (norm c); try discriminate. cbn in Em. apply Rabs_le_inv in Em. lra. }
  rewrite EC, ED, EN. destruct (sqn_comp c n ltac:(lra) ltac:(lra)) as (C1 & C2 & C3).
  destruct (SC _ G1 C1) as [Q1 _]. destruct (SC _ G2 C2) as [Q2 _]. destruct (SC _ G3 C3) as [Q3 _].
  assert (FE : forall x y s, finite (fmul y s) -> opposite x y -> feq (fmul x s) (fneg (fmul y s)) = true).
  { intros x y s Fy O. pose proof (fmul_opp _ _ s s O (same_refl s)) as O'. destruct (OV _ _ Fy O') as [Fx Vx]. destruct (fneg_val _ Fy) as [Fn Vn].
    destruct (feq_R _ _ Fx Fn); [reflexivity|lra]. }
  unfold veq, vscale, opposite_vec. cbn [vx vy vz]. rewrite !FE by assumption. reflexivity.
Qed.
Print Assumptions C83_ortho_opposite.
