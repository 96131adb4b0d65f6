(** Soundness of stable_sign with respect to the exact determinant. *)
From Coq Require Import Reals Lra Lia Bool.
From Flocq Require Import Core.
From Verif Require Import F64 F64Facts IntervalSpec F64Arith F64Error S1Proofs VectorModel PredicatesModel F64Neg PredicatesProofs PredicatesError PredicatesFloat PredicatesSound.
Open Scope R_scope.

Definition W : R := 3000001 / 1000000 * u.

Lemma prod_rel a b a' b' m : Rabs (a' - a) <= u * Rabs a -> Rabs (b' - b) <= u * Rabs b ->
  Rabs (m - a' * b') <= u * Rabs (a' * b') + h -> Rabs (m - a * b) <= W * Rabs (a * b) + h.
Proof.
  intros Ha Hb Hm. rewrite !Rabs_mult in *. pose proof (Rabs_pos a) as PA. pose proof (Rabs_pos b) as PB.
  assert (AB : 0 <= Rabs a * Rabs b) by nra.
  assert (A' : Rabs a' <= (1 + u) * Rabs a) by (replace a' with ((a' - a) + a) by ring; eapply Rle_trans; [apply Rabs_triang|]; lra).
  assert (B' : Rabs b' <= (1 + u) * Rabs b) by (replace b' with ((b' - b) + b) by ring; eapply Rle_trans; [apply Rabs_triang|]; lra).
  assert (AB' : Rabs a' * Rabs b' <= (1 + u) * (1 + u) * (Rabs a * Rabs b)).
  { replace ((1 + u) * (1 + u) * (Rabs a * Rabs b)) with (((1 + u) * Rabs a) * ((1 + u) * Rabs b)) by ring.
    apply Rmult_le_compat; auto; apply Rabs_pos. }
  assert (D : Rabs (a' * b' - a * b) <= (2 * u + u * u) * (Rabs a * Rabs b)).
  { replace (a' * b' - a * b) with ((a' - a) * b' + a * (b' - b)) by ring. eapply Rle_trans; [apply Rabs_triang|]. rewrite !Rabs_mult.
    assert (Rabs (a' - a) * Rabs b' <= (u * Rabs a) * ((1 + u) * Rabs b)) by (apply Rmult_le_compat; auto; apply Rabs_pos).
    assert (Rabs a * Rabs (b' - b) <= Rabs a * (u * Rabs b)) by (apply Rmult_le_compat_l; auto). lra. }
  replace (m - a * b) with ((m - a' * b') + (a' * b' - a * b)) by ring. eapply Rle_trans; [apply Rabs_triang|]. unfold W. 
  pose proof h_pos. generalize dependent h. intros. generalize dependent (Rabs a * Rabs b). intros. lra.
Qed.

Lemma sub_rel x y : finite x -> finite y -> Rabs (B2R x) <= 3 / 2 -> Rabs (B2R y) <= 3 / 2 ->
  finite (fsub x y) /\ Rabs (B2R (fsub x y) - (B2R x - B2R y)) <= u * Rabs (B2R x - B2R y) /\ Rabs (B2R (fsub x y)) <= pow2 2.
Proof.
  intros Fx Fy Bx By. assert (B1 : Rabs (B2R x) <= pow2 1) by (change (pow2 1) with 2; lra).
  assert (B2 : Rabs (B2R y) <= pow2 1) by (change (pow2 1) with 2; lra).
  destruct (sub_val x y 1 Fx Fy B1 B2 ltac:(lia)) as (F & V & B). split; [exact F|]. split; [|exact B].
  rewrite V. apply rnd_minus_rel.
Qed.

Definition vbound (v : vec) : Prop := fvec v /\ Rabs (X v) <= 3 / 2 /\ Rabs (Y v) <= 3 / 2 /\ Rabs (Z v) <= 3 / 2.
Lemma unit_vbound v : is_unit v = true -> vbound v.
Proof. intros H. destruct (unit_small v H) as [[F _] B]. split; auto. Qed.

(* the exact difference of two points *)
Definition dx (v w : vec) := X v - X w.
Definition dy (v w : vec) := Y v - Y w.
Definition dz (v w : vec) := Z v - Z w.
Definition d2 (v w : vec) := dx v w * dx v w + dy v w * dy v w + dz v w * dz v w.

Lemma vsub_rel v w : vbound v -> vbound w -> small (vsub v w) /\
  Rabs (X (vsub v w) - dx v w) <= u * Rabs (dx v w) /\
  Rabs (Y (vsub v w) - dy v w) <= u * Rabs (dy v w) /\
  Rabs (Z (vsub v w) - dz v w) <= u * Rabs (dz v w).
Proof.
  intros ((F1 & F2 & F3) & B1 & B2 & B3) ((G1 & G2 & G3) & C1 & C2 & C3). unfold dx, dy, dz.
  destruct (sub_rel _ _ F1 G1 B1 C1) as (P1 & Q1 & R1). destruct (sub_rel _ _ F2 G2 B2 C2) as (P2 & Q2 & R2).
  destruct (sub_rel _ _ F3 G3 B3 C3) as (P3 & Q3 & R3). unfold small, fvec, vsub. cbn [vx vy vz]. auto 20.
Qed.

(* the exact triple product of (v1 - w1), (v2 - w2) and o *)
Definition tri (v1 w1 v2 w2 o : vec) : R :=
  (dy v1 w1 * dz v2 w2 - dz v1 w1 * dy v2 w2) * X o + (dz v1 w1 * dx v2 w2 - dx v1 w1 * dz v2 w2) * Y o + (dx v1 w1 * dy v2 w2 - dy v1 w1 * dx v2 w2) * Z o.

Lemma stable_chain v1 w1 v2 w2 o P : vbound v1 -> vbound w1 -> vbound v2 -> vbound w2 -> small o -> sqn o <= ONE * ONE ->
  0 <= P -> d2 v1 w1 * d2 v2 w2 <= P * P ->
  let d := dot (cross (vsub v1 w1) (vsub v2 w2)) o in
  finite d /\ exists r, B2R d = rnd r /\
   (tri v1 w1 v2 w2 o <= 0 -> r <= (1 + / 1000000000) * (5 / 2 * u * (P * ONE) + W * (K23 * (P * ONE))) + 40 * h) /\
   (0 <= tri v1 w1 v2 w2 o -> - r <= (1 + / 1000000000) * (5 / 2 * u * (P * ONE) + W * (K23 * (P * ONE))) + 40 * h).
Proof.
  intros V1 W1 V2 W2 So No P0 HP d. destruct (vsub_rel v1 w1 V1 W1) as (S1 & E1 & E2 & E3). destruct (vsub_rel v2 w2 V2 W2) as (S2 & G1 & G2 & G3).
  destruct (dot_cross_val _ _ o S1 S2 So) as (F & m1 & m1' & m2 & m2' & m3 & m3' & p1 & p2 & p3 & t1 & t2 & t3 & s & CH).
  split; [exact F|]. destruct CH as ((M1 & M1' & M2 & M2' & M3 & M3') & (Q1 & Q2 & Q3) & (T1 & T2 & T3) & S & D).
  exists (B2R s + B2R t3). split; [exact D|].
  assert (RP : forall (m : f64) x y, B2R m = rnd (x * y) -> Rabs (B2R m - x * y) <= u * Rabs (x * y) + h) by (intros m x y ->; apply rnd_rel).
  apply RP in M1, M1', M2, M2', M3, M3', T1, T2, T3.
  assert (RM : forall (m : f64) x y, B2R m = rnd (x - y) -> Rabs (B2R m - (x - y)) <= u * Rabs (x - y) + h) by (intros m x y ->; apply rnd_rel).
  apply RM in Q1, Q2, Q3.
  apply (prod_rel _ _ _ _ _ E2 G3) in M1. apply (prod_rel _ _ _ _ _ E3 G2) in M1'. apply (prod_rel _ _ _ _ _ E3 G1) in M2.
  apply (prod_rel _ _ _ _ _ E1 G3) in M2'. apply (prod_rel _ _ _ _ _ E1 G2) in M3. apply (prod_rel _ _ _ _ _ E2 G1) in M3'.
  assert (S' : Rabs (B2R s - (B2R t1 + B2R t2)) <= u * Rabs (B2R t1 + B2R t2)) by (rewrite S; apply rnd_plus_rel).
  assert (WW : 0 <= W <= 4 * u) by (unfold W; lra). assert (OO : 0 <= ONE <= 2) by (unfold ONE; lra).
  split; intros H.
  - exact (det_upper _ _ _ _ _ _ _ _ _ _ _ _ _ _ _ _ _ _ _ _ _ _ W P ONE WW P0 OO HP No M1 M1' M2 M2' M3 M3' Q1 Q2 Q3 T1 T2 T3 S' H).
  - replace (- (B2R s + B2R t3)) with (- B2R s + - B2R t3) by ring.
    assert (NT : forall t p c, Rabs (t - p * c) <= u * Rabs (p * c) + h -> Rabs (- t - p * - c) <= u * Rabs (p * - c) + h).
    { intros t p c K. replace (- t - p * - c) with (- (t - p * c)) by ring. replace (p * - c) with (- (p * c)) by ring. rewrite !Rabs_Ropp. exact K. }
    apply NT in T1, T2, T3.
    refine (det_upper _ _ _ _ _ _ (- X o) (- Y o) (- Z o) _ _ _ _ _ _ _ _ _ (- B2R t1) (- B2R t2) (- B2R t3) (- B2R s) W P ONE WW P0 OO HP _ M1 M1' M2 M2' M3 M3' Q1 Q2 Q3 T1 T2 T3 _ _).
    + unfold sqn in No. lra.
    + replace (- B2R s - (- B2R t1 + - B2R t2)) with (- (B2R s - (B2R t1 + B2R t2))) by ring.
      replace (- B2R t1 + - B2R t2) with (- (B2R t1 + B2R t2)) by ring. rewrite !Rabs_Ropp. exact S'.
    + unfold tri in H. lra.
Qed.

(** ** The error bound of stable_sign *)
Lemma norm2_small v : small v -> finite (norm2 v) /\ Rabs (B2R (norm2 v)) <= pow2 6.
Proof.
  intros ((F1 & F2 & F3) & B1 & B2 & B3). unfold norm2, dot.
  destruct (mul_val _ _ _ _ F1 F1 B1 B1 ltac:(lia)) as (G1 & _ & C1). destruct (mul_val _ _ _ _ F2 F2 B2 B2 ltac:(lia)) as (G2 & _ & C2).
  destruct (mul_val _ _ _ _ F3 F3 B3 B3 ltac:(lia)) as (G3 & _ & C3).
  destruct (add_val _ _ _ G1 G2 C1 C2 ltac:(lia)) as (H1 & _ & D1).
  assert (C3' : Rabs (B2R (fmul (vz v) (vz v))) <= pow2 (2 + 2 + 1)) by (eapply Rle_trans; [exact C3|apply bpow_le; lia]).
  destruct (add_val _ _ _ H1 G3 D1 C3' ltac:(lia)) as (I & _ & J). split; auto.
Qed.

Lemma sq_rel a a' : Rabs (a' - a) <= u * Rabs a -> (1 - 2 * u) * (a * a) <= a' * a'.
Proof.
  intros H. rewrite <- (sqr_abs a), <- (sqr_abs a'). pose proof (Rabs_pos a) as P.
  assert (L : (1 - u) * Rabs a <= Rabs a').
  { pose proof (Rabs_triang_inv a (a - a')) as T. replace (a - (a - a')) with a' in T by ring. rewrite Rabs_minus_sym in H.
    pose proof (Rabs_minus_sym a' a). lra. }
  assert (Q : ((1 - u) * Rabs a) * ((1 - u) * Rabs a) <= Rabs a' * Rabs a') by (apply Rmult_le_compat; auto; lra).
  pose proof (Rmult_le_pos _ _ P P). lra.
Qed.

Lemma norm2_lower v w : vbound v -> vbound w -> pow2 (-504) <= d2 v w ->
  finite (norm2 (vsub v w)) /\ (1 - 8 * u) * d2 v w <= B2R (norm2 (vsub v w)) /\ Rabs (B2R (norm2 (vsub v w))) <= pow2 6.
Proof.
  intros V W' L. destruct (vsub_rel v w V W') as (S & E1 & E2 & E3). destruct (norm2_small _ S) as [F B]. split; [exact F|]. split; [|exact B].
  pose proof (norm2_near _ F) as N. apply Rabs_le_inv in N. apply sq_rel in E1, E2, E3. unfold d2 in *.
  assert (HS : 8 * h <= u * pow2 (-504)).
  { unfold h. replace u with (pow2 (-53)) by (change (pow2 (-53)) with (/ 9007199254740992); reflexivity). rewrite <- bpow_plus.
    change 8 with (pow2 3). rewrite <- bpow_plus. apply bpow_le. lia. }
  revert N E1 E2 E3 L HS. unfold sqn. generalize (X (vsub v w) * X (vsub v w)), (Y (vsub v w) * Y (vsub v w)), (Z (vsub v w) * Z (vsub v w)).
  generalize (dx v w * dx v w), (dy v w * dy v w), (dz v w * dz v w), (B2R (norm2 (vsub v w))), h, (pow2 (-504)). intros. lra.
Qed.

Lemma DET_MULT_val : finite DET_ERROR_MULTIPLIER /\ 64641 / 10000 * u <= B2R DET_ERROR_MULTIPLIER <= pow2 (-50).
Proof.
  assert (E : feq DET_ERROR_MULTIPLIER (lit 0x19db573eab367a (-103)) = true) by (vm_compute; reflexivity).
  assert (F : finite DET_ERROR_MULTIPLIER) by (vm_compute; reflexivity).
  destruct (lit_val 0x19db573eab367a (-103) ltac:(lia) ltac:(lia)) as [F' V]. split; [exact F|].
  rewrite (feq_val _ _ F F' E), V.
  change (bpow radix2 (-103)) with (/ 10141204801825835211973625643008). change (bpow radix2 (-50)) with (/ 1125899906842624). lra.
Qed.

Lemma h_small k : (-1020 <= k)%Z -> h <= u * pow2 k.
Proof.
  intros H. replace u with (pow2 (-53)) by (change (pow2 (-53)) with (/ 9007199254740992); reflexivity). rewrite <- bpow_plus. apply bpow_le. lia.
Qed.

Lemma err_lower v1 w1 v2 w2 P : vbound v1 -> vbound w1 -> vbound v2 -> vbound w2 ->
  pow2 (-504) <= d2 v1 w1 -> pow2 (-504) <= d2 v2 w2 -> P = sqrt (d2 v1 w1 * d2 v2 w2) ->
  let err := fmul DET_ERROR_MULTIPLIER (fsqrt (fmul (norm2 (vsub v1 w1)) (norm2 (vsub v2 w2)))) in
  finite err /\ pow2 (-504) <= P /\ 646 / 100 * u * P <= B2R err.
Proof.
  intros V1 W1 V2 W2 L1 L2 EP err. destruct (norm2_lower _ _ V1 W1 L1) as (F1 & N1 & B1). destruct (norm2_lower _ _ V2 W2 L2) as (F2 & N2 & B2).
  destruct (mul_val _ _ _ _ F1 F2 B1 B2 ltac:(lia)) as (Fq & Vq & Bq).
  set (q := fmul (norm2 (vsub v1 w1)) (norm2 (vsub v2 w2))) in *.
  set (Q1 := d2 v1 w1) in *. set (Q2 := d2 v2 w2) in *. pose proof (bpow_gt_0 radix2 (-504)) as P504.
  assert (Q0 : 0 < Q1 /\ 0 < Q2) by lra.
  assert (QQ : pow2 (-504) * pow2 (-504) <= Q1 * Q2) by (apply Rmult_le_compat; lra).
  assert (PP : P * P = Q1 * Q2) by (rewrite EP; apply sqrt_sqrt; nra).
  assert (PL : pow2 (-504) <= P).
  { rewrite EP. rewrite <- (sqrt_square (pow2 (-504))) by lra. apply sqrt_le_1; [apply Rmult_le_pos; lra|apply Rmult_le_pos; lra|exact QQ]. }
  assert (NN : (1 - 16 * u) * (P * P) <= B2R (norm2 (vsub v1 w1)) * B2R (norm2 (vsub v2 w2))).
  { apply Rle_trans with (((1 - 8 * u) * Q1) * ((1 - 8 * u) * Q2)); [|apply Rmult_le_compat; auto; nra].
    rewrite PP. replace (((1 - 8 * u) * Q1) * ((1 - 8 * u) * Q2)) with (((1 - 8 * u) * (1 - 8 * u)) * (Q1 * Q2)) by ring.
    apply Rmult_le_compat_r; [nra|]. lra. }
  assert (PP0 : 0 < P * P) by nra.
  pose proof (rnd_rel (B2R (norm2 (vsub v1 w1)) * B2R (norm2 (vsub v2 w2)))) as Rq. rewrite <- Vq in Rq.
  rewrite (Rabs_pos_eq (_ * _)) in Rq by nra. apply Rabs_le_inv in Rq.
  assert (Hq : (1 - 20 * u) * (P * P) <= B2R q).
  { assert (H1 : h <= u * (P * P)).
    { eapply Rle_trans; [apply (h_small (-1008)); lia|]. apply Rmult_le_compat_l; [lra|].
      rewrite PP. eapply Rle_trans; [|exact QQ]. rewrite <- bpow_plus. apply Rle_refl. }
    revert NN Rq H1 PP0. generalize (B2R (norm2 (vsub v1 w1)) * B2R (norm2 (vsub v2 w2))), (P * P), (B2R q), h. intros. lra. }
  destruct (fsqrt_val q Fq ltac:(nra)) as [Fs Vs].
  assert (Ss : (1 - 20 * u) * P <= sqrt (B2R q)).
  { rewrite <- (sqrt_square ((1 - 20 * u) * P)) by nra. apply sqrt_le_1; [nra|nra|]. eapply Rle_trans; [|exact Hq].
    replace ((1 - 20 * u) * P * ((1 - 20 * u) * P)) with (((1 - 20 * u) * (1 - 20 * u)) * (P * P)) by ring.
    apply Rmult_le_compat_r; lra. }
  pose proof (rnd_rel (sqrt (B2R q))) as Rs. rewrite <- Vs in Rs. rewrite (Rabs_pos_eq (sqrt _)) in Rs by apply sqrt_pos. apply Rabs_le_inv in Rs.
  assert (Hs : (1 - 24 * u) * P <= B2R (fsqrt q)).
  { assert (H1 : h <= u * P) by (eapply Rle_trans; [apply (h_small (-504)); lia|]; apply Rmult_le_compat_l; [lra|exact PL]).
    revert Ss Rs H1 PL P504. generalize (sqrt (B2R q)), (B2R (fsqrt q)), h, (pow2 (-504)). intros. lra. }
  assert (Bs : Rabs (B2R (fsqrt q)) <= pow2 6).
  { rewrite Vs. apply rnd_abs; [lia|]. rewrite Rabs_pos_eq by apply sqrt_pos. rewrite <- (sqrt_square (pow2 6)) by apply bpow_ge_0.
    apply sqrt_le_1; [nra| |]. { apply Rmult_le_pos; apply bpow_ge_0. } apply Rabs_le_inv in Bq. rewrite bpow_plus in Bq. lra. }
  destruct DET_MULT_val as [FM VM].
  destruct (mul_val _ _ (-50) 6 FM Fs ltac:(rewrite Rabs_pos_eq; lra) Bs ltac:(lia)) as (Fe & Ve & _).
  split; [exact Fe|]. split; [exact PL|].
  assert (MS : 64641 / 10000 * u * ((1 - 24 * u) * P) <= B2R DET_ERROR_MULTIPLIER * B2R (fsqrt q)) by (apply Rmult_le_compat; try lra; nra).
  pose proof (rnd_rel (B2R DET_ERROR_MULTIPLIER * B2R (fsqrt q))) as Re. rewrite <- Ve in Re. fold err in Re.
  rewrite (Rabs_pos_eq (_ * _)) in Re by nra. apply Rabs_le_inv in Re.
  assert (H1 : h <= u * u * P).
  { eapply Rle_trans; [apply (h_small (-557)); lia|]. rewrite Rmult_assoc. apply Rmult_le_compat_l; [lra|].
    replace (pow2 (-557)) with (u * pow2 (-504)).
    - apply Rmult_le_compat_l; [lra|exact PL].
    - replace u with (pow2 (-53)) by (change (pow2 (-53)) with (/ 9007199254740992); reflexivity). rewrite <- bpow_plus. reflexivity. }
  revert MS Re H1 PL P504. clear. generalize (B2R DET_ERROR_MULTIPLIER * B2R (fsqrt q)), (B2R err), h, (pow2 (-504)). intros. lra.
Qed.

Lemma stable_core v1 w1 v2 w2 o : vbound v1 -> vbound w1 -> vbound v2 -> vbound w2 -> is_unit o = true ->
  pow2 (-504) <= d2 v1 w1 -> pow2 (-504) <= d2 v2 w2 ->
  let e1 := vsub v1 w1 in let e2 := vsub v2 w2 in
  let r := judge (fneg (dot (cross e1 e2) o)) (fmul DET_ERROR_MULTIPLIER (fsqrt (fmul (norm2 e1) (norm2 e2)))) in
  (r = CounterClockwise -> tri v1 w1 v2 w2 o < 0) /\ (r = Clockwise -> 0 < tri v1 w1 v2 w2 o).
Proof.
  intros V1 W1 V2 W2 Uo L1 L2 e1 e2 r. destruct (unit_small o Uo) as [So _]. destruct (unit_bound o Uo) as [_ No].
  destruct (err_lower v1 w1 v2 w2 _ V1 W1 V2 W2 L1 L2 eq_refl) as (Fe & PL & LE). fold e1 e2 in Fe, LE.
  set (P := sqrt (d2 v1 w1 * d2 v2 w2)) in *. pose proof (bpow_gt_0 radix2 (-504)) as P504.
  assert (PP : d2 v1 w1 * d2 v2 w2 <= P * P) by (unfold P; rewrite sqrt_sqrt; [lra|nra]).
  destruct (stable_chain v1 w1 v2 w2 o P V1 W1 V2 W2 So ltac:(eapply Rle_trans; [exact No|unfold ONE; lra]) ltac:(lra) PP) as (Fd & rr & Vd & U & L).
  fold e1 e2 in Fd, Vd. set (err := fmul DET_ERROR_MULTIPLIER (fsqrt (fmul (norm2 e1) (norm2 e2)))) in *. set (d := dot (cross e1 e2) o) in *.
  assert (B : (1 + / 1000000000) * (5 / 2 * u * (P * ONE) + W * (K23 * (P * ONE))) + 40 * h <= B2R err).
  { eapply Rle_trans; [|exact LE]. assert (H1 : h <= u * u * P).
    { eapply Rle_trans; [apply (h_small (-557)); lia|]. rewrite Rmult_assoc. apply Rmult_le_compat_l; [lra|].
      replace (pow2 (-557)) with (u * pow2 (-504)).
      - apply Rmult_le_compat_l; [lra|exact PL].
      - replace u with (pow2 (-53)) by (change (pow2 (-53)) with (/ 9007199254740992); reflexivity). rewrite <- bpow_plus. reflexivity. }
    revert H1 PL P504. clear. unfold W, ONE, K23. generalize h, (pow2 (-504)). intros. lra. }
  destruct (fneg_val d Fd) as [Fd' Vd']. destruct (fneg_val err Fe) as [Fe' Ve'].
  unfold r, judge, fgt. split; intros H.
  - apply Rnot_le_lt. intros T. specialize (L T).
    assert (- B2R d <= B2R err).
    { rewrite Vd, <- rnd_opp, <- (rnd_fix err). apply rnd_le. lra. }
    revert H. destruct (flt_R err (fneg d) Fe Fd') as [G|G]; [lra|]. destruct (flt (fneg d) (fneg err)); intros H'; discriminate H'.
  - apply Rnot_le_lt. intros T. specialize (U T).
    assert (B2R d <= B2R err).
    { rewrite Vd, <- (rnd_fix err). apply rnd_le. lra. }
    revert H. destruct (flt err (fneg d)); [intros H'; discriminate H'|].
    destruct (flt_R (fneg d) (fneg err) Fd' Fe') as [G|G]; [lra|]. intros H'; discriminate H'.
Qed.
