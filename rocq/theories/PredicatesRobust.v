(** Soundness of robust_sign with respect to the exact determinant. *)
From Coq Require Import Reals Lra Lia Bool.
From Flocq Require Import Core.
From Verif Require Import F64 F64Facts IntervalSpec F64Arith F64Error S1Proofs VectorModel PredicatesModel F64Neg PredicatesProofs PredicatesError PredicatesFloat PredicatesSound PredicatesStable.
Open Scope R_scope.

(* zero, or not tiny *)
Definition sizeable (x : R) : Prop := x = 0 \/ pow2 (-200) <= Rabs x.

Lemma sizeable_multiple (x : f64) : sizeable (B2R x) -> exists n : BinNums.Z, B2R x = IZR n * pow2 (-252).
Proof.
  intros [E|H]; [exists 0%Z; rewrite E; ring|].
  assert (G : generic_format radix2 (SpecFloat.fexp 53 1024) (B2R x)) by apply generic_format_B2R.
  assert (M : (-199 <= mag radix2 (B2R x))%Z).
  { apply mag_ge_bpow. exact H. }
  assert (C : (-252 <= cexp radix2 (SpecFloat.fexp 53 1024) (B2R x))%Z).
  { unfold cexp, SpecFloat.fexp, SpecFloat.emin. lia. }
  set (c := cexp radix2 (SpecFloat.fexp 53 1024) (B2R x)) in *.
  set (m := Ztrunc (scaled_mantissa radix2 (SpecFloat.fexp 53 1024) (B2R x))).
  exists (m * 2 ^ (c + 252))%Z. etransitivity; [exact G|]. unfold F2R. cbn [Fnum Fexp]. fold c m.
  rewrite mult_IZR. rewrite (IZR_Zpower radix2) by lia.
  rewrite Rmult_assoc, <- bpow_plus. do 2 f_equal. lia.
Qed.
Lemma sizeable_apart (x y : f64) : sizeable (B2R x) -> sizeable (B2R y) -> B2R x <> B2R y -> pow2 (-504) <= (B2R x - B2R y) * (B2R x - B2R y).
Proof.
  intros Hx Hy N. destruct (sizeable_multiple x Hx) as [m Ex]. destruct (sizeable_multiple y Hy) as [n Ey]. rewrite Ex, Ey in *.
  replace ((IZR m * pow2 (-252) - IZR n * pow2 (-252)) * (IZR m * pow2 (-252) - IZR n * pow2 (-252)))
    with (IZR ((m - n) * (m - n)) * (pow2 (-252) * pow2 (-252))) by (rewrite mult_IZR, minus_IZR; ring).
  rewrite <- bpow_plus. change (-252 + -252)%Z with (-504)%Z. rewrite <- (Rmult_1_l (pow2 (-504))) at 1.
  apply Rmult_le_compat_r; [apply bpow_ge_0|]. apply IZR_le.
  assert (m <> n). { intros ->. apply N, eq_refl. } nia.
Qed.

Definition sizeable_vec (v : vec) : Prop := sizeable (X v) /\ sizeable (Y v) /\ sizeable (Z v).

Lemma feq_false x y : finite x -> finite y -> feq x y = false -> B2R x <> B2R y.
Proof. intros Fx Fy. destruct (feq_R x y Fx Fy); auto. discriminate. Qed.

Lemma apart v w : fvec v -> fvec w -> sizeable_vec v -> sizeable_vec w -> veq v w = false -> pow2 (-504) <= d2 v w.
Proof.
  intros (F1 & F2 & F3) (G1 & G2 & G3) (S1 & S2 & S3) (T1 & T2 & T3) H. unfold d2, dx, dy, dz.
  pose proof (Rle_0_sqr (X v - X w)) as A. pose proof (Rle_0_sqr (Y v - Y w)) as B. pose proof (Rle_0_sqr (Z v - Z w)) as C. unfold Rsqr in *.
  unfold veq in H. apply andb_false_iff in H. rewrite andb_false_iff in H. destruct H as [[H|H]|H]; apply feq_false in H; auto.
  - pose proof (sizeable_apart _ _ S1 T1 H). lra.
  - pose proof (sizeable_apart _ _ S2 T2 H). lra.
  - pose proof (sizeable_apart _ _ S3 T3 H). lra.
Qed.

Lemma d2_sym v w : d2 v w = d2 w v.
Proof. unfold d2, dx, dy, dz. ring. Qed.

Lemma stable_sound a b c : is_unit a = true -> is_unit b = true -> is_unit c = true ->
  pow2 (-504) <= d2 a b -> pow2 (-504) <= d2 b c -> pow2 (-504) <= d2 c a ->
  (stable_sign a b c = CounterClockwise -> 0 < det a b c) /\ (stable_sign a b c = Clockwise -> det a b c < 0).
Proof.
  intros Ua Ub Uc Dab Dbc Dca. pose proof (unit_vbound a Ua) as Va. pose proof (unit_vbound b Ub) as Vb. pose proof (unit_vbound c Uc) as Vc.
  unfold stable_sign. cbv zeta. destruct (_ && _).
  - destruct (stable_core a c c b c Va Vc Vc Vb Uc ltac:(rewrite d2_sym; exact Dca) ltac:(rewrite d2_sym; exact Dbc)) as [A B].
    replace (det a b c) with (- tri a c c b c) by (unfold det, tri, dx, dy, dz; ring).
    split; intros H; [specialize (A H)|specialize (B H)]; lra.
  - destruct (fge _ _).
    + destruct (stable_core b a a c a Vb Va Va Vc Ua ltac:(rewrite d2_sym; exact Dab) ltac:(rewrite d2_sym; exact Dca)) as [A B].
      replace (det a b c) with (- tri b a a c a) by (unfold det, tri, dx, dy, dz; ring).
      split; intros H; [specialize (A H)|specialize (B H)]; lra.
    + destruct (stable_core c b b a b Vc Vb Vb Va Ub ltac:(rewrite d2_sym; exact Dbc) ltac:(rewrite d2_sym; exact Dab)) as [A B].
      replace (det a b c) with (- tri c b b a b) by (unfold det, tri, dx, dy, dz; ring).
      split; intros H; [specialize (A H)|specialize (B H)]; lra.
Qed.

Lemma robust_sound a b c : is_unit a = true -> is_unit b = true -> is_unit c = true ->
  sizeable_vec a -> sizeable_vec b -> sizeable_vec c ->
  (robust_sign a b c = CounterClockwise -> 0 < det a b c) /\ (robust_sign a b c = Clockwise -> det a b c < 0).
Proof.
  intros Ua Ub Uc Sa Sb Sc. unfold robust_sign. destruct (triage_sign a b c) eqn:E.
  - split; [discriminate|]. intros _. apply triage_cw; auto.
  - unfold expensive_sign. destruct (veq a b || veq b c || veq c a) eqn:V; [split; discriminate|].
    apply orb_false_iff in V. destruct V as [V V3]. apply orb_false_iff in V. destruct V as [V1 V2].
    destruct (unit_bound a Ua) as [Fa _]. destruct (unit_bound b Ub) as [Fb _]. destruct (unit_bound c Uc) as [Fc _].
    destruct (stable_sound a b c Ua Ub Uc (apart _ _ Fa Fb Sa Sb V1) (apart _ _ Fb Fc Sb Sc V2) (apart _ _ Fc Fa Sc Sa V3)) as [A B].
    destruct (stable_sign a b c); cbn [exact_sign]; split; auto; discriminate.
  - split; [|discriminate]. intros _. apply triage_ccw; auto.
Qed.

(** ** How close the computed determinant is *)
Lemma det_near a b c : is_unit a = true -> is_unit b = true -> is_unit c = true ->
  finite (dot (cross a b) c) /\ Rabs (B2R (dot (cross a b) c) - det a b c) <= 32 * u.
Proof.
  intros Ua Ub Uc. destruct (unit_small a Ua) as [Sa _]. destruct (unit_small b Ub) as [Sb _]. destruct (unit_small c Uc) as [Sc _].
  destruct (dot_cross_val a b c Sa Sb Sc) as (F & m1 & m1' & m2 & m2' & m3 & m3' & p1 & p2 & p3 & t1 & t2 & t3 & s & CH). split; [exact F|].
  assert (B : forall v, is_unit v = true -> Rabs (X v) <= 101 / 100 /\ Rabs (Y v) <= 101 / 100 /\ Rabs (Z v) <= 101 / 100).
  { intros v U. destruct (unit_bound v U) as [_ N]. apply sqn_comp; [unfold ONE in N; lra|lra]. }
  destruct (B a Ua) as (A1 & A2 & A3). destruct (B b Ub) as (B1 & B2 & B3). destruct (B c Uc) as (C1 & C2 & C3).
  destruct CH as ((M1 & M1' & M2 & M2' & M3 & M3') & (Q1 & Q2 & Q3) & (T1 & T2 & T3) & S & D).
  pose proof h_tiny as HT. pose proof h_pos as HP.
  assert (PR : forall (m : f64) x y, B2R m = rnd (x * y) -> Rabs x <= 101 / 100 -> Rabs y <= 101 / 100 -> Rabs (B2R m - x * y) <= 103 / 100 * u /\ Rabs (x * y) <= 103 / 100).
  { intros m x y -> Hx Hy. assert (K : Rabs (x * y) <= 101 / 100 * (101 / 100)) by (rewrite Rabs_mult; apply Rmult_le_compat; auto; apply Rabs_pos).
    split; [|lra]. eapply Rle_trans; [apply rnd_rel|]. generalize dependent h. intros. lra. }
  apply PR in M1, M1', M2, M2', M3, M3'; auto. clear PR.
  assert (SU : forall (p m m' : f64) x x', B2R p = rnd (B2R m - B2R m') -> Rabs (B2R m - x) <= 103 / 100 * u /\ Rabs x <= 103 / 100 ->
     Rabs (B2R m' - x') <= 103 / 100 * u /\ Rabs x' <= 103 / 100 -> Rabs (B2R p - (x - x')) <= 42 / 10 * u /\ Rabs (x - x') <= 22 / 10).
  { intros p m m' x x' E [E1 L1] [E2 L2]. pose proof (rnd_minus_rel m m') as R. rewrite <- E in R. revert R.
    unfold Rabs at 2. destruct (Rcase_abs _); intros R; apply Rabs_le_inv in R, E1, L1, E2, L2; split; apply Rabs_le; lra. }
  apply (SU _ _ _ _ _ Q1 M1) in M1'. apply (SU _ _ _ _ _ Q2 M2) in M2'. apply (SU _ _ _ _ _ Q3 M3) in M3'. clear SU Q1 Q2 Q3 M1 M2 M3.
  assert (DT : forall (t p : f64) x c, B2R t = rnd (B2R p * c) -> Rabs (B2R p - x) <= 42 / 10 * u /\ Rabs x <= 22 / 10 -> Rabs c <= 101 / 100 ->
     Rabs (B2R t - x * c) <= 66 / 10 * u /\ Rabs (x * c) <= 223 / 100).
  { clear - HT HP. intros t p x c E [E1 L1] L. pose proof (rnd_rel (B2R p * c)) as R. rewrite <- E in R.
    assert (K1 : Rabs ((B2R p - x) * c) <= 42 / 10 * u * (101 / 100)) by (rewrite Rabs_mult; apply Rmult_le_compat; auto; apply Rabs_pos).
    assert (K2 : Rabs (x * c) <= 22 / 10 * (101 / 100)) by (rewrite Rabs_mult; apply Rmult_le_compat; auto; apply Rabs_pos).
    split; [|lra]. replace (B2R p * c) with ((B2R p - x) * c + x * c) in R by ring. revert R. generalize dependent ((B2R p - x) * c). intros y K1 R.
    assert (Rabs (y + x * c) <= 224 / 100) by (eapply Rle_trans; [apply Rabs_triang|]; lra).
    apply Rabs_le_inv in R, K1. generalize dependent h. intros. apply Rabs_le. lra. }
  apply (DT _ _ _ _ T1 M1') in C1. apply (DT _ _ _ _ T2 M2') in C2. apply (DT _ _ _ _ T3 M3') in C3. clear DT.
  pose proof (rnd_plus_rel t1 t2) as R1. rewrite <- S in R1. pose proof (rnd_plus_rel s t3) as R2. rewrite <- D in R2.
  unfold det. destruct C1 as [C1 K1], C2 as [C2 K2], C3 as [C3 K3]. 
  generalize dependent ((Y a * Z b - Z a * Y b) * X c). generalize dependent ((Z a * X b - X a * Z b) * Y c). generalize dependent ((X a * Y b - Y a * X b) * Z c).
  clear - R1 R2. intros z3 C3 K3 z2 C2 K2 z1 C1 K1. apply Rabs_le_inv in C1, K1, C2, K2, C3, K3. 
  assert (N1 : Rabs (B2R t1 + B2R t2) <= 45 / 10) by (apply Rabs_le; lra). apply Rabs_le_inv in R1.
  assert (N2 : Rabs (B2R s + B2R t3) <= 68 / 10) by (apply Rabs_le; lra). apply Rabs_le_inv in R2. apply Rabs_le. lra.
Qed.

Lemma robust_resolves a b c : is_unit a = true -> is_unit b = true -> is_unit c = true ->
  (36 * u <= det a b c -> robust_sign a b c = CounterClockwise) /\ (det a b c <= - (36 * u) -> robust_sign a b c = Clockwise).
Proof.
  intros Ua Ub Uc. destruct (det_near a b c Ua Ub Uc) as [F N]. apply Rabs_le_inv in N.
  assert (E : feq MAX_DETERMINANT_ERROR (lit 0x1d3d07c84b5dcc (-104)) = true) by (vm_compute; reflexivity).
  destruct MAX_DET_val as [FM _]. destruct (lit_val 0x1d3d07c84b5dcc (-104) ltac:(lia) ltac:(lia)) as [F' V].
  pose proof (feq_val _ _ FM F' E) as VM. rewrite V in VM. clear V E F'.
  assert (L : B2R MAX_DETERMINANT_ERROR <= 37 / 10 * u).
  { rewrite VM. change (bpow radix2 (-104)) with (/ 20282409603651670423947251286016). lra. }
  destruct (fneg_val _ FM) as [FN VN].
  split; intros H; unfold robust_sign, triage_sign, judge, fgt.
  - destruct (flt_R MAX_DETERMINANT_ERROR (dot (cross a b) c) FM F); [reflexivity|lra].
  - destruct (flt_R MAX_DETERMINANT_ERROR (dot (cross a b) c) FM F).
    { assert (0 <= B2R MAX_DETERMINANT_ERROR). { rewrite VM. apply Rmult_le_pos; [lra|apply bpow_ge_0]. } lra. }
    destruct (flt_R (dot (cross a b) c) (fneg MAX_DETERMINANT_ERROR) F FN); [reflexivity|lra].
Qed.
