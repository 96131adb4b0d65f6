(** Centres, distances and approximate equality of intervals on the circle. *)
From Coq Require Import Reals Lra Psatz.
From Flocq Require Import Core Plus_error.
From Verif Require Import F64 F64Facts IntervalSpec CircleSpec F64Arith F64Error R1Model S1Model R1Proofs S1Proofs S1Ops StuvError AngleModel AngleProofs ExpandProofs PropsInterval ChordProofs.
Open Scope R_scope.

(* subtraction of doubles has the right sign *)
Lemma fsub_sign x y : finite x -> finite y -> rnd (B2R x - B2R y) < 0 <-> B2R x < B2R y.
Proof.
  intros Fx Fy. split; intros H.
  - apply Rnot_le_lt. intros L. assert (0 <= rnd (B2R x - B2R y)) by (apply (rnd_lower f0); [reflexivity|lra]). lra.
  - assert (A : rnd (B2R x - B2R y) <= 0) by (apply (rnd_upper f0); [reflexivity|lra]).
    assert (N : rnd (B2R x - B2R y) <> 0); [|lra].
    assert (VE : Valid_exp (FLT_exp (-1074) 53)) by (apply FLT_exp_valid; reflexivity).
    apply round_plus_neq_0; auto with typeclass_instances; try apply (generic_format_B2R 53 1024); [|lra].
    apply generic_format_opp, (generic_format_B2R 53 1024).
Qed.

(** ** Centre *)

Lemma half_val x : finite x -> Rabs (B2R x) <= 8 -> finite (fmul fhalf x) /\ B2R (fmul fhalf x) = rnd (B2R x / 2) /\ - ulp1 <= B2R (fmul fhalf x) - B2R x / 2 <= ulp1.
Proof.
  intros F B. destruct fhalf_val as [FH VH]. pose proof (fmul_result _ _ FH F) as R. rewrite VH in R. replace (/ 2 * B2R x) with (B2R x / 2) in R by lra.
  apply half2; auto. unfold Rdiv. rewrite Rabs_mult, (Rabs_pos_eq (/ 2)) by lra. lra.
Qed.

Lemma center_spec i : Valid i -> nonempty i ->
  angle (s1_center i) /\ (exists k : Z, Rabs (B2R (s1_center i) + 2 * pi * IZR k - (B2R (slo i) + span i / 2)) <= 4 * ulp1) /\
  Arc i (B2R (s1_center i)) /\ (B2R (slo i) <= B2R (shi i) -> B2R (slo i) <= B2R (s1_center i)).
Proof.
  intros V N. pose proof V as (FL & FH & V1 & V2 & V3 & V4). pose proof pi_bounds as PB. pose proof pi_num as PN.
  pose proof (span_range i V N) as SR.
  assert (AS := fun t => arc_span i t N). unfold nonempty in N.
  unfold s1_center, s1_is_inverted. set (lo := B2R (slo i)) in *. set (hi := B2R (shi i)) in *. set (L := span i) in *.
  pose proof (fadd_result _ _ FL FH) as R. fold lo hi in R. destruct (half3 _ _ R) as (FS & VS & ES); [apply Rabs_le; lra|].
  set (s := fadd (slo i) (shi i)) in *. destruct (half_val s FS) as (FC & VC & EC); [apply Rabs_le; lra|]. set (c := fmul fhalf s) in *.
  assert (FM : finite (fneg PI64)) by (vm_compute; reflexivity). pose proof PI64_finite as FP. destruct f0_val as [F0 V0].
  assert (MONO : forall x : f64, finite x -> Rabs (B2R x) <= 4 -> (2 * B2R x <= lo + hi -> B2R x <= B2R c) /\ (lo + hi <= 2 * B2R x -> B2R c <= B2R x)).
  { intros x Fx Bx. destruct (twice_val x Fx Bx) as [_ V2x].
    assert (Q : rnd (2 * B2R x / 2) = B2R x) by (replace (2 * B2R x / 2) with (B2R x) by lra; apply rnd_fix).
    split; intros H.
    - assert (2 * B2R x <= B2R s) by (rewrite VS; apply (rnd_lower (fmul f2 x)); auto). rewrite VC, <- Q. apply rnd_le. lra.
    - assert (B2R s <= 2 * B2R x) by (rewrite VS; apply (rnd_upper (fmul f2 x)); auto). rewrite VC, <- Q. apply rnd_le. lra. }
  unfold fgt. destruct (flt_R (shi i) (slo i) FH FL) as [C|C]; fold lo hi in C; cbn [negb].
  - (* inverted *)
    assert (EL : L = hi + 2 * pi - lo) by (unfold L, span, arc_end; fold lo hi; destruct Rle_dec; lra).
    assert (LH : lo < hi + 2 * pi) by (destruct (Req_dec hi (- pi)) as [Q|Q]; [exfalso; apply N; auto|lra]).
    destruct (MONO PI64 FP) as [_ MP]; [rewrite pi_val; apply Rabs_le; lra|]. destruct (MONO (fneg PI64) FM) as [MM _]; [rewrite mpi_val; apply Rabs_le; lra|]. rewrite pi_val in MP. rewrite mpi_val in MM.
    specialize (MP ltac:(lra)). specialize (MM ltac:(lra)).
    (* a short arc: the sum is exact *)
    assert (SMALL : L < 8 * ulp1 -> B2R c = (lo + hi) / 2).
    { intros HS. destruct (grid2 (slo i)) as (p & P); [fold lo; rewrite Rabs_pos_eq; lra|]. destruct (grid2 (shi i)) as (q & Q); [fold hi; rewrite Rabs_left1; lra|].
      fold lo in P. fold hi in Q.
      assert (B : -8 <= IZR (p + q) <= 8) by (rewrite plus_IZR; lra). destruct B as [B1 B2]. apply le_IZR in B1, B2.
      destruct (result_format _ _ (p + q) (-51) R) as [_ VS']; [lia|lia|rewrite P, Q, plus_IZR; change (bpow radix2 (-51)) with (/ 2251799813685248); ring|].
      destruct fhalf_val as [FH' VH']. pose proof (fmul_result _ _ FH' FS) as R2. rewrite VH', VS' in R2.
      destruct (result_format _ _ (p + q) (-52) R2) as [_ VC']; [lia|lia|rewrite P, Q, plus_IZR; change (bpow radix2 (-52)) with ulp1; lra|].
      fold c in VC'. rewrite VC'. lra. }
    assert (EC' : - (2 * ulp1) <= B2R c - (lo + hi) / 2 <= 2 * ulp1) by lra.
    destruct (fle_R c f0 FC F0) as [G|G]; rewrite V0 in G.
    + pose proof (fadd_result _ _ FC FP) as R2. rewrite pi_val in R2. destruct (half2 _ _ R2) as (F2 & V2' & E2); [apply Rabs_le; lra|].
      set (x := fadd c PI64) in *.
      assert (X1 : B2R x <= pi) by (rewrite V2'; apply (rnd_upper PI64); [apply pi_val|lra]).
      assert (X0 : 0 <= B2R x) by (rewrite V2'; apply (rnd_lower f0); [reflexivity|lra]).
      split; [split; [exact F2|lra]|]. split; [exists 0%Z; apply Rabs_le; lra|].
      split; [|lra]. apply AS. exists 0%Z. destruct (Rlt_dec L (8 * ulp1)) as [S|S].
      * specialize (SMALL S). split; [|lra]. assert (lo <= B2R x); [|lra]. rewrite V2'. apply (rnd_lower (slo i)); [reflexivity|fold lo; lra].
      * lra.
    + pose proof (fsub_result _ _ FC FP) as R2. rewrite pi_val in R2. apply Rnot_le_lt in G. destruct (half2 _ _ R2) as (F2 & V2' & E2); [apply Rabs_le; lra|].
      set (x := fsub c PI64) in *.
      assert (X1 : - pi <= B2R x) by (rewrite V2'; apply (rnd_lower (fneg PI64)); [apply mpi_val|lra]).
      assert (X0 : B2R x <= 0) by (rewrite V2'; apply (rnd_upper f0); [reflexivity|lra]).
      split; [split; [exact F2|lra]|]. split; [exists 1%Z; apply Rabs_le; lra|].
      split; [|lra]. apply AS. exists 1%Z. destruct (Rlt_dec L (8 * ulp1)) as [S|S].
      * specialize (SMALL S). split; [lra|]. assert (B2R x <= hi); [|lra]. rewrite V2'. apply (rnd_upper (shi i)); [reflexivity|fold hi; lra].
      * lra.
  - assert (LE : lo <= hi) by lra. assert (EL : L = hi - lo) by (unfold L, span, arc_end; fold lo hi; destruct Rle_dec; [reflexivity|contradiction]).
    destruct (MONO (slo i) FL) as [ML _]; [fold lo; apply Rabs_le; lra|]. destruct (MONO (shi i) FH) as [_ MH]; [fold hi; apply Rabs_le; lra|]. fold lo in ML. fold hi in MH.
    specialize (ML ltac:(lra)). specialize (MH ltac:(lra)).
    split; [split; [exact FC|lra]|]. split; [exists 0%Z; apply Rabs_le; lra|]. split; [|auto]. apply AS. exists 0%Z. lra.
Qed.

(** ** Distances *)

(* from a counter-clockwise to b *)
Definition turn (a b : R) : R := if Rle_dec a b then b - a else b - a + 2 * pi.

Lemma positive_distance_spec a b : angle a -> angle b ->
  finite (positive_distance a b) /\ 0 <= B2R (positive_distance a b) /\ - (6 * ulp1) <= B2R (positive_distance a b) - turn (B2R a) (B2R b) <= 6 * ulp1.
Proof.
  intros [Fa Ba] [Fb Bb]. pose proof pi_bounds as PB. unfold positive_distance, turn, fge. destruct f0_val as [F0 V0]. pose proof PI64_finite as FP.
  pose proof (fsub_result _ _ Fb Fa) as R. destruct (half3 _ _ R) as (F & V & E); [apply Rabs_le; lra|].
  pose proof (fsub_sign b a Fb Fa) as SG. rewrite <- V in SG.
  destruct (fle_R f0 (fsub b a) F0 F) as [G|G]; rewrite V0 in G.
  - destruct Rle_dec as [L|L]; [|exfalso; apply Rnot_le_lt in L; apply SG in L; lra]. split; [exact F|lra].
  - apply Rnot_le_lt in G. pose proof (proj1 SG G) as L. destruct Rle_dec as [L'|_]; [lra|].
    pose proof (fadd_result _ _ Fb FP) as R1. rewrite pi_val in R1. destruct (half3 _ _ R1) as (F1 & V1 & E1); [apply Rabs_le; lra|].
    pose proof (fsub_result _ _ Fa FP) as R2. rewrite pi_val in R2. destruct (half3 _ _ R2) as (F2 & V2 & E2); [apply Rabs_le; lra|].
    assert (P1 : 0 <= B2R (fadd b PI64)) by (rewrite V1; apply (rnd_lower f0); [reflexivity|lra]).
    assert (P2 : B2R (fsub a PI64) <= 0) by (rewrite V2; apply (rnd_upper f0); [reflexivity|lra]).
    pose proof (fsub_result _ _ F1 F2) as R3. destruct (half3 _ _ R3) as (F3 & V3 & E3); [apply Rabs_le; lra|].
    split; [exact F3|]. split; [rewrite V3; apply (rnd_lower f0); [reflexivity|lra]|lra].
Qed.

Lemma complement_center_spec y : Valid y -> nonempty y -> B2R (slo y) <> - pi ->
  angle (s1_complement_center y) /\ (B2R (s1_complement_center y) = - pi -> B2R (slo y) <> pi) /\
  exists k : Z, Rabs (B2R (s1_complement_center y) + 2 * pi * IZR k - (B2R (slo y) + span y + (2 * pi - span y) / 2)) <= 4 * ulp1 /\
    B2R (slo y) + span y <= B2R (s1_complement_center y) + 2 * pi * IZR k <= B2R (slo y) + 2 * pi.
Proof.
  intros V N NF. pose proof V as (FL & FH & V1 & V2 & V3 & V4). pose proof pi_bounds as PB. unfold s1_complement_center, fne.
  pose proof PI64_finite as FP. destruct f0_val as [F0 V0].
  destruct (feq_R (slo y) (shi y) FL FH) as [E|E]; cbn [negb].
  - assert (S0 : span y = 0) by (unfold span, arc_end; destruct Rle_dec; lra). rewrite S0. rewrite E in *. set (h := B2R (shi y)) in *.
    destruct (fle_R (shi y) f0 FH F0) as [G|G]; rewrite V0 in G; fold h in G.
    + pose proof (fadd_result _ _ FH FP) as R1. rewrite pi_val in R1. fold h in R1. destruct (half2 _ _ R1) as (F1 & V1' & E1); [apply Rabs_le; lra|].
      assert (B2R (fadd (shi y) PI64) <= pi) by (rewrite V1'; apply (rnd_upper PI64); [apply pi_val|lra]).
      split; [split; [exact F1|lra]|]. split; [lra|]. exists 0%Z. split; [apply Rabs_le; lra|lra].
    + pose proof (fsub_result _ _ FH FP) as R1. rewrite pi_val in R1. fold h in R1. destruct (half2 _ _ R1) as (F1 & V1' & E1); [apply Rabs_le; lra|].
      assert (- pi <= B2R (fsub (shi y) PI64)) by (rewrite V1'; apply (rnd_lower (fneg PI64)); [apply mpi_val|lra]).
      split; [split; [exact F1|lra]|]. split; [lra|]. exists 1%Z. split; [apply Rabs_le; lra|lra].
  - assert (EQ : s1_complement y = S1 (shi y) (slo y)) by (unfold s1_complement; destruct (feq_R (slo y) (shi y) FL FH); [contradiction|reflexivity]).
    rewrite EQ. set (z := S1 (shi y) (slo y)).
    assert (VZ : Valid z).
    { split; [exact FH|]. split; [exact FL|]. split; [exact V2|]. split; [exact V1|]. split; intros Q; [apply V4, Q|contradiction]. }
    assert (NZ : nonempty z) by (unfold nonempty, z; cbn [slo shi]; intros [_ Q]; contradiction).
    destruct (center_spec z VZ NZ) as (A & (k & K) & C & D). split; [exact A|].
    split; [intros Q1 Q2; unfold z in D; cbn [slo shi] in D; fold z in D; specialize (D ltac:(lra)); assert (Q3 : B2R (shi y) = - pi) by lra; apply N; auto|].
    apply arc_span in C; [|exact NZ]. destruct C as (j & J).
    assert (SZ : exists n : Z, B2R (slo z) = B2R (slo y) + span y + 2 * pi * IZR n /\ span z = 2 * pi - span y).
    { clear K J. unfold span, arc_end, z, nonempty in *. cbn [slo shi]. destruct (Rle_dec (B2R (slo y)) (B2R (shi y))) as [Q|Q].
      - exists 0%Z. destruct (Rle_dec (B2R (shi y)) (B2R (slo y))); [exfalso; apply E; lra|split; lra].
      - exists (-1)%Z. destruct (Rle_dec (B2R (shi y)) (B2R (slo y))); split; lra. }
    destruct SZ as (n & SZ1 & SZ2). rewrite SZ1, SZ2 in *. pose proof (span_range y V N) as SR. set (c := B2R (s1_center z)) in *. set (g := 2 * pi - span y) in *.
    apply Rabs_le_inv in K.
    assert (Hg : 0 <= g <= 2 * pi) by (unfold g; lra).
    (* the two lifts agree unless both ends of the complement are at hand *)
    assert (JK : IZR (j - k) = 0 \/ (IZR (j - k) = -1 \/ IZR (j - k) = 1)).
    { assert (B : -2 < IZR (j - k) < 2) by (rewrite minus_IZR; split; apply Rmult_lt_reg_l with (2 * pi); lra). destruct B as [B1 B2]. apply lt_IZR in B1, B2.
      assert (j - k = 0 \/ j - k = -1 \/ j - k = 1)%Z as [-> |[-> | ->]] by lia; auto. }
    rewrite minus_IZR in JK. exists (j - n)%Z. rewrite minus_IZR. destruct JK as [JK|[JK|JK]].
    + assert (JK' : IZR j = IZR k) by lra. rewrite JK' in *. split; [apply Rabs_le; unfold g in *; lra|unfold g in *; lra].
    + exfalso. assert (JK' : IZR j = IZR k - 1) by lra. rewrite JK' in *. unfold g in *. lra.
    + exfalso. assert (JK' : IZR j = IZR k + 1) by lra. rewrite JK' in *. unfold g in *. lra.
Qed.

Lemma turn_unique a b w (n : Z) : - pi <= a <= pi -> - pi <= b <= pi -> ~ (a = - pi /\ b = pi) -> 0 <= w < 2 * pi ->
  b = a + w + 2 * pi * IZR n -> turn a b = w.
Proof.
  intros A B N W E. pose proof pi_bounds as PB. unfold turn.
  assert (Q : -2 < IZR n < 1) by (split; apply Rmult_lt_reg_l with (2 * pi); try lra).
  destruct Q as [Q1 Q2]. apply lt_IZR in Q1, Q2.
  assert (n = 0 \/ n = -1)%Z as [-> | ->] by lia; destruct Rle_dec; try lra.
Qed.
Lemma turn_range a b : - pi <= a <= pi -> - pi <= b <= pi -> ~ (a = - pi /\ b = pi) -> 0 <= turn a b < 2 * pi /\ exists n : Z, b = a + turn a b + 2 * pi * IZR n.
Proof.
  intros A B N. pose proof pi_bounds as PB. unfold turn. destruct Rle_dec.
  - split; [lra|]. exists 0%Z. lra.
  - split; [lra|]. exists (-1)%Z. lra.
Qed.
Lemma arc_turn a b t : angle a -> angle b -> ~ (B2R a = - pi /\ B2R b = pi) -> 
  arc a b t <-> ~ (B2R a = pi /\ B2R b = - pi) /\ exists k : Z, B2R a <= t + 2 * pi * IZR k <= B2R a + turn (B2R a) (B2R b).
Proof.
  intros [_ A] [_ B] N. unfold arc, arc_end, turn. destruct Rle_dec; split; intros [H (k & K)]; (split; [exact H|]); exists k; lra.
Qed.

(* [H], the upper end of y, and the gap of width [g] that follows it *)
Section Gap.
Variables (y : s1) (Vy : Valid y) (Ny : nonempty y).
Let H := B2R (slo y) + span y.
Let g := 2 * pi - span y.
Lemma gap_near p (k : Z) u r : p + 2 * pi * IZR k = H + u -> 0 <= u <= g -> 0 <= r -> u <= r \/ g - u <= r -> within (Arc y) r p.
Proof using Vy Ny.
  intros E U R C. pose proof (span_range y Vy Ny) as SR. pose proof (within_arc y r p Ny ltac:(lra)) as [_ W]. specialize (W R). fold H in W.
  unfold g in *. destruct C as [C|C].
  - apply (W k). unfold H in *. lra.
  - apply (W (k - 1)%Z). rewrite minus_IZR. unfold H in *. lra.
Qed.
Lemma gap_far p (k : Z) u r : p + 2 * pi * IZR k = H + u -> 0 <= u <= g -> within (Arc y) r p -> u <= r \/ g - u <= r.
Proof using Vy Ny.
  intros E U W. pose proof (span_range y Vy Ny) as SR. pose proof pi_bounds as PB. apply within_arc in W; [|exact Ny|lra]. destruct W as (n & W). fold H in W.
  assert (Q : p + 2 * pi * IZR n = H + u + 2 * pi * IZR (n - k)) by (rewrite minus_IZR; lra).
  destruct (Z_lt_le_dec (n - k) 0) as [L|L].
  - right. assert (Y : IZR (n - k) <= -1) by (apply IZR_le; lia). pose proof (Rmult_le_compat_l (2 * pi) _ _ ltac:(lra) Y). unfold g, H in *. lra.
  - left. assert (Y : 0 <= IZR (n - k)) by (apply IZR_le; lia). pose proof (Rmult_le_compat_l (2 * pi) _ _ ltac:(lra) Y). lra.
Qed.
Lemma gap_place p : exists (k : Z) u, p + 2 * pi * IZR k = H + u /\ 0 <= u < 2 * pi.
Proof using.
  destruct (reduce (- (p - H - pi))) as (k & K). exists (- k)%Z, (p - H - 2 * pi * IZR k). rewrite opp_IZR. lra.
Qed.
Lemma gap_inside p (k : Z) u r : p + 2 * pi * IZR k = H + u -> g <= u < 2 * pi -> 0 <= r -> within (Arc y) r p.
Proof using Vy Ny.
  intros E U R. pose proof (span_range y Vy Ny) as SR. pose proof (within_arc y r p Ny ltac:(lra)) as [_ W]. apply (W R (k - 1)%Z). rewrite minus_IZR. unfold g, H in *. lra.
Qed.
End Gap.

Lemma contains_spec i p : Valid i -> angle p -> s1_contains i p = true <-> Arc i (B2R p).
Proof. intros V A. destruct (C48_s1_predicates i i V V) as (_ & _ & C & _). apply C, A. Qed.
Lemma contains_interval_spec y i : Valid y -> Valid i -> s1_contains_interval y i = true <-> subset (Arc i) (Arc y).
Proof. intros Vy Vi. destruct (C48_s1_predicates y i Vy Vi) as (_ & _ & _ & _ & C & _). exact C. Qed.

Lemma hausdorff_spec i y : Valid i -> Valid y -> nonempty i -> nonempty y ->
  let h := s1_hausdorff i y in
  finite h /\ 0 <= B2R h /\
  (forall p, Arc i p -> within (Arc y) (B2R h + 16 * ulp1) p) /\
  (exists p, Arc i p /\ forall r, r < B2R h - 16 * ulp1 -> ~ within (Arc y) r p).
Proof.
  intros Vi Vy Ni Ny h. pose proof pi_bounds as PB. pose proof (span_range i Vi Ni) as SI. pose proof (span_range y Vy Ny) as SY.
  assert (LOi : Arc i (B2R (slo i))) by (apply arc_span; [exact Ni|exists 0%Z; lra]).
  assert (ZERO : forall r p, r < 0 -> ~ within (Arc y) r p).
  { intros r p Hr (s & _ & k & K). pose proof (Rabs_pos (p + 2 * pi * IZR k - s)). lra. }
  unfold h, s1_hausdorff. clear h.
  destruct (s1_contains_interval y i) eqn:CI.
  { apply contains_interval_spec in CI; auto. destruct f0_val as [F0 V0]. rewrite V0. split; [exact F0|]. split; [lra|]. split.
    - intros p P. exists p. split; [apply CI, P|]. exists 0%Z. replace (p + 2 * pi * 0 - p) with 0 by ring. rewrite Rabs_R0. lra.
    - exists (B2R (slo i)). split; [exact LOi|]. intros r Hr. apply ZERO. lra. }
  assert (NS : ~ subset (Arc i) (Arc y)).
  { intros S. apply contains_interval_spec in S; auto. congruence. }
  clear CI. destruct (s1_is_empty y) eqn:EY; [apply is_empty_R in EY; [contradiction|exact Vy]|]. clear EY.
  assert (NF : B2R (slo y) <> - pi).
  { intros E. destruct Vy as (_ & _ & _ & _ & V3 & _). specialize (V3 E). apply NS. intros t _. apply arc_span; [exact Ny|].
    assert (SP : span y = 2 * pi) by (unfold span, arc_end; destruct Rle_dec; lra). rewrite SP, E. destruct (reduce t) as (k & K). exists k. lra. }
  destruct (complement_center_spec y Vy Ny NF) as (AC & CM & k & KC & KR). set (c := s1_complement_center y) in *.
  set (H := B2R (slo y) + span y) in *. set (g := 2 * pi - span y) in *. set (uc := B2R c + 2 * pi * IZR k - H).
  apply Rabs_le_inv in KC.
  assert (G2 : 0 < g \/ g = 0) by (unfold g; lra).
  assert (UC : 0 <= uc <= g) by (unfold uc, g, H in *; lra). assert (UC' : - (4 * ulp1) <= uc - g / 2 <= 4 * ulp1) by (unfold uc; lra).
  assert (EC : B2R c + 2 * pi * IZR k = H + uc) by (unfold uc; ring).
  pose proof Vi as (FLi & FHi & B1i & B2i & _). pose proof Vy as (FLy & FHy & B1y & B2y & V3y & V4y).
  assert (NHy : B2R (shi y) <> - pi) by (intros E; apply Ny; auto).
  assert (HM : exists n : Z, B2R (shi y) = H + 2 * pi * IZR n).
  { unfold H, span, arc_end. destruct Rle_dec; [exists 0%Z|exists (-1)%Z]; lra. }
  destruct HM as (n & HM).
  assert (G7 : 0 <= g <= 2 * pi) by (unfold g; lra).
  assert (AHy : angle (shi y)) by (split; auto). assert (ALy : angle (slo y)) by (split; auto).
  assert (AHi : angle (shi i)) by (split; auto). assert (ALi : angle (slo i)) by (split; auto).
  assert (TC : turn (B2R (shi y)) (B2R c) = uc).
  { apply (turn_unique _ _ _ (- k - n)); auto; [apply AC|tauto|lra|rewrite minus_IZR, opp_IZR, HM; lra]. }
  assert (EMPTYc : B2R (shi y) = pi /\ B2R c = - pi -> uc = 0).
  { intros [E1 E2]. rewrite <- TC. unfold turn. rewrite E1, E2. destruct Rle_dec; lra. }
  destruct (s1_contains i c) eqn:CC.
  { apply contains_spec in CC; auto. destruct (positive_distance_spec (shi y) c AHy AC) as (FP & PP & EP). rewrite TC in EP.
    split; [exact FP|]. split; [exact PP|]. split.
    - intros p _. destruct (gap_place y p) as (j & u & EU & BU). fold H in EU. destruct (Rle_dec u g) as [L|L].
      + apply (gap_near y Vy Ny p j u); fold H g; auto; try lra.
      + apply (gap_inside y Vy Ny p j u); fold H g; auto; lra.
    - exists (B2R c). split; [exact CC|]. intros r Hr W. apply (gap_far y Vy Ny (B2R c) k uc) in W; auto. fold g in W. lra. }
  assert (NC : ~ Arc i (B2R c)) by (intros A; apply contains_spec in A; auto; congruence). clear CC.
  assert (FULLi : B2R (slo i) = - pi -> forall t, Arc i t).
  { intros E t. destruct Vi as (_ & _ & _ & _ & V3 & _). specialize (V3 E). apply arc_span; [exact Ni|].
    assert (SP : span i = 2 * pi) by (unfold span, arc_end; destruct Rle_dec; lra). rewrite SP, E. destruct (reduce t) as (j & J). exists j. lra. }
  (* the two candidates *)
  set (hh := if s1_contains (s1_new (shi y) c) (shi i) then positive_distance (shi y) (shi i) else f0).
  set (ll := if s1_contains (s1_new c (slo y)) (slo i) then positive_distance (slo i) (slo y) else f0).
  assert (HH : finite hh /\ 0 <= B2R hh /\ ((B2R hh = 0 /\ ~ arc (shi y) c (B2R (shi i))) \/ 
     exists (j : Z) u, B2R (shi i) + 2 * pi * IZR j = H + u /\ 0 <= u <= uc /\ - (6 * ulp1) <= B2R hh - u <= 6 * ulp1)).
  { unfold hh. pose proof (contains_spec (s1_new (shi y) c) (shi i) (s1_new_valid _ _ AHy AC) AHi) as CS. rewrite s1_new_spec in CS by auto.
    destruct s1_contains.
    - destruct (positive_distance_spec (shi y) (shi i) AHy AHi) as (FP & PP & EP). split; [exact FP|]. split; [exact PP|]. right.
      assert (AR : arc (shi y) c (B2R (shi i))) by (apply CS; reflexivity). apply arc_turn in AR; auto; [|tauto]. destruct AR as [_ (j & J)]. rewrite TC in J.
      exists (j - n)%Z, (B2R (shi i) + 2 * pi * IZR j - B2R (shi y)). rewrite minus_IZR. split; [lra|]. split; [lra|].
      rewrite (turn_unique _ _ (B2R (shi i) + 2 * pi * IZR j - B2R (shi y)) (- j)) in EP; auto; [tauto|lra|rewrite opp_IZR; lra].
    - split; [reflexivity|]. split; [apply Rle_refl|]. left. split; [reflexivity|]. intros A. apply CS in A. discriminate. }
  assert (TL : turn (B2R c) (B2R (slo y)) = g - uc).
  { apply (turn_unique _ _ _ (k - 1)); [apply AC|auto| |lra|rewrite minus_IZR; unfold g, H in *; lra]. intros [E1 E2]. apply CM; auto. }
  assert (LL : finite ll /\ 0 <= B2R ll /\ ((B2R ll = 0 /\ ~ arc c (slo y) (B2R (slo i))) \/ 
     exists (j : Z) u, B2R (slo i) + 2 * pi * IZR j = H + u /\ uc <= u <= g /\ - (6 * ulp1) <= B2R ll - (g - u) <= 6 * ulp1)).
  { unfold ll. pose proof (contains_spec (s1_new c (slo y)) (slo i) (s1_new_valid _ _ AC ALy) ALi) as CS. rewrite s1_new_spec in CS by auto.
    assert (NE1 : ~ (B2R c = - pi /\ B2R (slo y) = pi)) by (intros [E1 E2]; apply CM; auto).
    destruct (s1_contains (s1_new c (slo y)) (slo i)).
    - destruct (positive_distance_spec (slo i) (slo y) ALi ALy) as (FP & PP & EP). split; [exact FP|]. split; [exact PP|]. right.
      assert (AR : arc c (slo y) (B2R (slo i))) by (apply CS; reflexivity). apply arc_turn in AR; auto. destruct AR as [_ (j & J)]. rewrite TL in J.
      exists (j + k)%Z, (B2R (slo i) + 2 * pi * IZR j - B2R c + uc). rewrite plus_IZR. split; [unfold H in *; lra|]. split; [lra|].
      rewrite (turn_unique _ _ (g - (B2R (slo i) + 2 * pi * IZR j - B2R c + uc)) (j + k - 1)) in EP; auto; [|lra|rewrite minus_IZR, plus_IZR; unfold g, H in *; lra].
      intros [E1 E2]. apply NC, FULLi, E1.
    - split; [reflexivity|]. split; [apply Rle_refl|]. left. split; [reflexivity|]. intros A. apply CS in A. discriminate. }
  destruct HH as (FHH & PH & HH). destruct LL as (FLL & PL & LL). destruct (fmax_R hh ll FHH FLL) as [FM VM].
  pose proof (Rmax_l (B2R hh) (B2R ll)) as ML. pose proof (Rmax_r (B2R hh) (B2R ll)) as MR. rewrite <- VM in ML, MR.
  set (h := fmax hh ll) in *.
  split; [exact FM|]. split; [|split].
  - lra.
  - intros p P. destruct (gap_place y p) as (j & u & EU & BU). fold H in EU. destruct (Rle_dec g u) as [L|L].
    { apply (gap_inside y Vy Ny p j u); fold H g; auto; lra. }
    apply arc_span in P; [|exact Ni]. destruct P as (m & P). set (x := p + 2 * pi * IZR m - B2R (slo i)) in *.
    assert (HI : exists q : Z, B2R (shi i) = B2R (slo i) + span i + 2 * pi * IZR q).
    { unfold span, arc_end. destruct Rle_dec; [exists 0%Z|exists (-1)%Z]; lra. }
    destruct HI as (q & HI).
    destruct (Rtotal_order u uc) as [LT|[EQ|GT]].
    + (* the arc of i that starts at p ends before c *)
      destruct (Rlt_dec (u + (span i - x)) uc) as [C|C].
      * destruct HH as [[_ NA]|(j' & u' & E' & U' & D')].
        -- exfalso. apply NA. apply arc_turn; auto; [tauto|]. split; [intros E; specialize (EMPTYc E); lra|].
           rewrite TC. exists (j + n - q - m)%Z. rewrite !minus_IZR, plus_IZR. unfold x in *. lra.
        -- assert (u' = u + (span i - x)).
           { assert (TU : turn (B2R (shi y)) (B2R (shi i)) = u') by (apply (turn_unique _ _ _ (- j' - n)); auto; [tauto|lra|rewrite minus_IZR, opp_IZR; lra]).
             assert (TU' : turn (B2R (shi y)) (B2R (shi i)) = u + (span i - x)).
             { apply (turn_unique _ _ _ (q + m - j - n)); auto; [tauto|unfold x in *; lra|rewrite !minus_IZR, plus_IZR; unfold x in *; lra]. }
             lra. }
           apply (gap_near y Vy Ny p j u); fold H g; auto; unfold x in *; lra.
      * exfalso. apply NC. apply arc_span; [exact Ni|]. exists (k - j + m)%Z. rewrite plus_IZR, minus_IZR. unfold x in *. lra.
    + exfalso. apply NC. apply arc_span; [exact Ni|]. exists (k - j + m)%Z. rewrite plus_IZR, minus_IZR. unfold x in *. lra.
    + destruct (Rlt_dec uc (u - x)) as [C|C].
      * assert (NE1 : ~ (B2R c = - pi /\ B2R (slo y) = pi)) by (intros [E1 E2]; apply CM; auto).
        assert (NE2 : ~ (B2R (slo i) = - pi /\ B2R (slo y) = pi)) by (intros [E1 _]; apply NC, FULLi, E1).
        destruct LL as [[_ NA]|(j' & u' & E' & U' & D')].
        -- exfalso. apply NA. apply arc_turn; auto. split.
           { intros [E1 E2]. contradiction. }
           rewrite TL. exists (j - k - m)%Z. rewrite !minus_IZR. unfold x in *. lra.
        -- assert (u' = u - x).
           { assert (TU : turn (B2R (slo i)) (B2R (slo y)) = g - u') by (apply (turn_unique _ _ _ (j' - 1)); auto; [lra|rewrite minus_IZR; unfold g, H in *; lra]).
             assert (TU' : turn (B2R (slo i)) (B2R (slo y)) = g - (u - x)).
             { apply (turn_unique _ _ _ (j - m - 1)); auto; [unfold x in *; lra|rewrite !minus_IZR; unfold x, g, H in *; lra]. }
             lra. }
           apply (gap_near y Vy Ny p j u); fold H g; auto; unfold x in *; lra.
      * exfalso. apply NC. apply arc_span; [exact Ni|]. exists (k - j + m)%Z. rewrite plus_IZR, minus_IZR. unfold x in *. lra.
  - assert (HIi : Arc i (B2R (shi i))).
    { apply arc_span; [exact Ni|]. unfold span, arc_end. destruct Rle_dec; [exists 0%Z|exists 1%Z]; lra. }
    destruct (Rle_dec (B2R ll) (B2R hh)) as [C|C].
    + assert (VH : B2R h = B2R hh) by (rewrite VM; apply Rmax_left, C). rewrite VH. destruct HH as [[Z _]|(j & u & E & U & D)].
      * exists (B2R (slo i)). split; [exact LOi|]. intros r Hr. apply ZERO. lra.
      * exists (B2R (shi i)). split; [exact HIi|]. intros r Hr W. apply (gap_far y Vy Ny _ j u) in W; [|exact E|fold g; lra]. fold g in W. lra.
    + assert (VH : B2R h = B2R ll) by (rewrite VM; apply Rmax_right; lra). rewrite VH. destruct LL as [[Z _]|(j & u & E & U & D)].
      * exists (B2R (slo i)). split; [exact LOi|]. intros r Hr. apply ZERO. lra.
      * exists (B2R (slo i)). split; [exact LOi|]. intros r Hr W. apply (gap_far y Vy Ny _ j u) in W; [|exact E|fold g; lra]. fold g in W. lra.
Qed.

(** ** Approximate equality *)

Lemma near_end a b e : angle a -> angle b -> finite e ->
  (fle (fabs (fmod (fsub b a) TWOPI)) e = true -> exists n : Z, Rabs (B2R b - B2R a - 2 * pi * IZR n) <= B2R e + 2 * ulp1) /\
  (Rabs (B2R b - B2R a) <= B2R e -> fle (fabs (fmod (fsub b a) TWOPI)) e = true).
Proof.
  intros [Fa Ba] [Fb Bb] Fe. pose proof pi_bounds as PB. destruct TWOPI_val as [FT VT].
  pose proof (fsub_result _ _ Fb Fa) as R. destruct (half3 _ _ R) as (F & V & E); [apply Rabs_le; lra|].
  destruct (fmod_spec (fsub b a) TWOPI F FT ltac:(rewrite VT; lra)) as (FM & n & EM & _ & LM & _). rewrite VT in EM.
  destruct (fle_abs_R (fmod (fsub b a) TWOPI) e FM Fe) as [C|C]; split; intros H; auto; try discriminate.
  - exists n. rewrite EM in C. apply Rabs_le_inv in C. apply Rabs_le. lra.
  - exfalso. apply C. apply Rle_trans with (1 := LM). rewrite V. apply Rabs_le_inv in H. apply Rabs_le. split.
    + destruct (fneg_val e Fe) as [Fn Vn]. apply (rnd_lower (fneg e)); [exact Vn|lra].
    + apply (rnd_upper e); [reflexivity|lra].
Qed.

Lemma s1_approx_spec i o e : Valid i -> Valid o -> nonempty i -> nonempty o -> B2R (slo i) <> - pi -> B2R (slo o) <> - pi ->
  ~ sliver i -> ~ sliver o -> finite e -> 0 <= B2R e <= 4 ->
  (s1_approx_eq_by i o e = true ->
     (exists n : Z, Rabs (B2R (slo o) - B2R (slo i) - 2 * pi * IZR n) <= B2R e + 2 * ulp1) /\
     (exists n : Z, Rabs (B2R (shi o) - B2R (shi i) - 2 * pi * IZR n) <= B2R e + 2 * ulp1) /\
     Rabs (span i - span o) <= 2 * B2R e + 8 * ulp1) /\
  (Rabs (B2R (slo o) - B2R (slo i)) <= B2R e -> Rabs (B2R (shi o) - B2R (shi i)) <= B2R e -> Rabs (span i - span o) + 8 * ulp1 <= 2 * B2R e ->
     s1_approx_eq_by i o e = true).
Proof.
  intros Vi Vo Ni No Fi Fo Si So Fe Be. pose proof pi_bounds as PB.
  assert (GE : forall j, Valid j -> nonempty j -> s1_is_empty j = false) by (intros j V N; destruct (s1_is_empty j) eqn:E; auto; apply (is_empty_R j V) in E; contradiction).
  unfold s1_approx_eq_by. rewrite (GE i), (GE o), (is_full_R i), (is_full_R o) by auto.
  assert (AN : forall j, Valid j -> angle (slo j) /\ angle (shi j)) by (intros j (A & B & C & D & _); split; split; auto).
  destruct (AN i Vi) as [A1 A2]. destruct (AN o Vo) as [B1 B2].
  destruct (near_end _ _ e A1 B1 Fe) as [L1 L2]. destruct (near_end _ _ e A2 B2 Fe) as [H1 H2].
  destruct (len_spec i Vi Ni) as [(S & _)|(FC & PC & EC & _)]; [contradiction|]. destruct (len_spec o Vo No) as [(S & _)|(FD & PD & ED & _)]; [contradiction|].
  pose proof (span_range i Vi Ni) as SI. pose proof (span_range o Vo No) as SO.
  pose proof (fsub_result _ _ FC FD) as R. destruct (half3 _ _ R) as (F & V & E); [apply Rabs_le; lra|].
  destruct (twice_val e Fe) as [F2 V2]; [rewrite Rabs_pos_eq; lra|].
  split.
  - intros H. apply andb_prop in H. destruct H as [H H3]. apply andb_prop in H. destruct H as [H4 H5].
    split; [apply L1, H4|]. split; [apply H1, H5|]. revert H3. destruct (fle_abs_R _ _ F F2) as [C|C]; [|discriminate]. intros _. rewrite V2 in C.
    apply Rabs_le_inv in C. apply Rabs_le. lra.
  - intros H3 H4 H5. rewrite (L2 H3), (H2 H4). cbn [andb]. destruct (fle_abs_R _ _ F F2) as [C|C]; [reflexivity|]. exfalso. apply C. rewrite V2.
    pose proof (Rle_abs (span i - span o)). pose proof (Rle_abs (- (span i - span o))). rewrite Rabs_Ropp in *. apply Rabs_le. lra.
Qed.

(* against the empty and the full interval *)
Lemma len_empty i : Valid i -> ~ nonempty i -> s1_len i = lit (-1) 0.
Proof.
  intros V E. assert (Q : B2R (slo i) = pi /\ B2R (shi i) = - pi).
  { destruct (Req_dec (B2R (slo i)) pi), (Req_dec (B2R (shi i)) (- pi)); auto; exfalso; apply E; intros [? ?]; contradiction. }
  destruct Q as [Q1 Q2]. destruct V as (FL & FH & _). pose proof pi_bounds as PB. destruct TWOPI_val as [FT VT]. destruct (fneg_val _ FT) as [FN VN]. destruct f0_val as [F0 V0].
  pose proof (fsub_result _ _ FH FL) as R. rewrite Q1, Q2 in R. destruct (result_exact _ _ (fneg TWOPI) R) as [F D]; [rewrite VN, VT; ring|].
  pose proof (fadd_result _ _ F FT) as R2. rewrite D, VT in R2. destruct (result_exact _ _ f0 R2) as [F2 D2]; [rewrite V0; ring|].
  change (s1_len i) with (if fge (fsub (shi i) (slo i)) f0 then fsub (shi i) (slo i) else
     if fgt (fadd (fsub (shi i) (slo i)) TWOPI) f0 then fadd (fsub (shi i) (slo i)) TWOPI else lit (-1) 0).
  unfold fge, fgt. destruct (fle_R f0 _ F0 F) as [C|C]; [rewrite V0, D in C; lra|]. destruct (flt_R f0 _ F0 F2) as [C'|C']; [rewrite V0, D2 in C'; lra|]. reflexivity.
Qed.

Lemma s1_approx_empty i o e : Valid i -> Valid o -> ~ nonempty i -> ~ sliver o -> finite e -> 0 <= B2R e <= 4 ->
  (s1_approx_eq_by i o e = true -> nonempty o -> span o < 2 * B2R e + 3 * ulp1) /\
  (~ nonempty o \/ span o + 3 * ulp1 < 2 * B2R e -> s1_approx_eq_by i o e = true).
Proof.
  intros Vi Vo Ei So Fe Be. pose proof pi_bounds as PB. unfold s1_approx_eq_by. replace (s1_is_empty i) with true by (symmetry; apply is_empty_R; auto).
  destruct (twice_val e Fe) as [F2 V2]; [rewrite Rabs_pos_eq; lra|]. destruct (s1_is_empty o) eqn:EO.
  - apply is_empty_R in EO; [|exact Vo]. split; [contradiction|]. intros _. rewrite (len_empty o Vo EO).
    destruct (lit_val (-1) 0 ltac:(lia) ltac:(lia)) as [F1 V1]. change (bpow radix2 0) with 1 in V1.
    destruct (flt_R _ _ F1 F2) as [C|C]; [reflexivity|]. exfalso. apply C. rewrite V1, V2. lra.
  - assert (No : nonempty o) by (intros Q; assert (E : s1_is_empty o = true) by (apply is_empty_R; auto); congruence).
    destruct (len_spec o Vo No) as [(S & _)|(FD & PD & ED & _)]; [contradiction|].
    destruct (flt_R _ _ FD F2) as [C|C]; rewrite V2 in C; split; intros H; try discriminate; auto.
    + intros _. lra.
    + exfalso. apply C. destruct H as [H|H]; [contradiction|lra].
Qed.

Lemma s1_approx_full i o e : Valid i -> Valid o -> B2R (slo i) = - pi -> nonempty o -> ~ sliver o -> finite e -> 0 <= B2R e <= 2 ->
  (s1_approx_eq_by i o e = true -> 2 * pi - 2 * B2R e - 5 * ulp1 <= span o) /\
  (2 * pi - 2 * B2R e + 5 * ulp1 <= span o -> s1_approx_eq_by i o e = true).
Proof.
  intros Vi Vo Fi No So Fe Be. pose proof pi_bounds as PB. pose proof Vi as (FL & FH & _ & _ & V3 & _). specialize (V3 Fi).
  assert (NE : s1_is_empty i = false).
  { destruct (s1_is_empty i) eqn:E; auto. apply (is_empty_R i Vi) in E. exfalso. apply E. intros [Q _]. lra. }
  assert (NO : s1_is_empty o = false) by (destruct (s1_is_empty o) eqn:E; auto; apply (is_empty_R o Vo) in E; contradiction).
  assert (FU : s1_is_full i = true).
  { unfold s1_is_full, s1_eq, s1_FULL. cbn [slo shi]. assert (FM : finite (fneg PI64)) by (vm_compute; reflexivity). pose proof PI64_finite as FP.
    destruct (feq_R (slo i) (fneg PI64) FL FM) as [A|A], (feq_R (shi i) PI64 FH FP) as [B|B]; auto; exfalso; rewrite ?mpi_val, ?pi_val in *; auto. }
  unfold s1_approx_eq_by. rewrite NE, NO, FU. pose proof PI64_finite as FP.
  pose proof (fsub_result _ _ FP Fe) as R. rewrite pi_val in R. destruct (half2 _ _ R) as (F & V & E); [apply Rabs_le; lra|].
  destruct (twice_val _ F) as [F2 V2]; [apply Rabs_le; lra|]. destruct (len_spec o Vo No) as [(S & _)|(FD & PD & ED & _)]; [contradiction|].
  unfold fge. destruct (fle_R _ _ F2 FD) as [C|C]; rewrite V2 in C; split; intros H; try discriminate; auto.
  - lra.
  - exfalso. apply C. lra.
Qed.

(** ** Approximate equality on the line *)
Lemma r1_approx_spec i o e : finite (lo1 i) -> finite (hi1 i) -> finite (lo1 o) -> finite (hi1 o) -> B2R (lo1 i) <= B2R (hi1 i) -> B2R (lo1 o) <= B2R (hi1 o) ->
  finite e -> pow2 (-900) <= B2R e <= pow2 900 ->
  (r1_approx_eq_by i o e = true -> Rabs (B2R (lo1 i) - B2R (lo1 o)) <= B2R e * (1 + ulp1) /\ Rabs (B2R (hi1 i) - B2R (hi1 o)) <= B2R e * (1 + ulp1)) /\
  (Rabs (B2R (lo1 i) - B2R (lo1 o)) <= B2R e -> Rabs (B2R (hi1 i) - B2R (hi1 o)) <= B2R e -> r1_approx_eq_by i o e = true).
Proof.
  intros F1 F2 F3 F4 L1 L2 Fe Be.
  assert (NE : r1_is_empty i = false) by (unfold r1_is_empty, fgt; destruct (flt_R _ _ F2 F1) as [C|C]; [lra|reflexivity]).
  assert (NO : r1_is_empty o = false) by (unfold r1_is_empty, fgt; destruct (flt_R _ _ F4 F3) as [C|C]; [lra|reflexivity]).
  unfold r1_approx_eq_by. rewrite NE, NO.
  assert (G : forall x y, finite x -> finite y -> (fle (fabs (fsub x y)) e = true -> Rabs (B2R x - B2R y) <= B2R e * (1 + ulp1)) /\ (Rabs (B2R x - B2R y) <= B2R e -> fle (fabs (fsub x y)) e = true)).
  { intros x y Fx Fy. pose proof (fsub_result _ _ Fx Fy) as R. set (d := B2R x - B2R y) in *. split; intros H.
    - destruct R as [(F & V & _)|(s & E & _)].
      2:{ rewrite E in H. destruct e; try discriminate Fe; destruct s; vm_compute in H; discriminate. }
      revert H. destruct (fle_abs_R _ _ F Fe) as [C|C]; [|discriminate]. intros _. rewrite V in C.
      pose proof (rnd_rel d) as Q. pose proof (Rabs_triang_inv d (rnd d)) as T. rewrite (Rabs_minus_sym d (rnd d)) in T.
      assert (M : mu <= pow2 (-900) * / 18014398509481984).
      { change (/ 18014398509481984) with (pow2 (-54)). rewrite <- bpow_plus. apply bpow_le. lia. }
      set (D := Rabs d) in *. clearbody D. pose proof (bpow_gt_0 radix2 (-900)) as P9. set (rd := Rabs (rnd d)) in *. set (E := B2R e) in *. set (p9 := pow2 (-900)) in *. set (m := mu) in *. clearbody rd E p9 m. clear - Be C Q T M P9. lra.
    - assert (B : Rabs (rnd d) <= B2R e).
      { apply Rabs_le_inv in H. apply Rabs_le. destruct (fneg_val e Fe) as [Fn Vn]. split; [apply (rnd_lower (fneg e)); [exact Vn|lra]|apply (rnd_upper e); [reflexivity|lra]]. }
      destruct R as [(F & V & _)|(s & _ & L & _)].
      + destruct (fle_abs_R _ _ F Fe) as [C|C]; [reflexivity|]. exfalso. apply C. rewrite V. exact B.
      + exfalso. pose proof (B2R_max e). rewrite Rabs_pos_eq in H0; [lra|]. pose proof (bpow_gt_0 radix2 (-900)). lra. }
  destruct (G _ _ F1 F3) as [A1 A2]. destruct (G _ _ F2 F4) as [B1 B2]. split.
  - intros H. apply andb_prop in H. destruct H. auto.
  - intros H1 H2. rewrite A2, B2 by auto. reflexivity.
Qed.
