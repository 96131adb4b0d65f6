(** Expanding intervals on the circle. *)
From Coq Require Import Reals Lra Psatz.
From Flocq Require Import Core Plus_error.
From Verif Require Import F64 F64Facts IntervalSpec CircleSpec F64Arith F64Error R1Model S1Model R1Proofs S1Proofs S1Ops StuvError AngleModel AngleProofs.
Open Scope R_scope.

Notation ulp1 := (/ 4503599627370496). (* 2^-52 *)

(* a double of size at least 2^j is a multiple of 2^(j-52) *)
Lemma grid (x : f64) j : (-1000 <= j <= 900)%Z -> pow2 j <= Rabs (B2R x) -> exists k : Z, B2R x = IZR k * pow2 (j - 52).
Proof.
  intros Hj H. pose proof (bpow_gt_0 radix2 j) as P.
  assert (N0 : B2R x <> 0) by (intros E; rewrite E, Rabs_R0 in H; lra).
  pose proof (generic_format_B2R 53 1024 x) as G. change (SpecFloat.fexp 53 1024) with (FLT_exp (-1074) 53) in G.
  assert (M : (j + 1 <= mag radix2 (B2R x))%Z) by (apply mag_ge_bpow; replace (j + 1 - 1)%Z with j by lia; exact H). unfold generic_format, F2R in G. cbn [Fnum Fexp] in G.
  set (m := Ztrunc _) in G. set (e := cexp radix2 (FLT_exp (-1074) 53) (B2R x)) in G.
  assert (E : (j - 52 <= e)%Z) by (unfold e, cexp, FLT_exp; lia).
  exists (m * 2 ^ (e - (j - 52)))%Z. rewrite G at 1. rewrite mult_IZR, Rmult_assoc. f_equal.
  change (IZR (2 ^ (e - (j - 52)))) with (IZR (radix2 ^ (e - (j - 52)))). rewrite IZR_Zpower by lia. rewrite <- bpow_plus. f_equal. lia.
Qed.
Lemma grid4 (x : f64) : 4 <= Rabs (B2R x) -> exists k : Z, B2R x = IZR k * / 1125899906842624.
Proof. intros H. destruct (grid x 2 ltac:(lia) H) as (k & E). exists k. exact E. Qed.
Lemma grid2 (x : f64) : 2 <= Rabs (B2R x) -> exists k : Z, B2R x = IZR k * / 2251799813685248.
Proof. intros H. destruct (grid x 1 ltac:(lia) H) as (k & E). exists k. exact E. Qed.

Lemma IZR_lt_1 a b : IZR a < IZR b -> IZR a + 1 <= IZR b.
Proof. intros H. apply lt_IZR in H. rewrite <- plus_IZR. apply IZR_le. lia. Qed.

(* roundings at the sizes that occur *)
Lemma half2 z r : result z r -> Rabs r <= 4 -> finite z /\ B2R z = rnd r /\ - ulp1 <= B2R z - r <= ulp1.
Proof. intros H B. destruct (result_half z r 2 ltac:(lia) H B) as (F & V & E). change (pow2 (2 - 54)) with ulp1 in E. split; auto. split; auto. apply Rabs_le_inv, E. Qed.
Lemma half3 z r : result z r -> Rabs r <= 8 -> finite z /\ B2R z = rnd r /\ - (2 * ulp1) <= B2R z - r <= 2 * ulp1.
Proof. intros H B. destruct (result_half z r 3 ltac:(lia) H B) as (F & V & E). change (pow2 (3 - 54)) with (/ 2251799813685248) in E. split; auto. split; auto. apply Rabs_le_inv in E. lra. Qed.
Lemma half4 z r : result z r -> Rabs r <= 16 -> finite z /\ B2R z = rnd r /\ - (4 * ulp1) <= B2R z - r <= 4 * ulp1.
Proof. intros H B. destruct (result_half z r 4 ltac:(lia) H B) as (F & V & E). change (pow2 (4 - 54)) with (/ 1125899906842624) in E. split; auto. split; auto. apply Rabs_le_inv in E. lra. Qed.

(** ** Lifting *)

Lemma lift_arc (lo hi : f64) (a b : R) (p q : Z) : angle lo -> angle hi ->
  B2R lo = a - 2 * pi * IZR p -> B2R hi = b - 2 * pi * IZR q -> 0 <= b - a < 2 * pi -> (a = b -> B2R lo = B2R hi) ->
  ~ (B2R lo = - pi /\ B2R hi = pi) /\ forall t, arc lo hi t <-> exists k : Z, a <= t + 2 * pi * IZR k <= b.
Proof.
  intros [FL BL] [FH BH] EL EH D S. pose proof pi_pos as PP.
  assert (Q : IZR (q - p) = 0 \/ IZR (q - p) = 1 \/ a = b).
  { assert (X : B2R hi - B2R lo = (b - a) - 2 * pi * IZR (q - p)) by (rewrite EL, EH, minus_IZR; ring).
    destruct (Z.eq_dec (q - p) 0) as [Z0|Z0]; [left; rewrite Z0; reflexivity|].
    destruct (Z.eq_dec (q - p) 1) as [Z1|Z1]; [right; left; rewrite Z1; reflexivity|].
    right; right. destruct (Z_lt_le_dec (q - p) 0) as [L|L].
    - assert (IZR (q - p) <= -1) by (apply IZR_le; lia). nra.
    - exfalso. assert (2 <= IZR (q - p)) by (apply IZR_le; lia). nra. }
  rewrite minus_IZR in Q. split.
  { intros [E1 E2]. destruct Q as [Q|[Q|Q]]; [| |specialize (S Q); lra]; assert (E : IZR q = IZR p + 0 \/ IZR q = IZR p + 1) by lra.
    - assert (E' : IZR q = IZR p) by lra. rewrite E' in EH. lra.
    - assert (E' : IZR q = IZR p + 1) by lra. rewrite E' in EH. lra. }
  intros t. unfold arc, arc_end.
  assert (ARC : ~ (B2R lo = pi /\ B2R hi = - pi) /\ (if Rle_dec (B2R lo) (B2R hi) then B2R hi else B2R hi + 2 * pi) = b - 2 * pi * IZR p).
  { destruct (Req_EM_T a b) as [E|E].
    - specialize (S E). split; [lra|]. destruct Rle_dec; lra.
    - destruct Q as [Q|[Q|Q]]; [| |contradiction].
      + assert (E' : IZR q = IZR p) by lra. rewrite E' in EH. split; [lra|]. destruct Rle_dec; lra.
      + assert (E' : IZR q = IZR p + 1) by lra. rewrite E' in EH. split; [lra|]. destruct Rle_dec; lra. }
  destruct ARC as [NE ->]. split.
  - intros [_ (k & K)]. exists (k + p)%Z. rewrite plus_IZR. lra.
  - intros (k & K). split; [exact NE|]. exists (k - p)%Z. rewrite minus_IZR. lra.
Qed.

(** ** Length *)

(* the length of a valid arc that is not empty *)
Definition span (i : s1) : R := arc_end (B2R (slo i)) (B2R (shi i)) - B2R (slo i).
Definition sliver (i : s1) : Prop := B2R (slo i) = pi /\ B2R (shi i) = - pi + 2 * ulp1.
Definition nonempty (i : s1) : Prop := ~ (B2R (slo i) = pi /\ B2R (shi i) = - pi).

Lemma span_range i : Valid i -> nonempty i -> 0 <= span i <= 2 * pi.
Proof.
  intros (_ & _ & V1 & V2 & V3 & V4) N. pose proof pi_pos. unfold span, arc_end, nonempty in *. destruct Rle_dec; lra.
Qed.

Lemma len_spec i : Valid i -> nonempty i -> 
  (sliver i /\ B2R (s1_len i) = -1 /\ finite (s1_len i)) \/
  (finite (s1_len i) /\ 0 <= B2R (s1_len i) /\ - (3 * ulp1) <= B2R (s1_len i) - span i <= 3 * ulp1 /\
   (B2R (slo i) <= B2R (shi i) -> B2R (s1_len i) = rnd (span i) /\ - (2 * ulp1) <= B2R (s1_len i) - span i <= 2 * ulp1)).
Proof.
  intros (FL & FH & V1 & V2 & V3 & V4) N. pose proof pi_bounds as PB. pose proof pi_num as PN. unfold nonempty in N.
  set (lo := B2R (slo i)) in *. set (hi := B2R (shi i)) in *.
  pose proof (fsub_result _ _ FH FL) as R. fold lo hi in R.
  destruct (half3 _ _ R) as (F & V & E); [apply Rabs_le; lra|]. destruct f0_val as [F0 V0].
  assert (LEN : s1_len i = if fge (fsub (shi i) (slo i)) f0 then fsub (shi i) (slo i) else
     if fgt (fadd (fsub (shi i) (slo i)) TWOPI) f0 then fadd (fsub (shi i) (slo i)) TWOPI else lit (-1) 0) by reflexivity.
  rewrite LEN. clear LEN. unfold fge. set (d := fsub (shi i) (slo i)) in *.
  destruct (fle_R f0 d F0 F) as [L|L]; rewrite V0 in L.
  - right. assert (LH : lo <= hi).
    { destruct (Rle_dec lo hi); auto. exfalso. assert (hi - lo < 0) by lra.
      assert (rnd (hi - lo) <> 0).
      { intros Q. unfold lo, hi in *. apply Rnot_le_lt in n.
        destruct (Req_dec (B2R (shi i) - B2R (slo i)) 0) as [Q0|Q0]; [lra|].
        revert Q. assert (VE : Valid_exp (FLT_exp (-1074) 53)) by (apply FLT_exp_valid; reflexivity). apply round_plus_neq_0; auto with typeclass_instances; try apply (generic_format_B2R 53 1024).
        apply generic_format_opp, (generic_format_B2R 53 1024). }
      assert (rnd (hi - lo) <= 0) by (apply (rnd_upper f0); [reflexivity|lra]). lra. }
    assert (SP : span i = hi - lo) by (unfold span, arc_end; fold lo hi; destruct Rle_dec; [reflexivity|contradiction]).
    rewrite SP. split; [exact F|]. split; [lra|]. split; [lra|]. intros _. split; [exact V|lra].
  - assert (LH : hi < lo).
    { destruct (Rlt_dec hi lo); auto. exfalso. apply L. rewrite V. apply (rnd_lower f0); [reflexivity|lra]. }
    assert (SP : span i = hi - lo + 2 * pi) by (unfold span, arc_end; fold lo hi; destruct Rle_dec; [lra|ring]).
    destruct TWOPI_val as [FT VT]. pose proof (fadd_result _ _ F FT) as R2. rewrite VT in R2. set (c := fadd d TWOPI) in *.
    destruct (Rle_dec (-4) (hi - lo)) as [C|C].
    + destruct (half2 _ _ R) as (_ & _ & E'); [apply Rabs_le; lra|]. destruct (half3 _ _ R2) as (F2 & V2' & E2); [apply Rabs_le; lra|].
      right. unfold fgt. destruct (flt_R f0 c F0 F2) as [G|G]; rewrite V0 in G; [|exfalso; apply G; lra].
      rewrite SP. split; [exact F2|]. split; [lra|]. split; [lra|]. intros; lra.
    + assert (D4 : B2R d <= -4).
      { destruct (of_int_val 4 ltac:(lia)) as [F4 V4']. rewrite V. replace (-4) with (- 4) by lra. assert (H : - rnd (hi - lo) = rnd (lo - hi)) by (rewrite <- rnd_opp; f_equal; ring).
        assert (4 <= rnd (lo - hi)) by (apply (rnd_lower (of_int 4)); [exact V4'|lra]). lra. }
      destruct (grid4 d) as (k & K); [rewrite Rabs_left1; lra|].
      assert (TP : 2 * pi = IZR 7074237752028440 * / 1125899906842624) by (rewrite PN; lra).
      destruct (result_format _ _ (k + 7074237752028440) (-50) R2) as [F2 V2'].
      { assert (-8 <= B2R d) by lra. assert (A1 : -9007199254740992 <= IZR k <= 0) by (rewrite K in *; lra). destruct A1 as [A1 A2]. apply le_IZR in A1, A2. lia. }
      { lia. }
      { rewrite K, TP, plus_IZR. change (bpow radix2 (-50)) with (/ 1125899906842624). ring. }
      unfold fgt. destruct (flt_R f0 c F0 F2) as [G|G]; rewrite V0 in G.
      * right. rewrite SP. split; [exact F2|]. split; [lra|]. split; [lra|]. intros; lra.
      * left. assert (D2 : B2R d <= - (2 * pi)) by lra.
        assert (HI : - pi < hi <= - pi + 2 * ulp1) by (split; [destruct (Req_dec hi (- pi)) as [Q|Q]; [specialize (V4 Q); lra|lra]|lra]).
        destruct (grid2 (shi i)) as (j & J); [fold hi; rewrite Rabs_left1; lra|]. fold hi in J.
        assert (PP : - pi = IZR (-7074237752028440) * / 2251799813685248) by (rewrite PN; lra).
        assert (J1 : IZR (-7074237752028440) < IZR j) by (rewrite J, PP in HI; lra). apply IZR_lt_1 in J1.
        assert (J2 : hi = - pi + 2 * ulp1) by (apply Rle_antisym; [lra|rewrite PP, J; lra]).
        destruct (lit_val (-1) 0 ltac:(lia) ltac:(lia)) as [F1 V1']. 
        split; [split; fold lo hi; lra|]. split; [rewrite V1'; change (bpow radix2 0) with 1; lra|exact F1].
Qed.

(** ** The new ends, brought back to [-pi, pi] *)

Definition wrap (a b : f64) : s1 :=
  let r := s1_new (fremainder a TWOPI) (fremainder b TWOPI) in
  if fle (slo r) (fneg PI64) then S1 PI64 (shi r) else r.

Lemma wrap_spec (a b : f64) (e : R) (k : Z) : finite a -> finite b -> e = B2R b + 2 * pi * IZR k ->
  0 <= e - B2R a < 2 * pi -> (B2R a = e -> B2R a = B2R b /\ - pi <= B2R a <= pi) ->
  Valid (wrap a b) /\ forall t, Arc (wrap a b) t <-> exists k : Z, B2R a <= t + 2 * pi * IZR k <= e.
Proof.
  intros Fa Fb He D S. pose proof pi_bounds as PB.
  destruct (rem_turn2 a Fa) as (FL & BL & (p & EL) & IL). destruct (rem_turn2 b Fb) as (FH & BH & (q & EH) & IH).
  assert (AL : angle (fremainder a TWOPI)) by (split; auto). assert (AH : angle (fremainder b TWOPI)) by (split; auto).
  destruct (lift_arc (fremainder a TWOPI) (fremainder b TWOPI) (B2R a) e p (q + k) AL AH EL) as [NF SP].
  { rewrite EH, He, plus_IZR. ring. }
  { exact D. }
  { intros Q. destruct (S Q) as [Q1 Q2]. rewrite IL, IH by lra. exact Q1. }
  pose proof (s1_new_valid _ _ AL AH) as VN. pose proof (fun t => s1_new_spec _ _ t AL AH) as SN.
  unfold wrap. set (r := s1_new (fremainder a TWOPI) (fremainder b TWOPI)) in *.
  assert (G : fle (slo r) (fneg PI64) = false).
  { destruct VN as (F1 & F2 & V1 & V2 & V3 & V4). 
    assert (FM : finite (fneg PI64)) by (vm_compute; reflexivity).
    destruct (fle_R (slo r) (fneg PI64) F1 FM) as [Q|Q]; [|reflexivity]. exfalso. rewrite mpi_val in Q.
    assert (Q' : B2R (slo r) = - pi) by lra. revert Q'. unfold r, s1_new. cbn [slo]. pose proof PI64_finite as FP.
    destruct (feq_R (fremainder a TWOPI) (fneg PI64) FL FM) as [X|X]; rewrite mpi_val in X; cbn [andb].
    - unfold fne. destruct (feq_R (fremainder b TWOPI) PI64 FH FP) as [Y|Y]; rewrite pi_val in Y; cbn [negb].
      + exfalso. apply NF. auto.
      + rewrite pi_val. lra.
    - intros Q'. apply X, Q'. }
  rewrite G. split; [exact VN|]. intros t. rewrite SN. apply SP.
Qed.

Lemma expanded_eq i m : s1_expanded i m =
  if fge m f0 then
    if s1_is_empty i then i
    else if fge (fadd (fadd (s1_len i) (fmul f2 m)) (fmul f2 DBL_EPSILON)) TWOPI then s1_FULL
    else wrap (fsub (slo i) m) (fadd (shi i) m)
  else
    if s1_is_full i then i
    else if fle (fsub (fadd (s1_len i) (fmul f2 m)) (fmul f2 DBL_EPSILON)) f0 then s1_EMPTY
    else wrap (fsub (slo i) m) (fadd (shi i) m).
Proof. reflexivity. Qed.

Lemma E2_val : finite (fmul f2 DBL_EPSILON) /\ B2R (fmul f2 DBL_EPSILON) = 2 * ulp1.
Proof.
  split; [vm_compute; reflexivity|]. 
  assert (V : B2R (fmul f2 DBL_EPSILON) = IZR 1 * pow2 (-51)) by constval constr:(1%Z) constr:((-51)%Z).
  rewrite V. change (pow2 (-51)) with (/ 2251799813685248). lra.
Qed.

Lemma is_empty_R i : Valid i -> s1_is_empty i = true <-> ~ nonempty i.
Proof.
  intros (FL & FH & _). unfold s1_is_empty, s1_eq, nonempty, s1_EMPTY. cbn [slo shi].
  assert (FM : finite (fneg PI64)) by (vm_compute; reflexivity). pose proof PI64_finite as FP.
  destruct (feq_R (slo i) PI64 FL FP) as [A|A], (feq_R (shi i) (fneg PI64) FH FM) as [B|B]; rewrite ?mpi_val, ?pi_val in *; cbn [andb]; split; intros H; try discriminate; try tauto; exfalso; apply H; tauto.
Qed.

(* twice the margin is exact unless it overflows *)
Lemma twice_val m : finite m -> Rabs (B2R m) <= 4 -> finite (fmul f2 m) /\ B2R (fmul f2 m) = 2 * B2R m.
Proof.
  intros F B. destruct f2_val' as [F2 V2]. pose proof (fmul_result _ _ F2 F) as R. rewrite V2 in R.
  destruct (half3 _ _ R) as (FR & VR & _). { rewrite Rabs_mult, (Rabs_pos_eq 2) by lra. lra. }
  split; [exact FR|]. rewrite VR. pose proof (rnd_scale m 1 ltac:(lia)) as Q. change (pow2 1) with 2 in Q. rewrite (Rmult_comm 2), Q. reflexivity.
Qed.

(* the sum that decides whether the expanded interval is full *)
Lemma full_gap (c1 : R) (c2 c3 : f64) (M : R) : B2R c2 = rnd (c1 + M) -> 0 <= c1 + M -> B2R c3 = rnd (B2R c2 + 2 * ulp1) -> B2R c3 < 2 * pi -> c1 + M <= 2 * pi - 6 * ulp1.
Proof.
  intros V2 P V3 L. pose proof pi_bounds as PB. pose proof pi_num as PN.
  assert (T : rnd (2 * pi - 4 * ulp1 + 2 * ulp1) = 2 * pi).
  { destruct (lit_val 7074237752028439 (-50) ltac:(lia) ltac:(lia)) as [FA VA]. set (x := lit 7074237752028439 (-50)) in *.
    assert (VX : B2R x = 2 * pi - 4 * ulp1) by (rewrite VA, PN; change (bpow radix2 (-50)) with (/ 1125899906842624); lra).
    destruct E2_val as [FE VE]. pose proof (fadd_result _ _ FA FE) as R. rewrite VX, VE in R.
    destruct (half3 _ _ R) as (F & V & _); [apply Rabs_le; lra|]. rewrite <- V.
    destruct TWOPI_val as [FT VT]. rewrite <- VT.
    assert (Q : feq (fadd x (fmul f2 DBL_EPSILON)) TWOPI = true) by (vm_compute; reflexivity).
    destruct (feq_R _ _ F FT) as [E|_]; [exact E|discriminate]. }
  assert (C2 : B2R c2 < 2 * pi - 4 * ulp1).
  { apply Rnot_le_lt. intros H. assert (rnd (2 * pi - 4 * ulp1 + 2 * ulp1) <= rnd (B2R c2 + 2 * ulp1)) by (apply rnd_le; lra). lra. }
  assert (C2' : B2R c2 <= 2 * pi - 8 * ulp1).
  { destruct (Rle_dec 4 (B2R c2)) as [H|H]; [|lra]. destruct (grid4 c2) as (k & K); [rewrite Rabs_pos_eq; lra|].
    assert (TP : 2 * pi - 4 * ulp1 = IZR 7074237752028439 * / 1125899906842624) by (rewrite PN; lra).
    rewrite K, TP in C2. assert (J : IZR k < IZR 7074237752028439) by lra. apply IZR_lt_1 in J.
    rewrite K. replace (2 * pi - 8 * ulp1) with ((2 * pi - 4 * ulp1) - / 1125899906842624) by lra. rewrite TP. lra. }
  apply Rnot_lt_le. intros H. 
  destruct (Rle_dec (c1 + M) 8) as [U|U].
  - assert (Q : Rabs (c1 + M) <= pow2 3) by (rewrite Rabs_pos_eq by lra; exact U).
    pose proof (rnd_half _ 3 ltac:(lia) Q) as E. change (pow2 (3 - 54)) with (/ 2251799813685248) in E. apply Rabs_le_inv in E. lra.
  - destruct (of_int_val 8 ltac:(lia)) as [F8 V8]. assert (8 <= rnd (c1 + M)) by (apply (rnd_lower (of_int 8)); [exact V8|lra]). lra.
Qed.

(** ** Within a distance of an arc, along the circle *)


Lemma arc_span i t : nonempty i -> Arc i t <-> exists k : Z, B2R (slo i) <= t + 2 * pi * IZR k <= B2R (slo i) + span i.
Proof.
  intros N. unfold Arc, arc, span. split.
  - intros [_ (k & K)]. exists k. lra.
  - intros (k & K). split; [exact N|]. exists k. lra.
Qed.

Lemma within_arc i r t : nonempty i -> 0 <= span i -> 
  (within (Arc i) r t -> exists k : Z, B2R (slo i) - r <= t + 2 * pi * IZR k <= B2R (slo i) + span i + r) /\
  (0 <= r -> forall k : Z, B2R (slo i) - r <= t + 2 * pi * IZR k <= B2R (slo i) + span i + r -> within (Arc i) r t).
Proof.
  intros N S. split.
  - intros (s & A & k & K). apply arc_span in A; [|exact N]. destruct A as (j & J). apply Rabs_le_inv in K. exists (k + j)%Z. rewrite plus_IZR. lra.
  - intros P k K. set (u := t + 2 * pi * IZR k) in *. set (l := B2R (slo i)) in *.
    assert (Q : forall s, l <= s <= l + span i -> Rabs (u - s) <= r -> within (Arc i) r t).
    { intros s Hs Hd. exists s. split; [apply arc_span; [exact N|exists 0%Z; fold l; lra]|exists k; exact Hd]. }
    destruct (Rle_dec l u) as [A|A]; [destruct (Rle_dec u (l + span i)) as [B|B]|].
    + apply (Q u); [lra|]. rewrite Rminus_eq_0, Rabs_R0. exact P.
    + apply (Q (l + span i)); [lra|]. apply Rabs_le. lra.
    + apply (Q l); [lra|]. apply Rabs_le. lra.
Qed.

(* once the margins meet behind, every angle is within reach *)
Lemma within_all i r t : nonempty i -> 0 <= span i -> 0 <= r -> 2 * pi <= span i + 2 * r -> within (Arc i) r t.
Proof.
  intros N S P H. pose proof pi_bounds. set (c := B2R (slo i) + span i / 2). destruct (reduce (t - c)) as (k & K).
  apply (proj2 (within_arc i r t N S) P k). unfold c in K. lra.
Qed.

Lemma Arc_FULL t : Arc s1_FULL t.
Proof.
  pose proof pi_bounds. unfold Arc, arc, arc_end, s1_FULL. cbn [slo shi]. rewrite mpi_val, pi_val. split; [lra|].
  destruct (reduce t) as (k & K). exists k. destruct Rle_dec; lra.
Qed.

(* sums with an overflowing margin *)
Lemma big_margin c m : finite c -> -1 <= B2R c <= 8 -> finite m -> 4 < B2R m ->
  fge (fadd (fadd c (fmul f2 m)) (fmul f2 DBL_EPSILON)) TWOPI = true.
Proof.
  intros Fc Bc Fm Lm. pose proof pi_bounds as PB. destruct f2_val' as [F2 V2]. destruct E2_val as [FE VE]. destruct TWOPI_val as [FT VT].
  assert (INF : forall x : f64, x = B754_infinity false -> fge x TWOPI = true) by (intros x ->; vm_compute; reflexivity).
  assert (INF2 : forall x : f64, x = B754_infinity false -> fadd x (fmul f2 DBL_EPSILON) = B754_infinity false) by (intros x ->; vm_compute; reflexivity).
  assert (INFC : fadd c (B754_infinity false) = B754_infinity false) by (destruct c; try discriminate Fc; reflexivity).
  destruct (of_int_val 8 ltac:(lia)) as [F8 V8]. destruct (of_int_val 7 ltac:(lia)) as [F7 V7].
  pose proof (fmul_result _ _ F2 Fm) as R1. rewrite V2 in R1. destruct R1 as [(FR1 & VR1 & _)|(s & E & _ & Hs)].
  2:{ destruct s; [lra|]. rewrite E, INFC. apply INF, INF2. reflexivity. }
  assert (G1 : 8 <= B2R (fmul f2 m)) by (rewrite VR1; apply (rnd_lower (of_int 8)); [exact V8|lra]).
  pose proof (fadd_result _ _ Fc FR1) as R2. destruct R2 as [(FR2 & VR2 & _)|(s & E & _ & Hs)].
  2:{ destruct s; [lra|]. rewrite E. apply INF, INF2. reflexivity. }
  assert (G2 : 7 <= B2R (fadd c (fmul f2 m))) by (rewrite VR2; apply (rnd_lower (of_int 7)); [exact V7|lra]).
  pose proof (fadd_result _ _ FR2 FE) as R3. rewrite VE in R3. destruct R3 as [(FR3 & VR3 & _)|(s & E & _ & Hs)].
  2:{ destruct s; [lra|]. rewrite E. apply INF. reflexivity. }
  unfold fge. destruct (fle_R _ _ FT FR3) as [Q|Q]; [reflexivity|]. exfalso. apply Q. rewrite VT, VR3.
  apply Rle_trans with 7; [lra|]. apply (rnd_lower (of_int 7)); [exact V7|lra].
Qed.

Lemma expand_gen i m : angle (slo i) -> angle (shi i) -> nonempty i -> s1_is_empty i = false -> 0 <= span i <= 2 * pi ->
  finite (s1_len i) -> 0 <= B2R (s1_len i) -> - (3 * ulp1) <= B2R (s1_len i) - span i <= 3 * ulp1 ->
  (B2R (slo i) <= B2R (shi i) -> B2R (s1_len i) = rnd (span i) /\ - (2 * ulp1) <= B2R (s1_len i) - span i <= 2 * ulp1) ->
  (B2R (shi i) < B2R (slo i) -> B2R (slo i) < B2R (shi i) + 2 * pi) ->
  finite m -> 0 <= B2R m ->
  let j := s1_expanded i m in
  Valid j /\ subset (Arc i) (Arc j) /\
  (forall t, within (Arc i) (B2R m - 2 * ulp1) t -> Arc j t) /\ (forall t, Arc j t -> within (Arc i) (B2R m + 8 * ulp1) t).
Proof.
  intros [FL V1] [FH V2] N GE SR FC PC EC EC' INV Fm Pm j. pose proof pi_bounds as PB.
  set (L := span i) in *. set (c1 := s1_len i) in *. set (M := B2R m) in *.
  assert (ALL : forall x, j = s1_FULL -> 2 * pi <= L + 2 * (M + x) -> 0 <= M + x ->
    Valid j /\ subset (Arc i) (Arc j) /\ (forall t, within (Arc i) (M - 2 * ulp1) t -> Arc j t) /\ (forall t, Arc j t -> within (Arc i) (M + x) t)).
  { intros x -> HF HX. split; [exact FULL_valid|]. split; [intros t _; apply Arc_FULL|]. split; [intros t _; apply Arc_FULL|].
    intros t _. apply within_all; auto; fold L; lra. }
  unfold j in *. rewrite expanded_eq in *. destruct f0_val as [F0 V0].
  assert (G0 : fge m f0 = true) by (unfold fge; destruct (fle_R f0 m F0 Fm) as [|X]; [reflexivity|exfalso; apply X; rewrite V0; exact Pm]).
  rewrite G0, GE in *. destruct E2_val as [FE VE]. destruct TWOPI_val as [FT VT]. fold c1 in ALL |- *.
  destruct (Rle_dec M 4) as [M4|M4].
  2:{ rewrite (big_margin c1 m FC ltac:(lra) Fm ltac:(fold M; lra)) in *. apply ALL; [reflexivity|lra|lra]. }
  destruct (twice_val m Fm) as [F2m V2m]; [fold M; rewrite Rabs_pos_eq; lra|]. fold M in V2m.
  pose proof (fadd_result _ _ FC F2m) as R2. rewrite V2m in R2. destruct (half4 _ _ R2) as (FC2 & VC2 & EC2); [apply Rabs_le; lra|].
  set (c2 := fadd c1 (fmul f2 m)) in *.
  pose proof (fadd_result _ _ FC2 FE) as R3. rewrite VE in R3. destruct (half4 _ _ R3) as (FC3 & VC3 & EC3); [apply Rabs_le; lra|].
  set (c3 := fadd c2 (fmul f2 DBL_EPSILON)) in *.
  unfold fge in ALL |- *. destruct (fle_R TWOPI c3 FT FC3) as [G|G]; rewrite VT in G.
  { apply ALL; [reflexivity|lra|lra]. }
  clear ALL. apply Rnot_le_lt in G.
  pose proof (full_gap (B2R c1) c2 c3 (2 * M) VC2 ltac:(lra) VC3 G) as GAP. clear G EC2 EC3 VC2 VC3 R2 R3.
  pose proof (fsub_result _ _ FL Fm) as RA. pose proof (fadd_result _ _ FH Fm) as RB. fold M in RA, RB.
  set (a := fsub (slo i) m) in *. set (b := fadd (shi i) m) in *. set (lo := B2R (slo i)) in *. set (hi := B2R (shi i)) in *.
  assert (UA : finite a /\ B2R a <= lo /\ lo - M - 2 * ulp1 <= B2R a <= lo - M + 2 * ulp1).
  { destruct (half3 _ _ RA) as (FA & VA & EA); [apply Rabs_le; lra|]. split; [exact FA|]. split; [|lra]. rewrite VA. apply (rnd_upper (slo i)); [reflexivity|lra]. }
  assert (UB : finite b /\ hi <= B2R b /\ hi + M - 2 * ulp1 <= B2R b <= hi + M + 2 * ulp1).
  { destruct (half3 _ _ RB) as (FB & VB & EB); [apply Rabs_le; lra|]. split; [exact FB|]. split; [|lra]. rewrite VB. apply (rnd_lower (shi i)); [reflexivity|lra]. }
  destruct UA as (FA & LA & EA). destruct UB as (FB & LB & EB).
  assert (KEY : exists k : Z, lo + L = hi + 2 * pi * IZR k /\ B2R b + 2 * pi * IZR k - B2R a < 2 * pi /\ (B2R a = B2R b + 2 * pi * IZR k -> B2R a = B2R b /\ - pi <= B2R a <= pi)).
  { destruct (Rle_dec lo hi) as [C|C].
    - exists 0%Z. assert (EL : L = hi - lo) by (unfold L, span, arc_end; fold lo hi; destruct Rle_dec; [reflexivity|contradiction]).
      specialize (EC' C). split; [lra|]. split; [|intros; split; lra].
      destruct (Rle_dec (-4) (lo - M)) as [A4|A4]; [destruct (Rle_dec (hi + M) 4) as [B4|B4]|].
      + destruct (half2 _ _ RA) as (_ & _ & EA'); [apply Rabs_le; lra|]. destruct (half2 _ _ RB) as (_ & _ & EB'); [apply Rabs_le; lra|]. lra.
      + destruct (half2 _ _ RA) as (_ & _ & EA'); [apply Rabs_le; lra|]. lra.
      + destruct (half2 _ _ RB) as (_ & _ & EB'); [apply Rabs_le; lra|]. lra.
    - exists 1%Z. assert (EL : L = hi + 2 * pi - lo) by (unfold L, span, arc_end; fold lo hi; destruct Rle_dec; [contradiction|reflexivity]).
      assert (LH : lo < hi + 2 * pi) by (apply INV; lra).
      split; [lra|]. split; [|intros; lra].
      destruct (half2 _ _ RA) as (_ & _ & EA'); [apply Rabs_le; lra|]. destruct (half2 _ _ RB) as (_ & _ & EB'); [apply Rabs_le; lra|]. lra. }
  destruct KEY as (k & EK & DK & SK).
  destruct (wrap_spec a b (B2R b + 2 * pi * IZR k) k FA FB eq_refl ltac:(lra) SK) as [VW SW].
  split; [exact VW|]. split; [|split].
  - intros t H. apply arc_span in H; [|exact N]. fold lo L in H. destruct H as (n & H). apply SW. exists n. lra.
  - intros t H. apply within_arc in H; [|exact N|fold L; lra]. fold lo L in H. destruct H as (n & H). apply SW. exists n. lra.
  - intros t H. apply SW in H. destruct H as (n & H). apply (proj2 (within_arc i (M + 8 * ulp1) t N ltac:(fold L; lra)) ltac:(lra) n). fold lo L. lra.
Qed.

Lemma expand_pos i m : Valid i -> nonempty i -> ~ sliver i -> finite m -> 0 <= B2R m ->
  let j := s1_expanded i m in
  Valid j /\ subset (Arc i) (Arc j) /\
  (forall t, within (Arc i) (B2R m - 2 * ulp1) t -> Arc j t) /\ (forall t, Arc j t -> within (Arc i) (B2R m + 8 * ulp1) t).
Proof.
  intros V N NS Fm Pm. pose proof (span_range i V N) as SR. destruct (len_spec i V N) as [(S & _)|(FC & PC & EC & EC')]; [contradiction|].
  assert (GE : s1_is_empty i = false) by (destruct (s1_is_empty i) eqn:E; auto; apply (is_empty_R i V) in E; contradiction).
  destruct V as (FL & FH & V1 & V2 & V3 & V4). apply expand_gen; auto; try (split; auto; fail).
  intros Q. unfold nonempty in N. destruct (Req_dec (B2R (shi i)) (- pi)) as [E|E]; [exfalso; apply N; auto|lra].
Qed.

(** A point, also the one at -pi. *)
Lemma expand_point p m : angle p -> finite m -> 0 <= B2R m ->
  let j := s1_expanded (S1 p p) m in
  Valid j /\ Arc j (B2R p) /\
  (forall t, (exists k : Z, Rabs (t + 2 * pi * IZR k - B2R p) <= B2R m - 2 * ulp1) -> Arc j t) /\
  (forall t, Arc j t -> exists k : Z, Rabs (t + 2 * pi * IZR k - B2R p) <= B2R m + 8 * ulp1).
Proof.
  intros A Fm Pm. pose proof pi_bounds as PB. destruct A as [F B]. set (i := S1 p p).
  assert (N : nonempty i) by (unfold nonempty, i; cbn [slo shi]; lra).
  assert (S0 : span i = 0) by (unfold span, arc_end, i; cbn [slo shi]; destruct Rle_dec; lra).
  assert (L0 : finite (s1_len i) /\ B2R (s1_len i) = 0).
  { pose proof (fsub_result p p F F) as R. destruct (result_exact _ _ f0 R) as [FD VD]; [change (B2R f0) with 0; lra|].
    change (s1_len i) with (if fge (fsub p p) f0 then fsub p p else if fgt (fadd (fsub p p) TWOPI) f0 then fadd (fsub p p) TWOPI else lit (-1) 0).
    destruct f0_val as [F0 V0]. unfold fge. destruct (fle_R f0 _ F0 FD) as [Q|Q]; [|exfalso; apply Q; rewrite VD; lra]. split; [exact FD|]. rewrite VD. ring. }
  assert (GE : s1_is_empty i = false).
  { unfold s1_is_empty, s1_eq, s1_EMPTY, i. cbn [slo shi]. assert (FN : finite (fneg PI64)) by (vm_compute; reflexivity).
    destruct (feq_R p PI64 F PI64_finite) as [Q|_]; [|reflexivity]. destruct (feq_R p (fneg PI64) F FN) as [Q'|_]; [|reflexivity]. rewrite pi_val in Q. rewrite mpi_val in Q'. lra. }
  assert (HP : forall s, Arc i s -> exists k : Z, s + 2 * pi * IZR k = B2R p).
  { intros s H. apply arc_span in H; [|exact N]. destruct H as (k & K). exists k. rewrite S0 in K. cbn [i slo] in K. lra. }
  assert (IP : Arc i (B2R p)) by (apply arc_span; [exact N|]; exists 0%Z; rewrite S0; cbn [i slo]; lra).
  assert (U : 0 < ulp1) by lra.
  destruct L0 as [FL0 VL0].
  assert (AL : angle (slo i)) by (split; [exact F|exact B]). assert (AH : angle (shi i)) by (split; [exact F|exact B]).
  assert (X1 : 0 <= span i <= 2 * pi) by lra. assert (X2 : 0 <= B2R (s1_len i)) by lra. assert (X3 : - (3 * ulp1) <= B2R (s1_len i) - span i <= 3 * ulp1) by lra.
  assert (X4 : B2R (slo i) <= B2R (shi i) -> B2R (s1_len i) = rnd (span i) /\ - (2 * ulp1) <= B2R (s1_len i) - span i <= 2 * ulp1).
  { intros _. rewrite S0, rnd_0, VL0. lra. }
  assert (X5 : B2R (shi i) < B2R (slo i) -> B2R (slo i) < B2R (shi i) + 2 * pi) by (cbn [i slo shi]; lra).
  destruct (expand_gen i m AL AH N GE X1 FL0 X2 X3 X4 X5 Fm Pm) as (V & S & W1 & W2).
  split; [exact V|]. split; [apply S, IP|]. split.
  - intros t (k & K). apply W1. exists (B2R p). split; [exact IP|]. exists k. exact K.
  - intros t H. destruct (W2 t H) as (s & Hs & k & K). destruct (HP s Hs) as (n & E). exists (k + n)%Z. rewrite plus_IZR.
      replace (t + 2 * pi * (IZR k + IZR n) - B2R p) with (t + 2 * pi * IZR k - s) by lra. exact K.
Qed.

(** ** Negative margins *)


(* no ball wider than the arc fits in it *)
Lemma deep_narrow i r t : nonempty i -> 0 <= span i < 2 * pi -> span i < 2 * r -> deep (Arc i) r t -> False.
Proof.
  intros N S H D. set (l := B2R (slo i)).
  assert (A0 : Arc i (t - r)) by (apply D; apply Rabs_le; lra). apply arc_span in A0; [|exact N]. destruct A0 as (k & K). fold l in K.
  set (d := Rmin (2 * r - span i) (2 * pi - span i) / 2).
  assert (P : 0 < d /\ d < 2 * r - span i /\ d < 2 * pi - span i).
  { unfold d. pose proof (Rmin_l (2 * r - span i) (2 * pi - span i)). pose proof (Rmin_r (2 * r - span i) (2 * pi - span i)).
    assert (0 < Rmin (2 * r - span i) (2 * pi - span i)) by (apply Rmin_glb_lt; lra). lra. }
  set (s := l + span i + d - 2 * pi * IZR k).
  assert (A1 : Arc i s) by (apply D; unfold s; apply Rabs_le; lra). apply arc_span in A1; [|exact N]. destruct A1 as (n & A1). fold l in A1. unfold s in A1.
  assert (Q : 2 * pi * IZR (n - k) + (span i + d) >= 0 /\ 2 * pi * IZR (n - k) + (span i + d) <= span i) by (rewrite minus_IZR; lra).
  pose proof pi_bounds. destruct (Z_lt_le_dec (n - k) 0) as [L|L].
  - assert (IZR (n - k) <= -1) by (apply IZR_le; lia). nra.
  - assert (0 <= IZR (n - k)) by (apply IZR_le; lia). nra.
Qed.

Lemma big_shrink c m : finite c -> -1 <= B2R c <= 8 -> finite m -> B2R m < 0 -> B2R m < -4 \/ B2R c = -1 ->
  fle (fsub (fadd c (fmul f2 m)) (fmul f2 DBL_EPSILON)) f0 = true.
Proof.
  intros Fc Bc Fm Nm H. destruct f2_val' as [F2 V2]. destruct E2_val as [FE VE]. destruct f0_val as [F0 V0].
  assert (INF : forall x : f64, x = B754_infinity true -> fle x f0 = true) by (intros x ->; vm_compute; reflexivity).
  assert (INF2 : forall x : f64, x = B754_infinity true -> fsub x (fmul f2 DBL_EPSILON) = B754_infinity true) by (intros x ->; vm_compute; reflexivity).
  assert (INFC : fadd c (B754_infinity true) = B754_infinity true) by (destruct c; try discriminate Fc; reflexivity).
  destruct (of_int_val (-8) ltac:(lia)) as [F8 V8].
  pose proof (fmul_result _ _ F2 Fm) as R1. rewrite V2 in R1. destruct R1 as [(FR1 & VR1 & _)|(s & E & _ & Hs)].
  2:{ destruct s; [|lra]. rewrite E, INFC. apply INF, INF2. reflexivity. }
  assert (G1 : B2R c + B2R (fmul f2 m) <= 0).
  { destruct H as [H|H].
    - assert (B2R (fmul f2 m) <= -8) by (rewrite VR1; apply (rnd_upper (of_int (-8))); [exact V8|lra]). lra.
    - assert (B2R (fmul f2 m) <= 0) by (rewrite VR1; apply (rnd_upper f0); [reflexivity|lra]). lra. }
  pose proof (fadd_result _ _ Fc FR1) as R2. destruct R2 as [(FR2 & VR2 & _)|(s & E & Hb & Hs)].
  2:{ destruct s; [rewrite E; apply INF, INF2; reflexivity|]. exfalso. assert (Q : B2R c + B2R (fmul f2 m) = 0) by lra. rewrite Q, rnd_0, Rabs_R0 in Hb. pose proof (bpow_gt_0 radix2 1024). lra. }
  assert (G2 : B2R (fadd c (fmul f2 m)) <= 0) by (rewrite VR2; apply (rnd_upper f0); [reflexivity|lra]).
  pose proof (fsub_result _ _ FR2 FE) as R3. rewrite VE in R3. destruct R3 as [(FR3 & VR3 & _)|(s & E & _ & Hs)].
  2:{ destruct s; [|lra]. rewrite E. apply INF. reflexivity. }
  destruct (fle_R _ _ FR3 F0) as [Q|Q]; [reflexivity|]. exfalso. apply Q. rewrite V0, VR3. apply (rnd_upper f0); [reflexivity|lra].
Qed.

Lemma Arc_EMPTY t : ~ Arc s1_EMPTY t.
Proof. unfold Arc, arc, s1_EMPTY. cbn [slo shi]. rewrite mpi_val, pi_val. intros [H _]. apply H. auto. Qed.

Lemma is_full_R i : Valid i -> B2R (slo i) <> - pi -> s1_is_full i = false.
Proof.
  intros (FL & FH & _) N. unfold s1_is_full, s1_eq, s1_FULL. cbn [slo shi].
  assert (FM : finite (fneg PI64)) by (vm_compute; reflexivity).
  destruct (feq_R (slo i) (fneg PI64) FL FM) as [A|A]; rewrite ?mpi_val in *; [contradiction|reflexivity].
Qed.

Lemma fge_neg m : finite m -> B2R m < 0 -> fge m f0 = false.
Proof. intros F H. destruct f0_val as [F0 V0]. unfold fge. destruct (fle_R f0 m F0 F) as [L|L]; [rewrite V0 in L; lra|reflexivity]. Qed.

Lemma shrink_neg i m : Valid i -> nonempty i -> B2R (slo i) <> - pi -> finite m -> B2R m < 0 ->
  (B2R (slo i) <= B2R (shi i) \/ 4 * ulp1 < Rabs (span i + 2 * B2R m)) ->
  let j := s1_expanded i m in
  Valid j /\ subset (Arc j) (Arc i) /\
  (forall t, deep (Arc i) (- B2R m + 8 * ulp1) t -> Arc j t) /\ (forall t, Arc j t -> deep (Arc i) (- B2R m - 2 * ulp1) t).
Proof.
  intros V N NF Fm Nm GAP j. pose proof pi_bounds as PB. pose proof (span_range i V N) as SR.
  assert (S2 : span i < 2 * pi).
  { destruct V as (FL & FH & V1 & V2 & V3 & V4). unfold span, arc_end, nonempty in *. destruct Rle_dec; lra. }
  set (M := B2R m) in *.
  assert (EMP : j = s1_EMPTY -> span i < 2 * (- M + 8 * ulp1) ->
    Valid j /\ subset (Arc j) (Arc i) /\ (forall t, deep (Arc i) (- M + 8 * ulp1) t -> Arc j t) /\ (forall t, Arc j t -> deep (Arc i) (- M - 2 * ulp1) t)).
  { intros -> H. split; [exact EMPTY_valid|]. split; [intros t A; destruct (Arc_EMPTY t A)|]. split; [|intros t A; destruct (Arc_EMPTY t A)].
    intros t D. exfalso. apply (deep_narrow i _ t N) in D; auto. lra. }
  unfold j in *. rewrite expanded_eq in *. rewrite (fge_neg m Fm Nm), (is_full_R i V NF) in *.
  destruct (len_spec i V N) as [((S1 & S1') & C1 & FC)|(FC & PC & EC & EC')].
  { rewrite (big_shrink (s1_len i) m FC ltac:(lra) Fm Nm ltac:(auto)) in *. apply EMP; [reflexivity|].
    unfold span, arc_end. destruct Rle_dec; lra. }
  set (L := span i) in *. set (c1 := s1_len i) in *.
  destruct (Rlt_dec M (-4)) as [M4|M4].
  { rewrite (big_shrink c1 m FC ltac:(lra) Fm Nm ltac:(auto)) in *. apply EMP; [reflexivity|]. lra. }
  apply Rnot_lt_le in M4. destruct E2_val as [FE VE]. destruct f0_val as [F0 V0].
  destruct (twice_val m Fm) as [F2m V2m]; [fold M; rewrite Rabs_left1; lra|]. fold M in V2m.
  pose proof (fadd_result _ _ FC F2m) as R2. rewrite V2m in R2. destruct (half3 _ _ R2) as (FC2 & VC2 & EC2); [apply Rabs_le; lra|].
  set (c2 := fadd c1 (fmul f2 m)) in *.
  pose proof (fsub_result _ _ FC2 FE) as R3. rewrite VE in R3. destruct (half4 _ _ R3) as (FC3 & VC3 & EC3); [apply Rabs_le; lra|].
  set (c3 := fsub c2 (fmul f2 DBL_EPSILON)) in *.
  destruct (fle_R c3 f0 FC3 F0) as [G|G]; rewrite V0 in G.
  { apply EMP; [reflexivity|lra]. }
  clear EMP. apply Rnot_le_lt in G.
  assert (G2 : 2 * ulp1 < B2R c2).
  { apply Rnot_le_lt. intros H. assert (rnd (B2R c2 - 2 * ulp1) <= 0) by (apply (rnd_upper f0); [reflexivity|lra]). lra. }
  assert (G1 : 2 * ulp1 < B2R c1 + 2 * M).
  { apply Rnot_le_lt. intros H. assert (rnd (B2R c1 + 2 * M) <= 2 * ulp1) by (apply (rnd_upper (fmul f2 DBL_EPSILON)); [exact VE|lra]). lra. }
  clear EC2 EC3 VC3 R3.
  destruct V as (FL & FH & V1 & V2 & V3 & V4).
  pose proof (fsub_result _ _ FL Fm) as RA. pose proof (fadd_result _ _ FH Fm) as RB. fold M in RA, RB.
  set (a := fsub (slo i) m) in *. set (b := fadd (shi i) m) in *. set (lo := B2R (slo i)) in *. set (hi := B2R (shi i)) in *.
  destruct (half3 _ _ RA) as (FA & VA & EA); [apply Rabs_le; lra|]. destruct (half3 _ _ RB) as (FB & VB & EB); [apply Rabs_le; lra|].
  assert (LA : lo <= B2R a) by (rewrite VA; apply (rnd_lower (slo i)); [reflexivity|lra]).
  assert (LB : B2R b <= hi) by (rewrite VB; apply (rnd_upper (shi i)); [reflexivity|lra]).
  assert (KEY : exists k : Z, lo + L = hi + 2 * pi * IZR k /\ 0 <= B2R b + 2 * pi * IZR k - B2R a /\ (B2R a = B2R b + 2 * pi * IZR k -> B2R a = B2R b /\ - pi <= B2R a <= pi)).
  { destruct (Rle_dec lo hi) as [C|C].
    - exists 0%Z. assert (EL : L = hi - lo) by (unfold L, span, arc_end; fold lo hi; destruct Rle_dec; [reflexivity|contradiction]).
      destruct (EC' C) as [EL' _]. split; [lra|].
      assert (AB : B2R a <= B2R b).
      { rewrite VA, VB. apply rnd_le. apply Rnot_lt_le. intros H.
        assert (rnd L <= 2 * - M).
        { destruct (fneg_val m Fm) as [Fn Vn]. fold M in Vn. destruct (twice_val (fneg m) Fn) as [F2n V2n]. { rewrite Vn, Rabs_pos_eq; lra. }
          rewrite Vn in V2n. apply (rnd_upper (fmul f2 (fneg m))); [exact V2n|lra]. }
        lra. }
      split; [lra|]. intros; split; lra.
    - exists 1%Z. assert (EL : L = hi + 2 * pi - lo) by (unfold L, span, arc_end; fold lo hi; destruct Rle_dec; [contradiction|reflexivity]).
      split; [lra|]. assert (0 < B2R b + 2 * pi * 1 - B2R a); [|split; [lra|intros; lra]].
      destruct GAP as [GAP|GAP]; [contradiction|]. assert (G3 : - ulp1 < L + 2 * M) by lra.
      assert (4 * ulp1 < L + 2 * M); [|lra]. destruct (Rle_dec 0 (L + 2 * M)) as [P|P]; [rewrite Rabs_pos_eq in GAP; lra|rewrite Rabs_left1 in GAP; lra]. }
  destruct KEY as (k & EK & DK & SK).
  destruct (wrap_spec a b (B2R b + 2 * pi * IZR k) k FA FB eq_refl ltac:(lra) SK) as [VW SW].
  split; [exact VW|]. split; [|split].
  - intros t H. apply SW in H. destruct H as (n & H). apply arc_span; [exact N|]. fold lo L. exists n. lra.
  - intros t D. apply SW. set (r := - M + 8 * ulp1) in *.
    assert (A0 : Arc i (t - r)) by (apply D; apply Rabs_le; unfold r; lra). apply arc_span in A0; [|exact N]. fold lo L in A0. destruct A0 as (n & A0).
    exists n. split; [unfold r in *; lra|]. apply Rnot_lt_le. intros H.
    (* otherwise the ball leaves the arc at its upper end *)
    set (x := Rmin (t + r + 2 * pi * IZR n) (lo + (L + 2 * pi) / 2)).
    assert (X1 : lo + L < x). { unfold x. apply Rmin_glb_lt; unfold r; lra. }
    assert (X2 : x <= t + r + 2 * pi * IZR n) by apply Rmin_l. assert (X3 : x <= lo + (L + 2 * pi) / 2) by apply Rmin_r.
    assert (A1 : Arc i (x - 2 * pi * IZR n)) by (apply D; apply Rabs_le; lra). apply arc_span in A1; [|exact N]. fold lo L in A1. destruct A1 as (p & A1).
    assert (Q : lo <= x + 2 * pi * IZR (p - n) <= lo + L) by (rewrite minus_IZR; lra).
    destruct (Z_lt_le_dec (p - n) 0) as [Z0|Z0].
    + assert (Y : IZR (p - n) <= -1) by (apply IZR_le; lia). pose proof (Rmult_le_compat_l (2 * pi) _ _ ltac:(lra) Y). lra.
    + assert (Y : 0 <= IZR (p - n)) by (apply IZR_le; lia). pose proof (Rmult_le_compat_l (2 * pi) _ _ ltac:(lra) Y). lra.
  - intros t H s D. apply SW in H. destruct H as (n & H). apply Rabs_le_inv in D. apply arc_span; [exact N|]. fold lo L. exists n. lra.
Qed.
