(** Latitude-longitude rectangles. *)
From Coq Require Import Reals Lra Psatz Classical.
From Verif Require Import F64 F64Facts IntervalSpec CircleSpec RectSpec F64Arith F64Error R1Model S1Model R1Proofs S1Proofs S1Ops PropsInterval StuvError AngleModel AngleProofs ExpandProofs CircleProofs PropsCircle RectModel.
Open Scope R_scope.

Notation zset r := (zone (lo1 (rlat r)) (hi1 (rlat r)) (slo (rlng r)) (shi (rlng r))).
Notation zint r := (zone_interior (lo1 (rlat r)) (hi1 (rlat r)) (slo (rlng r)) (shi (rlng r))).
Notation okz r := (valid_zone (lo1 (rlat r)) (hi1 (rlat r)) (slo (rlng r)) (shi (rlng r))).
Notation okp p := (valid_position (lat p) (lng p)).
Notation pos p := (lat_lng (lat p) (lng p)).

Lemma okz_lat r : okz r -> ok1 (rlat r).
Proof. intros (A & B & _). split; [apply finite_number|]; auto. Qed.
Lemma okz_lng r : okz r -> okc (rlng r).
Proof. intros (_ & _ & _ & _ & A & _). exact A. Qed.
Lemma okz_fin r x : okz r -> set1 (rlat r) x -> exists f, x = Fin f.
Proof.
  intros (A & B & _ & C & _) [D E]. rewrite (ev_fin _ A) in D. destruct x as [|f|]; [destruct D|eauto|].
  destruct (ev (hi1 (rlat r))); cbn in *; try contradiction.
Qed.
Lemma okz_fin_int r x : okz r -> int1 (rlat r) x -> exists f, x = Fin f.
Proof.
  intros (A & B & _ & C & _) [D E]. unfold elt in *. rewrite (ev_fin _ A) in D. destruct x as [|f|]; [elim D; exact I|eauto|].
  elim E. destruct (ev (hi1 (rlat r))); exact I.
Qed.
Lemma lo_in i : okc i -> ~ void (circ i) -> circ i (B2R (slo i)).
Proof.
  intros V N. apply not_void in N; auto. apply arc_span; [exact N|]. exists 0%Z. pose proof (span_range i V N). lra.
Qed.
(** An empty or not; in the latter case each side has a point. *)
Lemma okz_cases r : okz r -> (void (set1 (rlat r)) /\ void (circ (rlng r))) \/ (exists f t, set1 (rlat r) (Fin f) /\ circ (rlng r) t).
Proof.
  intros V. pose proof V as (A & B & _ & _ & C & D). destruct (classic (void (set1 (rlat r)))) as [E|E]; [left; tauto|right].
  assert (E' : ~ void (circ (rlng r))) by tauto. exists (B2R (lo1 (rlat r))), (B2R (slo (rlng r))). split; [|apply lo_in; auto].
  rewrite <- (ev_fin _ A). pose proof (okz_lat r V) as N. rewrite <- (r1_is_empty_spec (rlat r) N) in E.
  unfold r1_is_empty, fgt in E. destruct (flt_g (hi1 (rlat r)) (lo1 (rlat r)) (proj2 N) (proj1 N)) as [Q|Q]; [elim E; reflexivity|].
  apply In1_phi. unfold g in *. lra.
Qed.
Lemma zset_void r : okz r -> void (zset r) <-> void (set1 (rlat r)).
Proof.
  intros V. split; intros H.
  - destruct (okz_cases r V) as [[E _]|(f & t & F & T)]; [exact E|]. elim (H (f, t)). split; auto.
  - intros [f t] [F _]. apply (H _ F).
Qed.

Lemma half_neg : finite (fdiv (fneg PI64) f2) /\ B2R (fdiv (fneg PI64) f2) = - (pi / 2).
Proof.
  assert (F : finite (fdiv (fneg PI64) f2)) by (vm_compute; reflexivity). split; [exact F|].
  destruct mhalf_val as [FM VM]. rewrite <- VM. destruct (feq_R _ _ F FM) as [E|N]; [exact E|]. exfalso. apply N.
  assert (Q : feq (fdiv (fneg PI64) f2) (fneg FRAC_PI_2) = true) by (vm_compute; reflexivity).
  destruct (feq_R _ _ F FM) as [E|_]; [exact E|discriminate].
Qed.

Lemma rect_is_valid_spec r : rect_is_valid r = true <-> okz r.
Proof.
  destruct FRAC_PI_2_val as [FH VH]. unfold rect_is_valid, valid_zone. rewrite !andb_true_iff, Bool.eqb_true_iff, s1_is_valid_spec. split.
  - intros [[[A B] C] D]. pose proof (fle_finite_abs _ _ FH A) as FA. destruct (fle_abs_R _ _ FA FH) as [H1|]; [|discriminate]. rewrite VH in H1. apply Rabs_le_inv in H1.
    assert (NB : number (hi1 (rlat r))).
    { unfold number. destruct (is_nan (hi1 (rlat r))) eqn:Q; [|reflexivity]. rewrite fle_nan in B by auto. discriminate. }
    pose proof (r1_is_empty_spec (rlat r) (conj (finite_number _ FA) NB)) as E1. pose proof (s1_is_empty_spec _ _ C C) as E2. unfold In1 in E1. unfold Arc in E2.
    split; [exact FA|]. split; [exact NB|]. split; [lra|]. split; [|split; [exact C|]].
    + destruct (fle_g _ _ NB (finite_number _ FH)) as [Q|]; [|discriminate]. apply phi_le in Q. rewrite (ev_fin _ FH), VH in Q. exact Q.
    + rewrite <- E1, <- E2, D. reflexivity.
  - intros (FA & NB & H1 & H2 & C & D). pose proof (r1_is_empty_spec (rlat r) (conj (finite_number _ FA) NB)) as E1. pose proof (s1_is_empty_spec _ _ C C) as E2. unfold In1 in E1. unfold Arc in E2.
    split; [split; [split|]|].
    + destruct (fle_abs_R _ _ FA FH) as [|N]; [reflexivity|]. elim N. rewrite VH. apply Rabs_le. lra.
    + destruct (fle_g _ _ NB (finite_number _ FH)) as [|N]; [reflexivity|]. elim N. apply phi_le. rewrite (ev_fin _ FH), VH. exact H2.
    + exact C.
    + rewrite <- E1, <- E2 in D. destruct D as [D1 D2]. destruct r1_is_empty, s1_is_empty; try reflexivity; [discriminate (D1 eq_refl)|discriminate (D2 eq_refl)].
Qed.

(** Sides of products. *)
Lemma sub_prod r (P : ext -> Prop) (Q : R -> Prop) : okz r ->
  subset (zset r) (fun x => P (Fin (fst x)) /\ Q (snd x)) <-> subset (set1 (rlat r)) P /\ subset (circ (rlng r)) Q.
Proof.
  intros V. split.
  - intros H. destruct (okz_cases r V) as [[E1 E2]|(f & t & F & T)].
    + split; intros x X; [destruct (E1 x X)|destruct (E2 x X)].
    + split; intros x X.
      * destruct (okz_fin r x V X) as [f' ->]. apply (H (f', t)). split; auto.
      * apply (H (f, x)). split; auto.
  - intros [H1 H2] x [X Y]. split; auto.
Qed.
Lemma meet_prod (P P' : ext -> Prop) (Q Q' : R -> Prop) : (forall x, P x -> P' x -> exists f, x = Fin f) ->
  meets (fun x : position => P (Fin (fst x)) /\ Q (snd x)) (fun x => P' (Fin (fst x)) /\ Q' (snd x)) <-> meets P P' /\ meets Q Q'.
Proof.
  intros HF. split.
  - intros ([f t] & [A B] & [C D]). split; [exists (Fin f)|exists t]; auto.
  - intros [(x & A & B) (t & C & D)]. destruct (HF x A B) as [f ->]. exists (f, t). repeat split; auto; first [apply A|apply B].
Qed.

(** Arcs that are not the full circle have one start and one end. *)
Lemma span_lt i : okc i -> nonempty i -> s1_is_full i = false -> span i < 2 * pi /\ - pi < B2R (slo i).
Proof.
  intros V N F. pose proof V as (A & B & C1 & C2 & C3 & C4). pose proof pi_bounds as PB.
  assert (G : ~ (B2R (slo i) = - pi /\ B2R (shi i) = pi)).
  { intros [E1 E2]. unfold s1_is_full, s1_eq, s1_FULL in F. cbn [slo shi] in F. assert (FM : finite (fneg PI64)) by (vm_compute; reflexivity).
    destruct (feq_R _ _ A FM) as [_|X]; [|apply X; rewrite mpi_val; exact E1]. destruct (feq_R _ _ B PI64_finite) as [_|X]; [discriminate|apply X; rewrite pi_val; exact E2]. }
  unfold span, arc_end, nonempty in *. destruct Rle_dec; split; try lra.
Qed.
Lemma arc_start i o : okc i -> okc o -> nonempty i -> nonempty o -> s1_is_full i = false -> s1_is_full o = false ->
  (forall t, circ i t <-> circ o t) -> B2R (slo i) = B2R (slo o).
Proof.
  intros Vi Vo Ni No Fi Fo H. pose proof (span_lt i Vi Ni Fi) as [S L]. pose proof (span_lt o Vo No Fo) as [S' L'].
  pose proof (span_range i Vi Ni) as SR. pose proof (span_range o Vo No) as SR'. pose proof pi_bounds as PB.
  pose proof Vi as (_ & _ & [_ U] & _). pose proof Vo as (_ & _ & [_ U'] & _).
  assert (M : circ o (B2R (slo i))). { apply H. apply arc_span; [exact Ni|]. exists 0%Z. lra. }
  apply arc_span in M; [|exact No]. destruct M as (k & K1 & K2). set (a := B2R (slo i)) in *. set (b := B2R (slo o)) in *.
  destruct (Req_dec (a + 2 * pi * IZR k) b) as [E|E].
  - assert (Q : -1 < IZR k < 1) by (split; apply Rmult_lt_reg_l with (2 * pi); lra). destruct Q as [Q1 Q2]. apply lt_IZR in Q1, Q2. assert (k = 0)%Z by lia. subst k. lra.
  - exfalso. set (d := Rmin ((2 * pi - span i) / 2) (a + 2 * pi * IZR k - b)).
    assert (D : 0 < d /\ d < 2 * pi - span i /\ d <= a + 2 * pi * IZR k - b).
    { unfold d, Rmin. destruct Rle_dec; lra. }
    assert (M : circ i (a - d)). { apply H. apply arc_span; [exact No|]. exists k. fold b. lra. }
    apply arc_span in M; [|exact Ni]. destruct M as (n & N1 & N2). fold a in N1, N2.
    assert (Q : 0 < IZR n < 1) by (split; apply Rmult_lt_reg_l with (2 * pi); lra). destruct Q as [Q1 Q2]. apply lt_IZR in Q1, Q2. lia.
Qed.
Lemma arc_stop i o : okc i -> okc o -> nonempty i -> nonempty o -> s1_is_full i = false -> s1_is_full o = false ->
  (forall t, circ i t <-> circ o t) -> span i <= span o.
Proof.
  intros Vi Vo Ni No Fi Fo H. pose proof (arc_start i o Vi Vo Ni No Fi Fo H) as E.
  pose proof (span_lt i Vi Ni Fi) as [S L]. pose proof (span_lt o Vo No Fo) as [S' L'].
  pose proof (span_range i Vi Ni) as SR. pose proof (span_range o Vo No) as SR'. pose proof pi_bounds as PB.
  assert (M : circ o (B2R (slo i) + span i)). { apply H. apply arc_span; [exact Ni|]. exists 0%Z. lra. }
  apply arc_span in M; [|exact No]. destruct M as (k & K1 & K2). rewrite <- E in K1, K2. set (a := B2R (slo i)) in *.
  destruct (Rle_dec (span i) (span o)) as [Q|Q]; [exact Q|]. exfalso. apply Rnot_le_lt in Q.
  assert (X : -1 < IZR k < 0) by (split; apply Rmult_lt_reg_l with (2 * pi); lra). destruct X as [Q1 Q2]. apply lt_IZR in Q1, Q2. lia.
Qed.

Lemma s1_eq_spec i o : okc i -> okc o -> s1_eq i o = true <-> forall t, circ i t <-> circ o t.
Proof.
  intros Vi Vo. split.
  - unfold s1_eq. rewrite andb_true_iff. destruct Vi as (A & B & _), Vo as (C & D & _). destruct (feq_R _ _ A C) as [E|]; [|intros [? _]; discriminate].
    destruct (feq_R _ _ B D) as [E'|]; [|intros [_ ?]; discriminate]. intros _ t. unfold arc. rewrite E, E'. reflexivity.
  - intros H. pose proof Vi as (A & B & C1 & C2 & C3 & C4). pose proof Vo as (A' & B' & D1 & D2 & D3 & D4).
    assert (K : B2R (slo i) = B2R (slo o) -> B2R (shi i) = B2R (shi o) -> s1_eq i o = true).
    { intros E1 E2. unfold s1_eq. destruct (feq_R _ _ A A') as [_|X]; [|elim X; exact E1]. destruct (feq_R _ _ B B') as [_|X]; [reflexivity|elim X; exact E2]. }
    destruct (classic (void (circ i))) as [E|E].
    + assert (E' : void (circ o)) by (intros t T; apply (E t), H, T). rewrite void_empty in E, E' by auto. unfold nonempty in *. apply NNPP in E, E'.
      apply K; lra.
    + assert (E' : ~ void (circ o)) by (intros Q; apply E; intros t T; apply (Q t), H, T).
      pose proof E as N. pose proof E' as N'. apply not_void in N, N'; auto. pose proof pi_bounds as PB.
      assert (F : s1_is_full i = true <-> s1_is_full o = true).
      { destruct (C48_s1_predicates i i Vi Vi) as (_ & G & _). destruct (C48_s1_predicates o o Vo Vo) as (_ & G' & _). rewrite G, G'. split; intros X t; apply H, X. }
      destruct (s1_is_full i) eqn:FI; [destruct (s1_is_full o) eqn:FO; [|destruct F as [F _]; discriminate (F eq_refl)]|destruct (s1_is_full o) eqn:FO; [destruct F as [_ F]; discriminate (F eq_refl)|]].
      { unfold s1_is_full, s1_eq, s1_FULL in FI, FO. cbn [slo shi] in FI, FO. apply andb_prop in FI, FO. destruct FI as [I1 I2], FO as [O1 O2].
        assert (FM : finite (fneg PI64)) by (vm_compute; reflexivity). pose proof PI64_finite as FP.
        destruct (feq_R _ _ A FM) as [I1'|]; [|discriminate]. destruct (feq_R _ _ B FP) as [I2'|]; [|discriminate].
        destruct (feq_R _ _ A' FM) as [O1'|]; [|discriminate]. destruct (feq_R _ _ B' FP) as [O2'|]; [|discriminate].
        apply K; congruence. }
      assert (H' : forall t, circ o t <-> circ i t) by (intros t; symmetry; apply H).
      pose proof (arc_start i o Vi Vo N N' FI FO H) as L. apply K; [exact L|].
      pose proof (arc_stop i o Vi Vo N N' FI FO H) as L1. pose proof (arc_stop o i Vo Vi N' N FO FI H') as L2.
      unfold span, arc_end, nonempty in *. rewrite L in *. destruct Rle_dec, Rle_dec; lra.
Qed.

(** Expansion keeps intervals valid, whatever the margin. *)
Lemma wrap_valid a b : finite a -> finite b -> okc (wrap a b).
Proof.
  intros Fa Fb. pose proof pi_bounds as PB. destruct (rem_turn2 a Fa) as (FL & BL & _). destruct (rem_turn2 b Fb) as (FH & BH & _).
  assert (V : Valid (s1_new (fremainder a TWOPI) (fremainder b TWOPI))) by (apply s1_new_valid; split; auto).
  unfold wrap. set (r := s1_new _ _) in *. destruct V as (A & B & C1 & C2 & C3 & C4). assert (FM : finite (fneg PI64)) by (vm_compute; reflexivity).
  destruct (fle_R (slo r) (fneg PI64) A FM) as [Q|Q]; [|repeat split; auto; lra].
  rewrite mpi_val in Q. assert (E : B2R (slo r) = - pi) by lra. specialize (C3 E). cbn [slo shi]. unfold valid_arc. rewrite pi_val, C3.
  split; [exact PI64_finite|]. split; [exact B|]. lra.
Qed.
Lemma s1_expanded_valid i m : okc i -> finite m -> okc (s1_expanded i m).
Proof.
  intros V Fm. change (Valid (s1_expanded i m)). rewrite expanded_eq. pose proof pi_bounds as PB. pose proof V as (A & B & C1 & C2 & _).
  assert (LEN : finite (s1_len i) /\ -1 <= B2R (s1_len i) <= 8).
  { destruct (classic (nonempty i)) as [N|N].
    - pose proof (span_range i V N). destruct (len_spec i V N) as [(_ & E & F)|(F & P & E & _)]; (split; [exact F|]); lra.
    - rewrite (len_empty i V N). destruct (lit_val (-1) 0 ltac:(lia) ltac:(lia)) as [F1 V1]. change (bpow radix2 0) with 1 in V1. split; [exact F1|lra]. }
  destruct LEN as [FL BL].
  assert (W : Rabs (B2R m) <= 4 -> okc (wrap (fsub (slo i) m) (fadd (shi i) m))).
  { intros M. apply Rabs_le_inv in M. pose proof (fsub_result _ _ A Fm) as RA. pose proof (fadd_result _ _ B Fm) as RB.
    destruct (half3 _ _ RA) as (FA & _); [apply Rabs_le; lra|]. destruct (half3 _ _ RB) as (FB & _); [apply Rabs_le; lra|]. apply wrap_valid; auto. }
  destruct f0_val as [F0 V0]. unfold fge at 1. destruct (fle_R f0 m F0 Fm) as [P|P]; rewrite V0 in P.
  - destruct s1_is_empty; [exact V|]. destruct (Rle_dec (B2R m) 4) as [M|M].
    + destruct fge; [exact FULL_valid|]. apply W. apply Rabs_le. lra.
    + rewrite big_margin; auto; [exact FULL_valid|lra].
  - destruct s1_is_full; [exact V|]. destruct (Rle_dec (-4) (B2R m)) as [M|M].
    + destruct fle; [exact EMPTY_valid|]. apply W. apply Rabs_le. lra.
    + rewrite big_shrink; auto; [exact EMPTY_valid|lra|lra].
Qed.

(** Latitudes: rounding after a margin. *)
Lemma lat_down lo m : finite lo -> Rabs (B2R lo) <= 2 -> finite m -> 0 <= B2R m ->
  number (fsub lo m) /\ ele (ev (fsub lo m)) (Fin (B2R lo)) /\
  forall f, -2 <= f -> (B2R lo - B2R m + ulp1 <= f -> ele (ev (fsub lo m)) (Fin f)) /\ (ele (ev (fsub lo m)) (Fin f) -> B2R lo - B2R m - ulp1 <= f).
Proof.
  intros F B Fm P. apply Rabs_le_inv in B. destruct (of_int_val (-4) ltac:(lia)) as [_ V4].
  pose proof (fsub_result _ _ F Fm) as R. destruct R as [(FR & VR & _)|(s & E & L & S)].
  - rewrite (ev_fin _ FR). unfold ele. split; [apply finite_number; auto|]. split.
    { rewrite VR. apply (rnd_upper lo); [reflexivity|lra]. }
    intros f Hf. destruct (Rle_dec (-4) (B2R lo - B2R m)) as [C|C].
    + assert (R : result (fsub lo m) (B2R lo - B2R m)) by (apply fsub_result; auto). destruct (half2 _ _ R) as (_ & _ & E); [apply Rabs_le; lra|]. lra.
    + assert (Q : B2R (fsub lo m) <= -4) by (rewrite VR; apply (rnd_upper (of_int (-4))); [exact V4|lra]). lra.
  - destruct s.
    + rewrite E. split; [reflexivity|]. split; [exact I|]. intros f Hf. split; [intros _; exact I|]. intros _. destruct (Rle_dec (-4) (B2R lo - B2R m)) as [C|C]; [|lra].
      exfalso. assert (R : result (fsub lo m) (B2R lo - B2R m)) by (apply fsub_result; auto). destruct (half2 _ _ R) as (FR & _); [apply Rabs_le; lra|]. rewrite E in FR. discriminate.
    + exfalso. assert (R : result (fsub lo m) (B2R lo - B2R m)) by (apply fsub_result; auto). destruct (half2 _ _ R) as (FR & _); [apply Rabs_le; lra|]. rewrite E in FR. discriminate.
Qed.
Lemma lat_up hi m : finite hi -> Rabs (B2R hi) <= 2 -> finite m -> 0 <= B2R m ->
  number (fadd hi m) /\ ele (Fin (B2R hi)) (ev (fadd hi m)) /\
  forall f, f <= 2 -> (f <= B2R hi + B2R m - ulp1 -> ele (Fin f) (ev (fadd hi m))) /\ (ele (Fin f) (ev (fadd hi m)) -> f <= B2R hi + B2R m + ulp1).
Proof.
  intros F B Fm P. apply Rabs_le_inv in B. destruct (of_int_val 4 ltac:(lia)) as [_ V4].
  assert (R' : result (fadd hi m) (B2R hi + B2R m)) by (apply fadd_result; auto). pose proof R' as R. destruct R as [(FR & VR & _)|(s & E & L & S)].
  - rewrite (ev_fin _ FR). unfold ele. split; [apply finite_number; auto|]. split.
    { rewrite VR. apply (rnd_lower hi); [reflexivity|lra]. }
    intros f Hf. destruct (Rle_dec (B2R hi + B2R m) 4) as [C|C].
    + destruct (half2 _ _ R') as (_ & _ & E); [apply Rabs_le; lra|]. lra.
    + assert (Q : 4 <= B2R (fadd hi m)) by (rewrite VR; apply (rnd_lower (of_int 4)); [exact V4|lra]). lra.
  - destruct (Rle_dec (B2R hi + B2R m) 4) as [C|C].
    + exfalso. destruct (half2 _ _ R') as (FR & _); [apply Rabs_le; lra|]. rewrite E in FR. discriminate.
    + destruct s; [lra|]. rewrite E. split; [reflexivity|]. split; [exact I|]. intros f Hf. split; [intros _; exact I|]. lra.
Qed.
