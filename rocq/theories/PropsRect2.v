(** C95-C96: growing and constructing latitude-longitude rectangles. *)
From Coq Require Import Reals Lra Psatz Classical.
From Verif Require Import F64 F64Facts IntervalSpec CircleSpec RectSpec F64Arith F64Error R1Model S1Model R1Proofs S1Proofs S1Ops PropsInterval StuvError AngleModel AngleProofs ExpandProofs CircleProofs PropsCircle RectModel RectProofs PropsRect.
Open Scope R_scope.

(** ** C95 expanded, center, size, from_center_size *)

(* the ends of a rectangle that is not empty *)
Lemma okz_ends r : okz r -> ~ void (zset r) ->
  finite (hi1 (rlat r)) /\ - (pi / 2) <= B2R (lo1 (rlat r)) <= B2R (hi1 (rlat r)) /\ B2R (hi1 (rlat r)) <= pi / 2 /\ ~ void (circ (rlng r)) /\
  (forall f, set1 (rlat r) (Fin f) <-> B2R (lo1 (rlat r)) <= f <= B2R (hi1 (rlat r))).
Proof.
  intros V N. destruct (C93_corners r V N) as [K _]. pose proof (K 0%Z) as [K0 Z0]. pose proof (K 2%Z) as [K2 Z2].
  unfold rect_vertex in *. change (0 mod 4)%Z with 0%Z in *. change (2 mod 4)%Z with 2%Z in *. cbv iota in *.
  destruct K0 as (FL & _ & BL & _). destruct K2 as (FH & _ & BH & _). cbn [lat lng] in *. unfold zone, lat_lng in Z2. cbn [fst snd] in Z2. destruct Z2 as [[Z2 _] Z3].
  rewrite (ev_fin _ FL) in Z2. unfold ele in Z2. split; [exact FH|]. split; [lra|]. split; [lra|]. split; [intros H; apply (H _ Z3)|].
  intros f. unfold between. rewrite (ev_fin _ FL), (ev_fin _ FH). unfold ele. reflexivity.
Qed.

(** Margins of any sign: the two intervals are expanded, and the latitudes cut off
    at the poles (C47_r1_expanded, C88). *)
Theorem C95_expanded_sides : forall (r : rect) (m : latlng), okz r -> finite (lat m) -> finite (lng m) ->
  okz (rect_expanded r m) /\
  forall x, zset (rect_expanded r m) x <->
    set1 (r1_expanded (rlat r) (lat m)) (Fin (fst x)) /\ - (pi / 2) <= fst x <= pi / 2 /\ circ (s1_expanded (rlng r) (lng m)) (snd x).
Proof.
  intros r m V FA FB. pose proof (okz_lat r V) as L. pose proof (okz_lng r V) as G. pose proof (s1_expanded_valid _ _ G FB) as GE. pose proof pi_bounds as PB.
  unfold rect_expanded. set (la := r1_expanded (rlat r) (lat m)). set (ln := s1_expanded (rlng r) (lng m)) in *.
  (* the latitudes *)
  assert (LA : ok1 la /\ (~ void (set1 la) -> exists f, set1 la (Fin f) /\ - (pi / 2) <= f <= pi / 2)).
  { unfold la, r1_expanded. destruct (r1_is_empty (rlat r)) eqn:E.
    - split; [exact L|]. intros N. exfalso. apply N. apply (r1_is_empty_spec _ L), E.
    - assert (NV : ~ void (zset r)). { intros H. apply zset_void in H; auto. apply (r1_is_empty_spec _ L) in H. congruence. }
      destruct (okz_ends r V NV) as (FH & B1 & B2 & _ & _). pose proof V as (FL & _).
      destruct (Rle_dec 0 (B2R (lat m))) as [P|P].
      + destruct (lat_down _ _ FL ltac:(apply Rabs_le; lra) FA P) as (N1 & D & _). destruct (lat_up _ _ FH ltac:(apply Rabs_le; lra) FA P) as (N2 & U & _).
        split; [split; auto|]. intros _. exists (B2R (lo1 (rlat r))). split; [|lra]. split; cbn [lo1 hi1]; [exact D|].
        destruct (ev (fadd (hi1 (rlat r)) (lat m))); unfold ele in *; auto. lra.
      + apply Rnot_le_lt in P. destruct (fsub_result _ _ FL FA) as [(FR & VR & _)|(s & E1 & _ & S)]; destruct (fadd_result _ _ FH FA) as [(FR' & VR' & _)|(s' & E1' & _ & S')].
        * split; [split; apply finite_number; auto|]. intros N. unfold between. cbn [lo1 hi1]. rewrite (ev_fin _ FR), (ev_fin _ FR').
          assert (Q1 : B2R (lo1 (rlat r)) <= B2R (fsub (lo1 (rlat r)) (lat m))) by (rewrite VR; apply (rnd_lower (lo1 (rlat r))); [reflexivity|lra]).
          assert (Q2 : B2R (fadd (hi1 (rlat r)) (lat m)) <= B2R (hi1 (rlat r))) by (rewrite VR'; apply (rnd_upper (hi1 (rlat r))); [reflexivity|lra]).
          assert (Q3 : B2R (fsub (lo1 (rlat r)) (lat m)) <= B2R (fadd (hi1 (rlat r)) (lat m))).
          { apply Rnot_lt_le. intros Q. apply N. intros x [X Y]. cbn [lo1 hi1] in *. rewrite (ev_fin _ FR) in X. rewrite (ev_fin _ FR') in Y. destruct x; unfold ele in *; try contradiction. lra. }
          exists (B2R (fsub (lo1 (rlat r)) (lat m))). unfold ele. lra.
        * rewrite E1'. split; [split; [apply finite_number; auto|reflexivity]|]. intros N. exfalso. apply N. intros x [X Y]. cbn [lo1 hi1] in *. rewrite (ev_fin _ FR) in X.
          destruct s'; [destruct x; contradiction|]. assert (Q : result (fadd (hi1 (rlat r)) (lat m)) (B2R (hi1 (rlat r)) + B2R (lat m))) by (apply fadd_result; auto).
          destruct (half2 _ _ Q) as (C & _); [apply Rabs_le; lra|]. rewrite E1' in C. discriminate.
        * rewrite E1. split; [split; [reflexivity|apply finite_number; auto]|]. intros N. exfalso. apply N. intros x [X Y]. cbn [lo1 hi1] in *. rewrite (ev_fin _ FR') in Y.
          destruct s; [|destruct x; contradiction]. assert (Q : result (fsub (lo1 (rlat r)) (lat m)) (B2R (lo1 (rlat r)) - B2R (lat m))) by (apply fsub_result; auto).
          destruct (half2 _ _ Q) as (C & _); [apply Rabs_le; lra|]. rewrite E1 in C. discriminate.
        * rewrite E1, E1'. split; [split; reflexivity|]. intros N. exfalso. apply N. intros x [X Y]. cbn [lo1 hi1] in *.
          destruct s; [|destruct s'; [destruct x; contradiction|]].
          -- assert (Q : result (fsub (lo1 (rlat r)) (lat m)) (B2R (lo1 (rlat r)) - B2R (lat m))) by (apply fsub_result; auto). destruct (half2 _ _ Q) as (C & _); [apply Rabs_le; lra|]. rewrite E1 in C. discriminate.
          -- assert (Q : result (fadd (hi1 (rlat r)) (lat m)) (B2R (hi1 (rlat r)) + B2R (lat m))) by (apply fadd_result; auto). destruct (half2 _ _ Q) as (C & _); [apply Rabs_le; lra|]. rewrite E1' in C. discriminate. }
  destruct LA as [LA NE]. pose proof (r1_is_empty_spec la LA) as E1. pose proof (s1_is_empty_spec ln ln GE GE) as E2. unfold In1 in E1. unfold Arc in E2.
  destruct (r1_is_empty la || s1_is_empty ln)%bool eqn:E.
  - split; [exact empty_ok|]. intros [f t]. cbn [fst snd]. split; [intros H; elim (empty_void _ H)|]. intros (H1 & _ & H2). exfalso.
    apply orb_true_iff in E. destruct E as [E|E]; [apply E1 in E; apply (E _ H1)|apply E2 in E; apply (E _ H2)].
  - apply orb_false_iff in E. destruct E as [X1 X2].
    assert (NV : ~ void (set1 la)) by (intros H; apply E1 in H; congruence). assert (NW : ~ void (circ ln)) by (intros H; apply E2 in H; congruence).
    destruct (C47_r1_operations _ _ LA LAT_ok) as ((U1 & U2) & _). destruct (NE NV) as (f & Hf & Bf).
    assert (NV' : ~ void (set1 (r1_intersection la LAT_RANGE))).
    { intros H. apply (H (Fin f)). apply U2. split; [exact Hf|]. apply (proj2 (LAT_set _)). eauto. }
    destruct (lat_ok _ U1 NV') as (Y1 & Y2 & Y3).
    { intros x Hx. apply U2 in Hx. apply (proj1 (LAT_set x)). apply Hx. }
    split.
    + unfold valid_zone. cbn [rlat rlng]. split; [exact Y1|]. split; [apply U1|]. split; [exact Y2|]. split; [exact Y3|]. split; [exact GE|]. tauto.
    + intros x. unfold zone. cbn [rlat rlng]. rewrite U2. pose proof (LAT_set (Fin (fst x))) as Q.
      assert (Q' : set1 LAT_RANGE (Fin (fst x)) <-> - (pi / 2) <= fst x <= pi / 2).
      { rewrite Q. split; [intros (g & [=] & B); subst; exact B|intros B; eauto]. }
      rewrite Q'. tauto.
Qed.
Print Assumptions C95_expanded_sides.

(** Margins that are not negative: everything within the margins, and nothing
    else, up to a few roundings.  Left out: the longitudes of C88_expanded_refuted. *)
Theorem C95_expanded_partial : forall (r : rect) (m : latlng), okz r -> ~ void (zset r) -> ~ seam (rlng r) ->
  finite (lat m) -> finite (lng m) -> 0 <= B2R (lat m) -> 0 <= B2R (lng m) ->
  let j := rect_expanded r m in
  okz j /\ subset (zset r) (zset j) /\
  (forall x, - (pi / 2) <= fst x <= pi / 2 ->
     (exists y, zset r y /\ Rabs (fst x - fst y) <= B2R (lat m) - tiny) -> within (circ (rlng r)) (B2R (lng m) - 2 * tiny) (snd x) -> zset j x) /\
  (forall x, zset j x ->
     - (pi / 2) <= fst x <= pi / 2 /\ (exists y, zset r y /\ Rabs (fst x - fst y) <= B2R (lat m) + tiny) /\ within (circ (rlng r)) (B2R (lng m) + 8 * tiny) (snd x)).
Proof.
  intros r m V N S FA FB PA PB' j. pose proof pi_bounds as PB. destruct (C95_expanded_sides r m V FA FB) as [VJ SJ]. fold j in VJ, SJ.
  destruct (okz_ends r V N) as (FH & B1 & B2 & NW & SL). pose proof V as (FL & _). pose proof (okz_lng r V) as G.
  destruct (C88_expanded_partial (rlng r) (lng m) G NW S FB PB') as (_ & W1 & W2 & W3).
  destruct (lat_down _ _ FL ltac:(apply Rabs_le; lra) FA PA) as (N1 & D1 & D2). destruct (lat_up _ _ FH ltac:(apply Rabs_le; lra) FA PA) as (N2 & U1 & U2).
  assert (E : r1_expanded (rlat r) (lat m) = R1 (fsub (lo1 (rlat r)) (lat m)) (fadd (hi1 (rlat r)) (lat m))).
  { unfold r1_expanded. destruct (r1_is_empty (rlat r)) eqn:Q; [|reflexivity]. exfalso. apply N. apply zset_void; auto. apply (r1_is_empty_spec _ (okz_lat r V)), Q. }
  rewrite E in SJ. unfold between in SJ. cbn [lo1 hi1] in SJ. rewrite tiny_eq in *.
  pose proof (lo_in _ G NW) as LO. set (w := B2R (slo (rlng r))) in LO.
  assert (YY : forall f, B2R (lo1 (rlat r)) <= f <= B2R (hi1 (rlat r)) -> zset r (f, w)) by (intros f Hf; split; [apply SL, Hf|exact LO]).
  assert (UP : 0 < ulp1) by lra. set (lo := B2R (lo1 (rlat r))) in *. set (hi := B2R (hi1 (rlat r))) in *. set (M := B2R (lat m)) in *. clearbody lo hi M. generalize dependent ulp1. intros u. intros.
  split; [exact VJ|]. split; [|split].
  - intros [f t] [Hf Ht]. cbn [fst snd] in *. apply SL in Hf. apply SJ. cbn [fst snd]. split; [split|].
    + destruct (ev (fsub (lo1 (rlat r)) (lat m))); unfold ele in *; try contradiction; auto. lra.
    + destruct (ev (fadd (hi1 (rlat r)) (lat m))); unfold ele in *; try contradiction; auto. lra.
    + split; [lra|]. apply W1, Ht.
  - intros [f t] Hf ([g s] & [Hg _] & D) HW. cbn [fst snd] in *. apply SL in Hg. apply Rabs_le_inv in D. apply SJ. cbn [fst snd]. split; [split|].
    + apply D2; lra.
    + apply U2; lra.
    + split; [lra|]. apply W2, HW.
  - intros [f t] Hx. apply SJ in Hx. cbn [fst snd] in *. destruct Hx as ([H1 H2] & H3 & H4). split; [exact H3|]. split; [|apply W3, H4].
    apply D2 in H1; [|lra]. apply U2 in H2; [|lra].
    destruct (Rle_dec lo f) as [C|C]; [destruct (Rle_dec f hi) as [C'|C']|].
    + exists (f, w). split; [apply YY; lra|]. cbn [fst]. rewrite Rminus_eq_0, Rabs_R0. lra.
    + exists (hi, w). split; [apply YY; lra|]. cbn [fst]. apply Rabs_le. lra.
    + exists (lo, w). split; [apply YY; lra|]. cbn [fst]. apply Rabs_le. lra.
Qed.
Print Assumptions C95_expanded_partial.

(** The centre lies in the rectangle, halfway in both directions; the size is its
    extent; both up to a few roundings. *)
Theorem C95_center_size : forall r : rect, okz r -> ~ void (zset r) ->
  okp (rect_center r) /\ zset r (pos (rect_center r)) /\
  Rabs (B2R (lat (rect_center r)) - (B2R (lo1 (rlat r)) + B2R (hi1 (rlat r))) / 2) <= 2 * tiny /\
  (exists k : Z, Rabs (B2R (lng (rect_center r)) + 2 * pi * IZR k - (B2R (slo (rlng r)) + arc_length (slo (rlng r)) (shi (rlng r)) / 2)) <= 4 * tiny) /\
  Rabs (B2R (lat (rect_size r)) - (B2R (hi1 (rlat r)) - B2R (lo1 (rlat r)))) <= tiny /\
  (~ seam (rlng r) -> Rabs (B2R (lng (rect_size r)) - arc_length (slo (rlng r)) (shi (rlng r))) <= 3 * tiny).
Proof.
  intros r V N. pose proof pi_bounds as PB. destruct (okz_ends r V N) as (FH & B1 & B2 & NW & SL). pose proof V as (FL & _). pose proof (okz_lng r V) as G.
  destruct (C90_center _ G NW) as (C1 & C2 & C3). destruct (C89_len_partial _ G) as [_ LEN].
  unfold rect_center, rect_size. cbn [lat lng]. unfold r1_center, r1_len.
  pose proof (fadd_result _ _ FL FH) as RS. destruct (half2 _ _ RS) as (FS & VS & ES); [apply Rabs_le; lra|].
  destruct (half_val _ FS) as (FC & VC & EC); [apply Rabs_le; lra|].
  pose proof (fsub_result _ _ FH FL) as RD. destruct (half2 _ _ RD) as (FD & VD & ED); [apply Rabs_le; lra|].
  destruct (twice_val _ FL ltac:(apply Rabs_le; lra)) as [_ VL2]. destruct (twice_val _ FH ltac:(apply Rabs_le; lra)) as [_ VH2].
  set (lo := lo1 (rlat r)) in *. set (hi := hi1 (rlat r)) in *.
  assert (M1 : B2R lo <= B2R (fmul fhalf (fadd lo hi))).
  { assert (Q : 2 * B2R lo <= B2R (fadd lo hi)) by (rewrite VS; apply (rnd_lower (fmul f2 lo)); [exact VL2|lra]). rewrite VC. apply (rnd_lower lo); [reflexivity|lra]. }
  assert (M2 : B2R (fmul fhalf (fadd lo hi)) <= B2R hi).
  { assert (Q : B2R (fadd lo hi) <= 2 * B2R hi) by (rewrite VS; apply (rnd_upper (fmul f2 hi)); [exact VH2|lra]). rewrite VC. apply (rnd_upper hi); [reflexivity|lra]. }
  destruct C1 as [FC' BC']. rewrite tiny_eq in *.
  split; [|split; [|split; [|split; [|split]]]].
  - unfold valid_position. cbn [lat lng]. split; [exact FC|]. split; [exact FC'|]. split; lra.
  - unfold zone, lat_lng. cbn [fst snd lat lng]. split; [|exact C2]. apply SL. lra.
  - apply Rabs_le. lra.
  - exact C3.
  - apply Rabs_le. lra.
  - intros S. apply LEN; auto.
Qed.
Print Assumptions C95_center_size.

Lemma half_size s : finite s -> 0 <= B2R s <= 8 -> finite (fmul s fhalf) /\ 0 <= B2R (fmul s fhalf) /\ - ulp1 <= B2R (fmul s fhalf) - B2R s / 2 <= ulp1.
Proof.
  intros F B. destruct fhalf_val as [FH VH]. pose proof (fmul_result _ _ F FH) as R. rewrite VH in R. destruct (half2 _ _ R) as (FR & VR & E); [apply Rabs_le; lra|].
  split; [exact FR|]. split; [rewrite VR; apply (rnd_lower f0); [reflexivity|lra]|]. lra.
Qed.

(** Everything within half the size of the centre, and nothing else, up to a few
    roundings; also around the meridian at -pi. *)
Theorem C95_from_center_size : forall c s : latlng, okp c -> finite (lat s) -> finite (lng s) -> 0 <= B2R (lat s) <= 8 -> 0 <= B2R (lng s) <= 8 ->
  let r := rect_from_center_size c s in
  okz r /\ zset r (pos c) /\
  (forall x, - (pi / 2) <= fst x <= pi / 2 -> Rabs (fst x - B2R (lat c)) <= B2R (lat s) / 2 - 2 * tiny ->
     (exists k : Z, Rabs (snd x + 2 * pi * IZR k - B2R (lng c)) <= B2R (lng s) / 2 - 3 * tiny) -> zset r x) /\
  (forall x, zset r x -> - (pi / 2) <= fst x <= pi / 2 /\ Rabs (fst x - B2R (lat c)) <= B2R (lat s) / 2 + 2 * tiny /\
     exists k : Z, Rabs (snd x + 2 * pi * IZR k - B2R (lng c)) <= B2R (lng s) / 2 + 9 * tiny).
Proof.
  intros c s (F1 & F2 & B1 & B2) FA FB BA BB r. pose proof pi_bounds as PB. rewrite tiny_eq.
  destruct (half_size _ FA BA) as (FHA & PHA & EA). destruct (half_size _ FB BB) as (FHB & PHB & EB).
  destruct (expand_point (lng c) _ (conj F2 B2) FHB PHB) as (VJ & CJ & W1 & W2). unfold Arc, Valid in *.
  destruct (lat_down (lat c) _ F1 ltac:(apply Rabs_le; lra) FHA PHA) as (N1 & D1 & D2). destruct (lat_up (lat c) _ F1 ltac:(apply Rabs_le; lra) FHA PHA) as (N2 & U1 & U2).
  unfold r, rect_from_center_size, rect_expanded, rect_of_ll. cbn [rlat rlng lat lng].
  set (hA := fmul (lat s) fhalf) in *. set (hB := fmul (lng s) fhalf) in *. set (ln := s1_expanded (S1 (lng c) (lng c)) hB) in *.
  assert (E : r1_expanded (r1_from_point (lat c)) hA = R1 (fsub (lat c) hA) (fadd (lat c) hA)).
  { unfold r1_expanded, r1_from_point, r1_is_empty, fgt. cbn [lo1 hi1]. destruct (flt_R (lat c) (lat c) F1 F1) as [Q|_]; [lra|reflexivity]. }
  rewrite E. set (la := R1 (fsub (lat c) hA) (fadd (lat c) hA)).
  assert (LA : ok1 la) by (split; auto).
  assert (IN : set1 la (Fin (B2R (lat c)))) by (split; [exact D1|exact U1]).
  pose proof (r1_is_empty_spec la LA) as E1. pose proof (s1_is_empty_spec ln ln VJ VJ) as E2. unfold In1 in E1. unfold Arc in E2.
  assert (NE : (r1_is_empty la || s1_is_empty ln)%bool = false).
  { apply orb_false_iff. split; apply Bool.not_true_is_false; intros H; [apply E1 in H; apply (H _ IN)|apply E2 in H; apply (H _ CJ)]. }
  rewrite NE. destruct (C47_r1_operations _ _ LA LAT_ok) as ((X1 & X2) & _).
  assert (Q' : forall f, set1 LAT_RANGE (Fin f) <-> - (pi / 2) <= f <= pi / 2).
  { intros f. rewrite (LAT_set (Fin f)). split; [intros (g & [=] & B); subst; exact B|intros B; eauto]. }
  assert (IN' : set1 (r1_intersection la LAT_RANGE) (Fin (B2R (lat c)))) by (apply X2; split; [exact IN|apply Q'; lra]).
  assert (NV : ~ void (set1 (r1_intersection la LAT_RANGE))) by (intros H; apply (H _ IN')).
  assert (NW : ~ void (circ ln)) by (intros H; apply (H _ CJ)).
  destruct (lat_ok _ X1 NV) as (Y1 & Y2 & Y3).
  { intros x Hx. apply X2 in Hx. apply (proj1 (LAT_set x)). apply Hx. }
  assert (ST : forall x, zset (Rect (r1_intersection la LAT_RANGE) ln) x <-> (set1 la (Fin (fst x)) /\ - (pi / 2) <= fst x <= pi / 2) /\ circ ln (snd x)).
  { intros x. unfold zone. cbn [rlat rlng]. rewrite X2, Q'. reflexivity. }
  clear NE E1 E2 E X2.
  split; [|split; [|split]].
  - unfold valid_zone. cbn [rlat rlng]. split; [exact Y1|]. split; [apply X1|]. split; [exact Y2|]. split; [exact Y3|]. split; [exact VJ|]. tauto.
  - apply ST. unfold lat_lng. cbn [fst snd]. split; [split; [exact IN|lra]|exact CJ].
  - intros [f t] Hf D (k & K). cbn [fst snd] in *. apply Rabs_le_inv in D, K. apply ST. cbn [fst snd]. split; [split; [split|exact Hf]|].
    + cbn [la lo1]. apply D2; lra.
    + cbn [la hi1]. apply U2; lra.
    + apply W1. exists k. apply Rabs_le. lra.
  - intros [f t] H. apply ST in H. cbn [fst snd] in *. destruct H as [[[H1 H2] H3] H4]. cbn [la lo1 hi1] in H1, H2. apply D2 in H1; [|lra]. apply U2 in H2; [|lra].
    split; [exact H3|]. split; [apply Rabs_le; lra|]. destruct (W2 _ H4) as (k & K). exists k. apply Rabs_le_inv in K. apply Rabs_le. lra.
Qed.
Print Assumptions C95_from_center_size.

Example C95_hyps : exists r m c s, okz r /\ ~ void (zset r) /\ ~ seam (rlng r) /\ finite (lat m) /\ finite (lng m) /\ 0 <= B2R (lat m) /\ 0 <= B2R (lng m) /\
  okp c /\ B2R (lng c) = - pi /\ finite (lat s) /\ finite (lng s) /\ 0 <= B2R (lat s) <= 8 /\ 0 <= B2R (lng s) <= 8 /\
  rect_contains_ll r (LL (lit 3 (-1)) f0) = false /\ rect_contains_ll (rect_expanded r m) (LL (lit 3 (-1)) f0) = true /\
  rect_contains_ll (rect_from_center_size c s) (LL f0 (of_int 3)) = true /\ rect_contains_ll (rect_from_center_size c s) (LL f0 f0) = false.
Proof.
  set (r := Rect (R1 (of_int (-1)) f1) (S1 f0 f1)). exists r, (LL f1 f1), (LL f0 (fneg PI64)), (LL f1 f1).
  destruct f1_val as [F1 V1]. assert (V : okz r) by (apply rect_is_valid_spec; vm_compute; reflexivity). cbn [lat lng]. rewrite V1.
  split; [exact V|]. split; [intros E; apply (C93_predicates r r V V) in E; vm_compute in E; discriminate|].
  split; [unfold seam, r; cbn [rlng slo shi]; change (B2R f0) with 0; pose proof pi_bounds; lra|]. do 2 (split; [exact F1|]). do 2 (split; [lra|]).
  split; [apply (proj2 (okp_ll (LL f0 (fneg PI64)))); vm_compute; reflexivity|]. split; [apply mpi_val|]. do 2 (split; [exact F1|]). do 2 (split; [lra|]). vm_compute. auto.
Qed.

(** ** C96 Rectangles from positions and degrees *)

(** Promised: the rectangle of a position contains that position and no other.
    Proved unless the longitude is exactly -pi. *)
Theorem C96_from_latlng_partial : forall p : latlng, okp p -> B2R (lng p) <> - pi ->
  okz (rect_of_ll p) /\
  forall x, zset (rect_of_ll p) x <-> fst x = B2R (lat p) /\ exists k : Z, snd x = B2R (lng p) + 2 * pi * IZR k.
Proof.
  intros p (F1 & F2 & B1 & B2) NP. pose proof pi_bounds as PB. unfold rect_of_ll, r1_from_point. unfold valid_zone, zone, between. cbn [rlat rlng lo1 hi1 slo shi]. rewrite (ev_fin _ F1).
  assert (C : forall t, arc (lng p) (lng p) t <-> exists k : Z, t = B2R (lng p) + 2 * pi * IZR k).
  { intros t. unfold arc, arc_end. destruct Rle_dec; [|lra]. split.
    - intros [_ (k & K)]. exists (- k)%Z. rewrite opp_IZR. lra.
    - intros (k & K). split; [lra|]. exists (- k)%Z. rewrite opp_IZR. lra. }
  split.
  - split; [exact F1|]. split; [apply finite_number, F1|]. split; [exact B1|]. split; [unfold ele; lra|]. split; [repeat split; auto; lra|].
    split; intros H; exfalso.
    + apply (H (Fin (B2R (lat p)))). unfold ele. lra.
    + apply (H (B2R (lng p))). apply C. exists 0%Z. lra.
  - intros [f t]. cbn [fst snd]. rewrite C. unfold ele. split; intros [A B]; (split; [lra|exact B]).
Qed.
Print Assumptions C96_from_latlng_partial.

(** At longitude -pi, which is a valid one, the rectangle is not valid and does not
    contain the position. *)
Theorem C96_from_latlng_refuted :
  ~ (forall p : latlng, okp p -> okz (rect_of_ll p)) /\
  ~ (forall p : latlng, okp p -> rect_contains_ll (rect_of_ll p) p = true).
Proof.
  split; intros G; specialize (G (LL f0 (fneg PI64)) ltac:(apply (proj2 (okp_ll _)); vm_compute; reflexivity)); [apply rect_is_valid_spec in G|]; vm_compute in G; discriminate.
Qed.
Print Assumptions C96_from_latlng_refuted.

(* degrees to radians on [-180, 180] *)
Lemma deg180 : finite (of_int 180) /\ B2R (of_int 180) = 180 /\ B2R (angle_of_deg (of_int 180)) = pi.
Proof. destruct (of_int_val 180 ltac:(lia)) as [F V]. split; [exact F|]. split; [exact V|]. replace (angle_of_deg (of_int 180)) with PI64; [apply pi_val|]. apply B2SF_inj. vm_compute. reflexivity. Qed.
Lemma deg90 : finite (of_int 90) /\ B2R (of_int 90) = 90 /\ B2R (angle_of_deg (of_int 90)) = pi / 2.
Proof. destruct (of_int_val 90 ltac:(lia)) as [F V]. split; [exact F|]. split; [exact V|]. replace (angle_of_deg (of_int 90)) with FRAC_PI_2; [apply FRAC_PI_2_val|]. apply B2SF_inj. vm_compute. reflexivity. Qed.
Lemma deg_val d : finite d -> -180 <= B2R d <= 180 ->
  finite (angle_of_deg d) /\ B2R (angle_of_deg d) = rnd (B2R d * B2R DEG) /\ - ulp1 <= B2R (angle_of_deg d) - B2R d * B2R DEG <= ulp1.
Proof.
  intros F B. destruct DEG_val as [FD VD]. pose proof pi_bounds. apply Rabs_le_inv in VD. apply half2; [apply fmul_result; auto|].
  apply Rabs_le. nra.
Qed.
Lemma deg_mono x y : finite x -> finite y -> -180 <= B2R x -> B2R x <= B2R y -> B2R y <= 180 -> B2R (angle_of_deg x) <= B2R (angle_of_deg y).
Proof.
  intros F G B1 B2 B3. destruct (deg_val x F ltac:(lra)) as (_ & -> & _). destruct (deg_val y G ltac:(lra)) as (_ & -> & _).
  destruct DEG_val as [_ VD]. apply Rabs_le_inv in VD. pose proof pi_bounds. apply rnd_le. apply Rmult_le_compat_r; lra.
Qed.
Lemma deg_strict x y : finite x -> finite y -> -180 <= B2R x -> B2R x + / 2199023255552 <= B2R y -> B2R y <= 180 -> B2R (angle_of_deg x) < B2R (angle_of_deg y).
Proof.
  intros F G B1 B2 B3. destruct (deg_val x F ltac:(lra)) as (_ & _ & E1). destruct (deg_val y G ltac:(lra)) as (_ & _ & E2).
  destruct DEG_val as [_ VD]. apply Rabs_le_inv in VD. pose proof pi_bounds.
  assert (/ 2199023255552 * B2R DEG <= (B2R y - B2R x) * B2R DEG) by (apply Rmult_le_compat_r; lra). lra.
Qed.
Lemma angle_neg d : finite d -> finite (fneg d) /\ B2R (angle_of_deg (fneg d)) = - B2R (angle_of_deg d) \/ Rabs (B2R d) > 180.
Proof.
  intros F. destruct (Rle_dec (Rabs (B2R d)) 180) as [H|]; [left|right; lra]. apply Rabs_le_inv in H. destruct (fneg_val d F) as [F' V].
  split; [exact F'|]. destruct (deg_val d F H) as (_ & -> & _). destruct (deg_val (fneg d) F' ltac:(lra)) as (_ & -> & _). rewrite V.
  rewrite Ropp_mult_distr_l_reverse. apply round_NE_opp.
Qed.
Lemma lng_deg d : finite d -> -180 <= B2R d <= 180 -> angle (angle_of_deg d).
Proof.
  intros F B. destruct (deg_val d F B) as (FA & _). split; [exact FA|]. destruct deg180 as (F1 & V1 & P1).
  destruct (angle_neg _ F1) as [[F2 P2]|H]; [|rewrite V1, Rabs_right in H; lra]. destruct (fneg_val _ F1) as [_ V2].
  rewrite <- P1, <- P2. split; apply deg_mono; auto; lra.
Qed.
Lemma lat_deg d : finite d -> -90 <= B2R d <= 90 -> - (pi / 2) <= B2R (angle_of_deg d) <= pi / 2.
Proof.
  intros F B. destruct deg90 as (F1 & V1 & P1).
  destruct (angle_neg _ F1) as [[F2 P2]|H]; [|rewrite V1, Rabs_right in H; lra]. destruct (fneg_val _ F1) as [_ V2].
  rewrite <- P1, <- P2. split; apply deg_mono; auto; lra.
Qed.

(** Degrees: south <= north within [-90, 90], and west, east within [-180, 180].  The
    rectangle goes from west eastwards to east.  It is valid, contains every position
    given in degrees that lies between, and contains only positions that do up to
    2^-40 degrees.  Proved when the width of the rectangle, and what is left of the
    circle when it crosses the antimeridian, are not positive and below 2^-40. *)
Theorem C96_from_degrees_partial : forall s w n e : f64, finite s -> finite w -> finite n -> finite e ->
  -90 <= B2R s -> B2R s <= B2R n -> B2R n <= 90 -> -180 <= B2R w <= 180 -> -180 <= B2R e <= 180 ->
  (B2R w <= B2R e \/ B2R e + / 1099511627776 <= B2R w <= B2R e + 360 - / 1099511627776) ->
  let r := rect_from_degrees s w n e in
  let e' := if Rle_dec (B2R w) (B2R e) then B2R e else B2R e + 360 in
  okz r /\
  forall x y, finite x -> finite y -> -90 <= B2R x <= 90 -> -180 <= B2R y <= 180 ->
    (B2R s <= B2R x <= B2R n -> (exists k : Z, B2R w <= B2R y + 360 * IZR k <= e') -> rect_contains_ll r (ll_from_degrees x y) = true) /\
    (rect_contains_ll r (ll_from_degrees x y) = true ->
       B2R s - / 1099511627776 <= B2R x <= B2R n + / 1099511627776 /\
       exists k : Z, B2R w - / 1099511627776 <= B2R y + 360 * IZR k <= e' + / 1099511627776).
Proof.
  intros s w n e Fs Fw Fn Fe B1 B2 B3 Bw Be G r e'. pose proof pi_bounds as PB.
  destruct (deg_val s Fs ltac:(lra)) as (As & _). destruct (deg_val n Fn ltac:(lra)) as (An & _).
  pose proof (lat_deg s Fs ltac:(lra)) as Ls. pose proof (lat_deg n Fn ltac:(lra)) as Ln. pose proof (deg_mono s n Fs Fn ltac:(lra) B2 ltac:(lra)) as M.
  pose proof (lng_deg w Fw Bw) as Lw. pose proof (lng_deg e Fe Be) as Le.
  destruct deg180 as (F1 & V1 & P1). destruct (fneg_val _ F1) as [F2 V2].
  destruct (angle_neg _ F1) as [[_ P2]|H]; [|rewrite V1, Rabs_right in H; lra]. rewrite P1 in P2. rewrite V1 in V2. replace (- (180)) with (-180) in V2 by lra.
  pose proof (s1_new_valid _ _ Lw Le) as VL. pose proof (fun t => s1_new_spec _ _ t Lw Le) as SL.
  set (W := angle_of_deg w) in *. set (E := angle_of_deg e) in *.
  (* where the ends are *)
  assert (D : (B2R w <= B2R e /\ B2R W <= B2R E) \/ (B2R e + / 1099511627776 <= B2R w <= B2R e + 360 - / 1099511627776 /\ B2R E < B2R W /\ (B2R W < pi \/ - pi < B2R E))).
  { destruct G as [G|G]; [left; split; [exact G|apply deg_mono; auto; lra]|right]. split; [exact G|]. split; [apply deg_strict; auto; lra|].
    destruct (Rle_dec (B2R w) (180 - / 2199023255552)).
    - left. rewrite <- P1. apply deg_strict; auto; lra.
    - right. rewrite <- P2. apply deg_strict; auto; lra. }
  assert (V : okz r).
  { unfold valid_zone, r, rect_from_degrees. cbn [rlat rlng lo1 hi1]. split; [exact As|]. split; [apply finite_number, An|]. split; [exact Ls|].
    split; [rewrite (ev_fin _ An); unfold ele; lra|]. split; [exact VL|]. split; intros H; exfalso.
    - apply (H (Fin (B2R (angle_of_deg s)))). unfold between. rewrite (ev_fin _ As), (ev_fin _ An). unfold ele. lra.
    - assert (K : arc W E (B2R W) \/ (B2R W = pi /\ B2R E = - pi)).
      { unfold arc, arc_end. destruct (Rle_dec (B2R W) (B2R E)). 2: destruct (Req_dec (B2R W) pi) as [Q|Q]; [destruct (Req_dec (B2R E) (- pi)); [right; auto|]|]. all: left; split; [intros [? ?]; lra|exists 0%Z; destruct Lw, Le; split; lra]. }
      destruct K as [K|K]; [|lra]. apply (H (B2R W)). apply SL, K. }
  split; [exact V|]. intros x y Fx Fy Bx By. pose proof (lng_deg y Fy By) as Ly. destruct (deg_val x Fx ltac:(lra)) as (Ax & _). pose proof (lat_deg x Fx Bx) as Lx.
  assert (OP : okp (ll_from_degrees x y)) by (unfold valid_position, ll_from_degrees; cbn [lat lng]; destruct Ly; auto).
  destruct (C93_predicates r r V V) as (_ & _ & CC & _). specialize (CC _ OP).
  rewrite CC. unfold zone, lat_lng, r, rect_from_degrees, ll_from_degrees. cbn [rlat rlng lo1 hi1 lat lng fst snd]. unfold between. rewrite (ev_fin _ As), (ev_fin _ An). unfold ele.
  change (arc (slo (s1_new (angle_of_deg w) (angle_of_deg e))) (shi (s1_new (angle_of_deg w) (angle_of_deg e))) (B2R (angle_of_deg y))) with (Arc (s1_new W E) (B2R (angle_of_deg y))). rewrite SL. clear CC OP SL VL V.
  set (Y := angle_of_deg y) in *. destruct Lw as [_ Lw], Le as [_ Le], Ly as [_ Ly].
  assert (KC : forall k : Z, (k <= -2)%Z \/ k = (-1)%Z \/ k = 0%Z \/ k = 1%Z \/ (2 <= k)%Z) by (intros; lia).
  split.
  - intros Hx (k & K). split; [split; apply deg_mono; auto; lra|]. unfold arc, arc_end. unfold e' in K.
    assert (NE : ~ (B2R W = pi /\ B2R E = - pi)) by (intros [? ?]; lra). split; [exact NE|].
    destruct (KC k) as [H|[->|[->|[->|H]]]]; try (apply IZR_le in H).
    + exfalso. lra.
    + assert (B2R w = -180 /\ B2R y = 180) as [Q1 Q2] by (split; destruct (Rle_dec (B2R w) (B2R e)); lra).
      assert (B2R W = - pi) by (apply Rle_antisym; [rewrite <- P2; apply deg_mono; auto; lra|lra]).
      assert (B2R Y = pi) by (apply Rle_antisym; [lra|rewrite <- P1; apply deg_mono; auto; lra]).
      exists (-1)%Z. destruct (Rle_dec (B2R W)); lra.
    + exists 0%Z. assert (B2R W <= B2R Y) by (apply deg_mono; auto; lra). destruct (Rle_dec (B2R w)); destruct (Rle_dec (B2R W)); try lra.
      assert (B2R Y <= B2R E) by (apply deg_mono; auto; lra). lra.
    + destruct (Rle_dec (B2R w)).
      * assert (B2R e = 180 /\ B2R y = -180) as [Q1 Q2] by (split; lra).
        assert (B2R Y = - pi) by (apply Rle_antisym; [rewrite <- P2; apply deg_mono; auto; lra|lra]).
        assert (B2R E = pi) by (apply Rle_antisym; [lra|rewrite <- P1; apply deg_mono; auto; lra]).
        exists 1%Z. destruct (Rle_dec (B2R W)); lra.
      * exists 1%Z. assert (B2R Y <= B2R E) by (apply deg_mono; auto; lra). destruct (Rle_dec (B2R W)); lra.
    + exfalso. destruct (Rle_dec (B2R w)); lra.
  - intros [[X1 X2] [_ (k & K)]]. unfold arc_end in K. unfold e'.
    assert (CM : forall a b, finite a -> finite b -> -180 <= B2R b -> B2R a <= 180 -> B2R (angle_of_deg a) <= B2R (angle_of_deg b) -> B2R a - / 2199023255552 <= B2R b).
    { intros a b Fa Fb Ba Bb H. apply Rnot_lt_le. intros Q. pose proof (deg_strict b a Fb Fa Ba ltac:(lra) Bb). lra. }
    split; [split; [pose proof (CM s x Fs Fx ltac:(lra) ltac:(lra) X1)|pose proof (CM x n Fx Fn ltac:(lra) ltac:(lra) X2)]; lra|].
    assert (U1 : pi <= B2R Y -> 180 - / 2199023255552 <= B2R y) by (intros; rewrite <- V1; apply CM; auto; try lra; fold Y; lra).
    assert (U2 : B2R W <= - pi -> B2R w - / 2199023255552 <= -180) by (intros; rewrite <- V2; apply CM; auto; try lra; fold W; lra).
    assert (U3 : pi <= B2R E -> 180 - / 2199023255552 <= B2R e) by (intros; rewrite <- V1; apply CM; auto; try lra; fold E; lra).
    assert (U4 : B2R Y <= - pi -> B2R y - / 2199023255552 <= -180) by (intros; rewrite <- V2; apply CM; auto; try lra; fold Y; lra).
    destruct (KC k) as [H|[->|[->|[->|H]]]]; try (apply IZR_le in H; exfalso; apply (Rmult_le_compat_l (2 * pi)) in H; [|lra]; destruct (Rle_dec (B2R W)); lra).
    + exists (-1)%Z. assert (B2R W <= - pi /\ pi <= B2R Y) as [Q1 Q2] by (split; destruct (Rle_dec (B2R W)); lra). specialize (U1 Q2). specialize (U2 Q1). destruct (Rle_dec (B2R w)); lra.
    + exists 0%Z. assert (B2R w - / 2199023255552 <= B2R y) by (apply CM; auto; fold W Y; lra). destruct (Rle_dec (B2R w)); destruct (Rle_dec (B2R W)); try lra.
      assert (B2R y - / 2199023255552 <= B2R e) by (apply CM; auto; fold E Y; lra). lra.
    + exists 1%Z. destruct (Rle_dec (B2R w)); destruct (Rle_dec (B2R W)); try lra.
      assert (B2R y - / 2199023255552 <= B2R e) by (apply CM; auto; fold E Y; lra). lra.
Qed.
Print Assumptions C96_from_degrees_partial.

(** From longitude 180 to longitude -180, which are the same meridian, the
    rectangle is not valid. *)
Theorem C96_from_degrees_refuted :
  ~ (forall s w n e : f64, finite s -> finite w -> finite n -> finite e ->
     -90 <= B2R s -> B2R s <= B2R n -> B2R n <= 90 -> -180 <= B2R w <= 180 -> -180 <= B2R e <= 180 -> okz (rect_from_degrees s w n e)).
Proof.
  intros G. destruct f0_val as [Z0 V0]. destruct f1_val as [Z1 V1]. destruct (of_int_val 180 ltac:(lia)) as [Z2 V2]. destruct (of_int_val (-180) ltac:(lia)) as [Z3 V3].
  specialize (G f0 (of_int 180) f1 (of_int (-180)) Z0 Z2 Z1 Z3). rewrite V0, V1, V2, V3 in G. specialize (G ltac:(lra) ltac:(lra) ltac:(lra) ltac:(lra) ltac:(lra)).
  apply rect_is_valid_spec in G. vm_compute in G. discriminate.
Qed.
Print Assumptions C96_from_degrees_refuted.

(* Fiji: from 177 to -178 degrees *)
Example C96_hyps : exists s w n e p, finite s /\ finite w /\ finite n /\ finite e /\
  -90 <= B2R s /\ B2R s <= B2R n /\ B2R n <= 90 /\ -180 <= B2R w <= 180 /\ -180 <= B2R e <= 180 /\
  B2R e + / 1099511627776 <= B2R w <= B2R e + 360 - / 1099511627776 /\
  okp p /\ B2R (lng p) <> - pi /\
  rect_contains_ll (rect_from_degrees s w n e) (ll_from_degrees (of_int (-18)) (of_int 180)) = true /\
  rect_contains_ll (rect_from_degrees s w n e) (ll_from_degrees (of_int (-18)) f0) = false.
Proof.
  exists (of_int (-20)), (of_int 177), (of_int (-16)), (of_int (-178)), (LL f1 f1).
  destruct (of_int_val (-20) ltac:(lia)) as [Z0 ->]. destruct (of_int_val 177 ltac:(lia)) as [Z1 ->]. destruct (of_int_val (-16) ltac:(lia)) as [Z2 ->]. destruct (of_int_val (-178) ltac:(lia)) as [Z3 ->].
  do 4 (split; [assumption|]). do 6 (split; [lra|]). split; [apply (proj2 (okp_ll _)); vm_compute; reflexivity|].
  split; [cbn [lng]; destruct f1_val as [_ ->]; pose proof pi_bounds; lra|]. vm_compute. auto.
Qed.
