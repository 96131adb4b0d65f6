(** C112: the corners of a rectangle in order, inversion, and the Hausdorff distance on the line. *)
From Coq Require Import ZArith Reals Lra Lia Psatz Bool List.
From Flocq Require Import Core.
From Verif Require Import Base Spec F64 F64Facts IntervalSpec CircleSpec F64Arith F64Error R1Model S1Model R1Proofs S1Proofs ExpandProofs ChordProofs StuvError AngleModel AngleProofs CircleProofs PropsCircle RectSpec RectModel RectProofs PropsInterval PropsRect.
Open Scope R_scope.
Local Notation Z := BinInt.Z.

(** ** C112: the order of the corners of a rectangle, and the Hausdorff distance on the line *)
(* Corners 0 and 1 are the lowest, 2 and 3 the highest; going east from corner 0 to corner 1,
   and from 3 to 2, passes exactly the longitudes of the rectangle.  The number of a corner
   counts modulo 4; lo is corner 0 and hi is corner 2. *)
Theorem C112_corners : forall r k, okz r -> ~ void (zset r) ->
  let v := rect_vertex r in
  v k = v (k mod 4)%Z /\ rect_lo r = v 0%Z /\ rect_hi r = v 2%Z /\
  (forall x, zset r x -> B2R (lat (v 0%Z)) <= fst x <= B2R (lat (v 2%Z))) /\ lat (v 1%Z) = lat (v 0%Z) /\ lat (v 3%Z) = lat (v 2%Z) /\
  (forall t, arc (lng (v 0%Z)) (lng (v 1%Z)) t <-> exists p, zset r (p, t)) /\ (forall t, arc (lng (v 3%Z)) (lng (v 2%Z)) t <-> exists p, zset r (p, t)).
Proof.
  intros r k V N. cbv zeta. split; [unfold rect_vertex; rewrite Z.mod_mod by lia; reflexivity|]. split; [reflexivity|]. split; [reflexivity|].
  pose proof V as (A & B & C & D & E & _).
  assert (W : forall x, zset r x -> B2R (lo1 (rlat r)) <= fst x <= B2R (hi1 (rlat r)) /\ set1 (rlat r) (Fin (fst x))).
  { intros [p t] [Z1 Z2]. split; [|exact Z1]. cbn [fst snd] in *. destruct Z1 as [Z1 Z3]. rewrite (ev_fin _ A) in Z1. cbn [ele] in Z1. split; [exact Z1|].
    unfold number in B. destruct (hi1 (rlat r)) as [s|[]| |s m e b]; try discriminate B; cbn [ev ele] in Z3, D |- *; try contradiction; lra. }
  split; [intros x X; apply (W x X)|]. split; [reflexivity|]. split; [reflexivity|].
  assert (G : forall t, arc (slo (rlng r)) (shi (rlng r)) t <-> exists p, zset r (p, t)).
  { intros t. split; [|intros (p & _ & H); exact H]. intros H. destruct (okz_cases r V) as [[X _]|(f0 & t0 & X & Y)]; [elim N; apply zset_void; auto|]. exists f0. split; [exact X|exact H]. }
  split; exact G.
Qed.
Print Assumptions C112_corners.

(* A rectangle is inverted when its longitudes go on past the 180th meridian, without filling the circle. *)
Theorem C112_inverted : forall r, okz r -> ~ void (zset r) ->
  (rect_is_inverted r = true <-> (exists d, 0 < d /\ forall t, pi <= t <= pi + d -> circ (rlng r) t) /\ ~ (forall t, circ (rlng r) t)).
Proof.
  intros r V N. pose proof V as (_ & _ & _ & _ & E & _). pose proof E as (FL & FH & E1 & E2 & E3 & E4). pose proof pi_bounds as PB.
  destruct (okz_cases r V) as [[X _]|(p0 & t0 & X & Y)]; [elim N; apply zset_void; auto|].
  assert (NE : ~ void (circ (rlng r))) by (intros Q; apply (Q t0 Y)). apply not_void in NE; auto.
  unfold rect_is_inverted, s1_is_inverted, fgt. destruct (flt_R (shi (rlng r)) (slo (rlng r)) FH FL) as [Q|Q].
  - split; [intros _|auto]. assert (H : - pi < B2R (shi (rlng r))).
    { destruct (Req_dec (B2R (shi (rlng r))) (- pi)) as [A|A]; [|lra]. elim NE. auto. }
    split.
    + exists (B2R (shi (rlng r)) + pi). split; [lra|]. intros t T. split; [exact NE|]. exists 0%Z. unfold arc_end. destruct Rle_dec; lra.
    + intros F. destruct (F ((B2R (shi (rlng r)) + B2R (slo (rlng r))) / 2)) as (_ & k & K). unfold arc_end in K. destruct Rle_dec; [lra|].
      destruct (Z_le_dec 1 k) as [G|G]; [apply IZR_le in G|assert (G' : (k <= 0)%Z) by lia; apply IZR_le in G']; nra.
  - split; [discriminate|]. intros [(d & D & F) G]. exfalso.
    assert (H : - pi < B2R (slo (rlng r))).
    { destruct (Req_dec (B2R (slo (rlng r))) (- pi)) as [A|A]; [|lra]. elim G. destruct (C48_s1_predicates (rlng r) (rlng r) E E) as (_ & FU & _). apply FU.
      specialize (E3 A). unfold s1_is_full, s1_eq. cbn [slo shi s1_FULL]. destruct (fneg_val PI64 eq_refl) as [F1 F2]. apply andb_true_iff. split.
      - destruct (feq_R (slo (rlng r)) (fneg PI64) FL F1) as [B|B]; [reflexivity|]. rewrite F2 in B. rewrite pi_val in B. lra.
      - destruct (feq_R (shi (rlng r)) PI64 FH eq_refl) as [B|B]; [reflexivity|]. rewrite pi_val in B. lra. }
    set (e := Rmin d ((B2R (slo (rlng r)) + pi) / 2)).
    assert (P : 0 < e <= d /\ e <= (B2R (slo (rlng r)) + pi) / 2).
    { unfold e. split; [split; [apply Rmin_glb_lt; lra|apply Rmin_l]|apply Rmin_r]. }
    destruct (F (pi + e) ltac:(lra)) as (_ & k & K). unfold arc_end in K. destruct Rle_dec; [|lra].
    destruct (Z_le_dec 0 k) as [J|J]; [apply IZR_le in J|assert (J' : (k <= -1)%Z) by lia; apply IZR_le in J']; nra.
Qed.
Print Assumptions C112_inverted.

(* The full rectangle holds every position. *)
Theorem C112_full : okz rect_full /\ forall p t, - (pi / 2) <= p <= pi / 2 -> zset rect_full (p, t).
Proof.
  split; [exact full_ok|]. intros p t P. destruct (C93_predicates rect_full rect_full full_ok full_ok) as (_ & F & _). apply F; [vm_compute; reflexivity|exact P].
Qed.
Print Assumptions C112_full.

(* The greatest distance of a number in one interval from the other, correctly rounded. *)
Theorem C112_r1_hausdorff : forall i o : r1,
  (forall x, x = lo1 i \/ x = hi1 i \/ x = lo1 o \/ x = hi1 o -> finite x /\ Rabs (B2R x) <= bpow radix2 1022) -> ~ void (set1 i) -> ~ void (set1 o) ->
  exists D, (forall r, D <= r <-> 0 <= r /\ forall x, set1 i (Fin x) -> exists y, set1 o (Fin y) /\ Rabs (x - y) <= r) /\
    finite (r1_hausdorff i o) /\ B2R (r1_hausdorff i o) = rnd D.
Proof.
  intros i o W Ni No. destruct (W (lo1 i) ltac:(auto)) as [F1 B1]. destruct (W (hi1 i) ltac:(auto)) as [F2 B2]. destruct (W (lo1 o) ltac:(auto)) as [F3 B3]. destruct (W (hi1 o) ltac:(auto)) as [F4 B4].
  assert (O : forall j, finite (lo1 j) -> finite (hi1 j) -> ~ void (set1 j) -> B2R (lo1 j) <= B2R (hi1 j) /\ forall x, set1 j (Fin x) <-> B2R (lo1 j) <= x <= B2R (hi1 j)).
  { intros j P Q N. unfold between in *. rewrite (ev_fin _ P), (ev_fin _ Q) in *. cbn [ele]. split; [|intros; tauto].
    destruct (Rle_dec (B2R (lo1 j)) (B2R (hi1 j))) as [L|L]; [exact L|]. elim N. intros [|x|] [K1 K2]; cbn [ele] in *; try tauto. lra. }
  destruct (O i F1 F2 Ni) as [Li Si]. destruct (O o F3 F4 No) as [Lo So].
  set (a := B2R (hi1 i) - B2R (hi1 o)). set (b := B2R (lo1 o) - B2R (lo1 i)). exists (Rmax 0 (Rmax a b)). split.
  - intros r. split.
    + intros H. assert (H1 : 0 <= r /\ a <= r /\ b <= r).
      { pose proof (Rmax_l 0 (Rmax a b)). pose proof (Rmax_r 0 (Rmax a b)). pose proof (Rmax_l a b). pose proof (Rmax_r a b). lra. }
      destruct H1 as (H1 & H2 & H3). split; [exact H1|]. unfold a, b in *. intros x X. apply Si in X.
      destruct (Rle_dec (B2R (lo1 o)) x) as [P|P]; [destruct (Rle_dec x (B2R (hi1 o))) as [Q|Q]|].
      * exists x. split; [apply So; lra|]. replace (x - x) with 0 by ring. rewrite Rabs_R0. exact H1.
      * exists (B2R (hi1 o)). split; [apply So; lra|]. rewrite Rabs_pos_eq; lra.
      * exists (B2R (lo1 o)). split; [apply So; lra|]. rewrite Rabs_left1; lra.
    + intros [H1 H]. unfold a, b. destruct (H (B2R (hi1 i)) ltac:(apply Si; lra)) as (y & Y & D1). destruct (H (B2R (lo1 i)) ltac:(apply Si; lra)) as (z & Z & D2).
      apply So in Y. apply So in Z. apply Rabs_le_inv in D1. apply Rabs_le_inv in D2. repeat apply Rmax_lub; lra.
  - unfold r1_hausdorff. assert (E : forall j, finite (lo1 j) -> finite (hi1 j) -> B2R (lo1 j) <= B2R (hi1 j) -> r1_is_empty j = false).
    { intros j P Q L. unfold r1_is_empty, fgt. destruct (flt_R (hi1 j) (lo1 j) Q P) as [K|K]; [lra|reflexivity]. }
    rewrite (E i), (E o) by auto.
    assert (R : forall x y, finite x -> finite y -> Rabs (B2R x) <= bpow radix2 1022 -> Rabs (B2R y) <= bpow radix2 1022 -> finite (fsub x y) /\ B2R (fsub x y) = rnd (B2R x - B2R y)).
    { intros x y P Q X Y. destruct (fsub_result x y P Q) as [(K1 & K2 & _)|(s & _ & K & _)]; [auto|]. exfalso.
      assert (T : Rabs (rnd (B2R x - B2R y)) <= bpow radix2 1023).
      { assert (T1 : Rabs (B2R x - B2R y) <= bpow radix2 1023).
        { change 1023%Z with (1 + 1022)%Z. rewrite bpow_plus. change (bpow radix2 1) with 2. apply Rabs_le. apply Rabs_le_inv in X. apply Rabs_le_inv in Y. lra. }
        apply abs_round_le_generic; [apply FLT_exp_valid; reflexivity|apply valid_rnd_N| |exact T1].
        apply generic_format_bpow. unfold FLT_exp. lia. }
      assert (L : bpow radix2 1023 < bpow radix2 1024) by (apply bpow_lt; lia). lra. }
    destruct (R _ _ F2 F4 B2 B4) as [G1 V1]. destruct (R _ _ F3 F1 B3 B1) as [G2 V2]. fold a in V1. fold b in V2.
    destruct (fmax_R _ _ G1 G2) as [G3 V3]. destruct (fmax_R f0 _ eq_refl G3) as [G4 V4]. split; [exact G4|]. rewrite V4, V3, V1, V2. change (B2R f0) with 0.
    assert (M : forall x y, Rmax (rnd x) (rnd y) = rnd (Rmax x y)).
    { intros x y. unfold Rmax. destruct (Rle_dec x y) as [L|L]; destruct (Rle_dec (rnd x) (rnd y)) as [K|K]; try reflexivity.
      - elim K. apply rnd_le. exact L.
      - apply Rle_antisym; [|exact K]. apply rnd_le. lra. }
    rewrite M. rewrite <- (M 0). f_equal. symmetry. apply round_0. apply valid_rnd_N.
Qed.
Print Assumptions C112_r1_hausdorff.
Example C112_example : feq (r1_hausdorff (R1 f0 (of_int 5)) (R1 f1 f2)) (of_int 3) = true /\ rect_is_inverted (Rect (R1 f0 f1) (S1 (of_int 3) (of_int (-3)))) = true /\
  rect_is_valid (Rect (R1 f0 f1) (S1 (of_int 3) (of_int (-3)))) = true.
Proof. split; [vm_compute; reflexivity|split; vm_compute; reflexivity]. Qed.
