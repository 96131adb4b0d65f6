(** C93-C96: latitude-longitude rectangles.

    [zset r] is the set of positions of a rectangle and [zint r] its interior
    (RectSpec.v): pairs of a latitude and a longitude, the latter modulo 2 pi. *)
From Coq Require Import Reals Lra Psatz Classical.
From Verif Require Import F64 F64Facts IntervalSpec CircleSpec RectSpec F64Arith F64Error R1Model S1Model R1Proofs S1Proofs S1Ops PropsInterval StuvError AngleModel AngleProofs ExpandProofs CircleProofs PropsCircle RectModel RectProofs.
Open Scope R_scope.

Theorem C93_is_valid : forall r : rect, rect_is_valid r = true <-> okz r.
Proof. exact rect_is_valid_spec. Qed.
Print Assumptions C93_is_valid.

Lemma okp_ll p : okp p <-> ll_is_valid p = true.
Proof.
  rewrite ll_is_valid_spec. unfold valid_position, valid_ll. split; intros (A & B & C & D); (split; [exact A|split; [exact B|split]]); try (apply Rabs_le; lra); apply Rabs_le_inv in C, D; lra.
Qed.
Lemma LAT_set x : set1 LAT_RANGE x <-> exists f, x = Fin f /\ - (pi / 2) <= f <= pi / 2.
Proof.
  unfold between, LAT_RANGE. cbn [lo1 hi1]. destruct half_neg as [F1 V1]. destruct FRAC_PI_2_val as [F2 V2]. fold FRAC_PI_2. rewrite (ev_fin _ F1), (ev_fin _ F2), V1, V2.
  split.
  - intros [A B]. unfold ele in A, B. destruct x; try contradiction. eauto.
  - intros (f & -> & A). unfold ele. lra.
Qed.
Lemma LAT_ok : ok1 LAT_RANGE. Proof. split; vm_compute; reflexivity. Qed.
Lemma full_ok : okz rect_full. Proof. apply rect_is_valid_spec. vm_compute. reflexivity. Qed.
Lemma empty_ok : okz rect_empty. Proof. apply rect_is_valid_spec. vm_compute. reflexivity. Qed.
Lemma empty_void : void (zset rect_empty).
Proof. apply zset_void; [apply empty_ok|]. apply (r1_is_empty_spec r1_EMPTY); [split; reflexivity|]. vm_compute. reflexivity. Qed.
Lemma lat_range r f : okz r -> set1 (rlat r) (Fin f) -> - (pi / 2) <= f <= pi / 2.
Proof.
  intros (A & B & C & D & _) [E F]. rewrite (ev_fin _ A) in E. unfold ele in D, E, F. destruct (ev (hi1 (rlat r))); try contradiction. lra.
Qed.

Theorem C93_predicates : forall r o : rect, okz r -> okz o ->
  (rect_is_empty r = true <-> void (zset r)) /\
  (rect_is_full r = true <-> forall x : position, - (pi / 2) <= fst x <= pi / 2 -> zset r x) /\
  (forall p, okp p -> rect_contains_ll r p = true <-> zset r (pos p)) /\
  (forall p, ~ okp p -> rect_contains_ll r p = false) /\
  (forall p, okp p -> rect_interior_contains_ll r p = true <-> zint r (pos p)) /\
  (rect_contains r o = true <-> subset (zset o) (zset r)) /\
  (rect_interior_contains r o = true <-> subset (zset o) (zint r)) /\
  (rect_intersects r o = true <-> meets (zset r) (zset o)) /\
  (rect_interior_intersects r o = true <-> meets (zint r) (zset o)) /\
  (rect_eq r o = true <-> forall x, zset r x <-> zset o x).
Proof.
  intros r o Vr Vo. pose proof (okz_lat r Vr) as Lr. pose proof (okz_lat o Vo) as Lo. pose proof (okz_lng r Vr) as Gr. pose proof (okz_lng o Vo) as Go.
  destruct (C47_r1_predicates (rlat r) (rlat o) Lr Lo) as (P1 & P2 & P3 & P4 & P5 & P6 & P7 & P8).
  destruct (C48_s1_predicates (rlng r) (rlng o) Gr Go) as (Q1 & Q2 & Q3 & Q4 & Q5 & Q6 & Q7 & Q8).
  pose proof pi_bounds as PB.
  assert (LL' : forall p, okp p -> finite (lat p) /\ angle (lng p)) by (intros p (A & B & C & D); split; [exact A|split; auto]).
  split; [unfold rect_is_empty; rewrite zset_void by auto; exact P1|]. split.
  { unfold rect_is_full. rewrite andb_true_iff. destruct (C47_r1_predicates (rlat r) LAT_RANGE Lr LAT_ok) as (_ & _ & _ & _ & _ & _ & _ & E). rewrite E, Q2. split.
    - intros [A B] [f t] H. split; [|apply B]. apply A. apply LAT_set. exists f. auto.
    - intros H. split.
      + intros x. split.
        * intros X. destruct (okz_fin r x Vr X) as [f ->]. apply LAT_set. exists f. split; [reflexivity|]. apply (lat_range r f Vr X).
        * intros X. destruct (proj1 (LAT_set x) X) as (f & -> & X'). destruct (H (f, 0) X') as [Y _]. exact Y.
      + intros t. destruct (H (0, t)) as [_ Y]; [cbn; lra|exact Y]. }
  split.
  { intros p Hp. destruct (LL' p Hp) as [F A]. unfold rect_contains_ll. rewrite (proj1 (okp_ll p) Hp). cbn [andb]. rewrite andb_true_iff, P2, Q3 by (auto; apply finite_number; auto).
    rewrite (ev_fin _ F). reflexivity. }
  split.
  { intros p Hp. unfold rect_contains_ll. rewrite okp_ll in Hp. destruct ll_is_valid; [elim Hp; reflexivity|reflexivity]. }
  split.
  { intros p Hp. destruct (LL' p Hp) as [F A]. unfold rect_interior_contains_ll. rewrite andb_true_iff, P3, Q4 by (auto; apply finite_number; auto). rewrite (ev_fin _ F). reflexivity. }
  split.
  { unfold rect_contains. rewrite andb_true_iff, P4, Q5. symmetry. apply (sub_prod o (set1 (rlat r)) (circ (rlng r)) Vo). }
  split.
  { unfold rect_interior_contains. rewrite andb_true_iff, P5, Q6. symmetry. apply (sub_prod o (int1 (rlat r)) (circ_int (rlng r)) Vo). }
  split.
  { unfold rect_intersects. rewrite andb_true_iff, P6, Q7. symmetry. apply meet_prod. intros x X _. exact (okz_fin r x Vr X). }
  split.
  { unfold rect_interior_intersects. rewrite andb_true_iff, P7, Q8. symmetry. apply meet_prod. intros x _ X. exact (okz_fin o x Vo X). }
  unfold rect_eq. rewrite andb_true_iff, P8, (s1_eq_spec _ _ Gr Go). split.
  - intros [A B] [f t]. unfold zone. cbn [fst snd]. rewrite A, B. reflexivity.
  - intros H. assert (S1 : subset (zset r) (zset o)) by (intros x; apply H). assert (S2 : subset (zset o) (zset r)) by (intros x; apply H).
    apply (sub_prod r (set1 (rlat o)) (circ (rlng o)) Vr) in S1. apply (sub_prod o (set1 (rlat r)) (circ (rlng r)) Vo) in S2. destruct S1, S2.
    split; intros x; split; auto.
Qed.
Print Assumptions C93_predicates.

(** The four corners and the centre belong to a rectangle that is not empty; it is
    a point when it holds one position only. *)
Theorem C93_corners : forall r : rect, okz r -> ~ void (zset r) ->
  (forall k : Z, okp (rect_vertex r k) /\ zset r (pos (rect_vertex r k))) /\
  (rect_is_point r = true <-> exists p : position, forall x, zset r x <-> fst x = fst p /\ exists k : Z, snd x = snd p + 2 * pi * IZR k).
Proof.
  intros r V N. pose proof V as (A & B & C & D & E & _). pose proof E as (FL & FH & E1 & E2 & E3 & E4). pose proof pi_bounds as PB.
  destruct (okz_cases r V) as [[X _]|(f0 & t0 & X & Y)]; [elim N; apply zset_void; auto|].
  assert (NE : ~ void (circ (rlng r))) by (intros Q; apply (Q t0 Y)). pose proof NE as NE'. apply not_void in NE'; auto. pose proof (span_range _ E NE') as SR.
  assert (FN : finite (hi1 (rlat r)) /\ B2R (lo1 (rlat r)) <= B2R (hi1 (rlat r)) <= pi / 2).
  { destruct X as [X1 X2]. rewrite (ev_fin _ A) in X1. assert (F : finite (hi1 (rlat r))).
    { unfold number in B. destruct (hi1 (rlat r)) as [s|[]| |s m e b]; unfold ev, ele in X2, D; try contradiction; try discriminate B; reflexivity. }
    split; [exact F|]. rewrite (ev_fin _ F) in X2, D. unfold ele in X1, X2, D. lra. }
  destruct FN as [FN BN].
  assert (S : set1 (rlat r) (Fin (B2R (lo1 (rlat r))))) by (split; rewrite ?(ev_fin _ A), ?(ev_fin _ FN); unfold ele; lra).
  assert (T : set1 (rlat r) (Fin (B2R (hi1 (rlat r))))) by (split; rewrite ?(ev_fin _ A), ?(ev_fin _ FN); unfold ele; lra).
  assert (W : circ (rlng r) (B2R (slo (rlng r)))) by (apply lo_in; auto).
  assert (Ea : circ (rlng r) (B2R (shi (rlng r)))).
  { split; [exact NE'|]. unfold arc_end. destruct Rle_dec; [exists 0%Z|exists 1%Z]; lra. }
  split.
  - intros k. unfold rect_vertex. set (P := fun p => okp p /\ zset r (pos p)).
    assert (P0 : P (LL (lo1 (rlat r)) (slo (rlng r))) /\ P (LL (lo1 (rlat r)) (shi (rlng r))) /\ P (LL (hi1 (rlat r)) (shi (rlng r))) /\ P (LL (hi1 (rlat r)) (slo (rlng r)))).
    { unfold P, valid_position, zone, lat_lng. cbn [lat lng fst snd]. repeat split; auto; try lra; try apply S; try apply T; try apply W; apply Ea. }
    unfold P in P0. destruct P0 as (P0 & P1 & P2 & P3). destruct (k mod 4)%Z as [|[[]|[]|]|]; auto.
  - unfold rect_is_point. rewrite andb_true_iff. destruct (feq_R _ _ A FN) as [Q|Q]; [destruct (feq_R _ _ FL FH) as [Q'|Q']|].
    + split; [intros _|auto]. exists (B2R (lo1 (rlat r)), B2R (slo (rlng r))). intros [f t]. unfold zone, between. cbn [fst snd]. rewrite (ev_fin _ A), (ev_fin _ FN), <- Q. unfold ele. split.
      * intros [F G]. split; [lra|]. apply arc_span in G; [|exact NE']. destruct G as (k & K).
        assert (S0 : span (rlng r) = 0) by (unfold span, arc_end; rewrite <- Q'; destruct Rle_dec; lra). rewrite S0 in K. exists (- k)%Z. rewrite opp_IZR. lra.
      * intros [F (k & G)]. split; [lra|]. apply arc_span; [exact NE'|]. exists (- k)%Z. rewrite opp_IZR. lra.
    + split; [intros [_ H]; discriminate|]. intros (p & H). exfalso.
      assert (G : forall t, circ (rlng r) t -> exists k : Z, t = snd p + 2 * pi * IZR k).
      { intros t Ht. apply (H (B2R (lo1 (rlat r)), t)). split; auto. }
      assert (SP : 0 < span (rlng r)).
      { unfold span, arc_end, nonempty in *. destruct Rle_dec; lra. }
      destruct (G _ W) as (a & Ha).
      assert (W' : circ (rlng r) (B2R (slo (rlng r)) + span (rlng r) / 2)).
      { apply arc_span; [exact NE'|]. exists 0%Z. lra. }
      destruct (G _ W') as (b & Hb). assert (Z : 0 < IZR (b - a) < 1) by (rewrite minus_IZR; split; apply Rmult_lt_reg_l with (2 * pi); lra).
      destruct Z as [Z1 Z2]. apply lt_IZR in Z1, Z2. lia.
    + split; [intros [H _]; discriminate|]. intros (p & H). exfalso. apply Q.
      destruct (proj1 (H (B2R (lo1 (rlat r)), B2R (slo (rlng r)))) (conj S W)) as [H1 _].
      destruct (proj1 (H (B2R (hi1 (rlat r)), B2R (slo (rlng r)))) (conj T W)) as [H2 _]. cbn [fst] in *. congruence.
Qed.
Print Assumptions C93_corners.

(* 30 degrees either side of the antimeridian, and a rectangle that meets it *)
Example C93_hyps : exists r o, okz r /\ okz o /\ ~ void (zset r) /\ rect_is_inverted r = true /\
  rect_intersects r o = true /\ rect_contains r o = false /\ rect_contains_ll r (LL f0 (of_int 3)) = true /\ rect_contains_ll o (LL f0 (of_int 3)) = false.
Proof.
  exists (Rect (R1 (of_int (-1)) f1) (S1 (lit 5 (-1)) (lit (-5) (-1)))), (Rect (R1 f0 (lit 3 (-1))) (S1 (of_int (-3)) f0)).
  set (r := Rect (R1 (of_int (-1)) f1) (S1 (lit 5 (-1)) (lit (-5) (-1)))). set (o := Rect (R1 f0 (lit 3 (-1))) (S1 (of_int (-3)) f0)).
  assert (Vr : okz r) by (apply rect_is_valid_spec; vm_compute; reflexivity). assert (Vo : okz o) by (apply rect_is_valid_spec; vm_compute; reflexivity).
  split; [exact Vr|]. split; [exact Vo|]. split.
  { intros E. apply (C93_predicates r r Vr Vr) in E. vm_compute in E. discriminate. }
  vm_compute. auto.
Qed.

(** ** C94 Operations *)

Lemma okz_make s n i : number n -> finite s -> - (pi / 2) <= B2R s <= pi / 2 -> ele (ev n) (Fin (pi / 2)) -> okc i ->
  (void (between s n) <-> void (circ i)) -> okz (Rect (R1 s n) i).
Proof. intros. unfold valid_zone. cbn [rlat rlng lo1 hi1]. auto 10. Qed.

(* the ends of a set of latitudes within the range *)
Lemma lat_ok (i : r1) : ok1 i -> ~ void (set1 i) -> (forall x, set1 i x -> exists f, x = Fin f /\ - (pi / 2) <= f <= pi / 2) ->
  finite (lo1 i) /\ - (pi / 2) <= B2R (lo1 i) <= pi / 2 /\ ele (ev (hi1 i)) (Fin (pi / 2)).
Proof.
  intros [N1 N2] E H. rewrite <- (r1_is_empty_spec i (conj N1 N2)) in E. unfold r1_is_empty, fgt in E.
  destruct (flt_g (hi1 i) (lo1 i) N2 N1) as [Q|Q]; [elim E; reflexivity|].
  assert (L : set1 i (ev (lo1 i))) by (apply In1_phi; unfold g in *; lra). assert (U : set1 i (ev (hi1 i))) by (apply In1_phi; unfold g in *; lra).
  destruct (H _ L) as (f & Ef & Bf). destruct (H _ U) as (f' & Ef' & Bf').
  assert (F : finite (lo1 i)). { unfold number in N1. destruct (lo1 i) as [s|[]| |s m e b]; try discriminate N1; try discriminate Ef; reflexivity. }
  split; [exact F|]. rewrite (ev_fin _ F) in Ef. injection Ef as Ef. rewrite Ef. split; [exact Bf|]. rewrite Ef'. unfold ele. lra.
Qed.

Theorem C94_union : forall r o : rect, okz r -> okz o ->
  okz (rect_union r o) /\
  (forall x, zset r x \/ zset o x -> zset (rect_union r o) x) /\
  (* no latitude is added that another rectangle around both could leave out *)
  (forall k x, okz k -> subset (zset r) (zset k) -> subset (zset o) (zset k) -> zset (rect_union r o) x -> between (lo1 (rlat k)) (hi1 (rlat k)) (Fin (fst x))) /\
  (* no longitude is added when the two share one *)
  (meets (circ (rlng r)) (circ (rlng o)) -> forall x, zset (rect_union r o) x -> circ (rlng r) (snd x) \/ circ (rlng o) (snd x)).
Proof.
  intros r o Vr Vo. pose proof (okz_lat r Vr) as Lr. pose proof (okz_lat o Vo) as Lo. pose proof (okz_lng r Vr) as Gr. pose proof (okz_lng o Vo) as Go.
  destruct (C47_r1_operations _ _ Lr Lo) as (_ & (U1 & U2 & U3) & _). destruct (C48_s1_union _ _ Gr Go) as (W1 & W2 & W3 & _).
  assert (HV : okz (rect_union r o)).
  { assert (E : rect_union r o = Rect (R1 (lo1 (r1_union (rlat r) (rlat o))) (hi1 (r1_union (rlat r) (rlat o)))) (s1_union (rlng r) (rlng o))).
    { unfold rect_union. destruct (r1_union (rlat r) (rlat o)). reflexivity. }
    destruct (okz_cases r Vr) as [[A1 A2]|(f & t & F & T)].
    - assert (X : rect_union r o = Rect (rlat o) (s1_union (rlng r) (rlng o))).
      { unfold rect_union, r1_union. replace (r1_is_empty (rlat r)) with true by (symmetry; apply (r1_is_empty_spec _ Lr); exact A1). reflexivity. }
      rewrite X. pose proof Vo as (B1 & B2 & B3 & B4 & B5 & B6). unfold valid_zone. cbn [rlat rlng]. do 4 (split; [assumption|]). split; [exact W1|].
      rewrite B6. split; intros H t T.
      + destruct (W3 (or_intror (or_introl A2)) t T) as [Y|Y]; [apply (A2 t Y)|apply (H t Y)].
      + apply (H t). apply W2. auto.
    - assert (NV : ~ void (set1 (r1_union (rlat r) (rlat o)))) by (intros H; apply (H (Fin f)); apply U2; auto).
      assert (NW : ~ void (circ (s1_union (rlng r) (rlng o)))) by (intros H; apply (H t); apply W2; auto).
      destruct (lat_ok _ U1 NV) as (X1 & X2 & X3).
      { intros x Hx. apply (proj1 (LAT_set x)). apply (U3 LAT_RANGE LAT_ok); [| |exact Hx]; intros y Hy; apply (proj2 (LAT_set _)).
        - destruct (okz_fin r y Vr Hy) as [g ->]. exists g. split; [reflexivity|]. exact (lat_range r g Vr Hy).
        - destruct (okz_fin o y Vo Hy) as [g ->]. exists g. split; [reflexivity|]. exact (lat_range o g Vo Hy). }
      unfold valid_zone. change (rlat (rect_union r o)) with (r1_union (rlat r) (rlat o)). change (rlng (rect_union r o)) with (s1_union (rlng r) (rlng o)).
      split; [exact X1|]. split; [apply U1|]. split; [exact X2|]. split; [exact X3|]. split; [exact W1|]. tauto. }
  split; [exact HV|]. split; [|split].
  - intros x [[A B]|[A B]]; split; try (apply U2; auto); apply W2; auto.
  - intros k x Vk Sr So [Hx _]. refine (U3 (rlat k) (okz_lat k Vk) _ _ _ Hx).
    + apply (sub_prod r (set1 (rlat k)) (circ (rlng k)) Vr) in Sr. apply Sr.
    + apply (sub_prod o (set1 (rlat k)) (circ (rlng k)) Vo) in So. apply So.
  - intros M x [_ Hx]. apply W3; auto.
Qed.
Print Assumptions C94_union.

Theorem C94_add : forall (r : rect) (p : latlng), okz r ->
  (~ okp p -> rect_add r p = r) /\
  (okp p -> okz (rect_add r p) /\ subset (zset r) (zset (rect_add r p)) /\ zset (rect_add r p) (pos p) /\
     forall k x, okz k -> subset (zset r) (zset k) -> zset k (pos p) -> zset (rect_add r p) x -> between (lo1 (rlat k)) (hi1 (rlat k)) (Fin (fst x))).
Proof.
  intros r p Vr. rewrite okp_ll. unfold rect_add. destruct (ll_is_valid p) eqn:E; cbn [negb]; (split; [intros H|intros H]).
  - elim H; reflexivity.
  - apply okp_ll in E. clear H. destruct E as (F1 & F2 & R1 & R2). pose proof (okz_lat r Vr) as Lr. pose proof (okz_lng r Vr) as Gr.
    destruct (C47_r1_operations _ _ Lr Lr) as (_ & _ & U & _). destruct (U (lat p) (finite_number _ F1)) as (U1 & U2 & U3 & U4).
    destruct C48_s1_construction as (_ & _ & W). destruct (W (rlng r) (lng p) Gr (conj F2 R2)) as (W1 & W2 & W3). rewrite (ev_fin _ F1) in U3, U4.
    assert (NV : ~ void (set1 (r1_add (rlat r) (lat p)))) by (intros H; apply (H _ U3)).
    assert (NW : ~ void (circ (s1_add (rlng r) (lng p)))) by (intros H; apply (H _ W3)).
    assert (SL : subset (set1 (rlat r)) (set1 LAT_RANGE)).
    { intros y Hy. apply (proj2 (LAT_set _)). destruct (okz_fin r y Vr Hy) as [g ->]. exists g. split; [reflexivity|]. exact (lat_range r g Vr Hy). }
    assert (SP : set1 LAT_RANGE (Fin (B2R (lat p)))) by (apply (proj2 (LAT_set _)); eauto).
    destruct (lat_ok _ U1 NV) as (X1 & X2 & X3).
    { intros x Hx. apply (proj1 (LAT_set x)). exact (U4 LAT_RANGE LAT_ok SL SP x Hx). }
    split; [|split; [|split]].
    + unfold valid_zone. cbn [rlat rlng]. split; [exact X1|]. split; [apply U1|]. split; [exact X2|]. split; [exact X3|]. split; [exact W1|]. tauto.
    + intros x [A B]. split; [apply U2|apply W2]; auto.
    + split; [exact U3|exact W3].
    + intros k x Vk Sr [Sp _] [Hx _]. refine (U4 (rlat k) (okz_lat k Vk) _ Sp _ Hx). apply (sub_prod r (set1 (rlat k)) (circ (rlng k)) Vr) in Sr. apply Sr.
  - reflexivity.
  - discriminate.
Qed.
Print Assumptions C94_add.

Theorem C94_from_point_pair : forall p q : latlng, okp p -> okp q ->
  let r := rect_from_point_pair p q in
  okz r /\ zset r (pos p) /\ zset r (pos q) /\
  forall k x, okz k -> zset k (pos p) -> zset k (pos q) -> zset r x -> between (lo1 (rlat k)) (hi1 (rlat k)) (Fin (fst x)).
Proof.
  intros p q (F1 & F2 & R1 & R2) (F1' & F2' & R1' & R2') r.
  destruct (C47_r1_operations r1_EMPTY r1_EMPTY ltac:(split; reflexivity) ltac:(split; reflexivity)) as (_ & _ & _ & _ & U).
  destruct (U (lat p) (lat q) (finite_number _ F1) (finite_number _ F1')) as (U1 & U2 & U3 & U4). rewrite (ev_fin _ F1) in U2, U4. rewrite (ev_fin _ F1') in U3, U4.
  destruct C48_s1_construction as (_ & W & _). destruct (W (lng p) (lng q) (conj F2 R2) (conj F2' R2')) as (W1 & W2 & W3).
  assert (NV : ~ void (set1 (r1_from_point_pair (lat p) (lat q)))) by (intros H; apply (H _ U2)).
  assert (NW : ~ void (circ (s1_from_point_pair (lng p) (lng q)))) by (intros H; apply (H _ W2)).
  assert (SP : set1 LAT_RANGE (Fin (B2R (lat p)))) by (apply (proj2 (LAT_set _)); eauto). assert (SQ : set1 LAT_RANGE (Fin (B2R (lat q)))) by (apply (proj2 (LAT_set _)); eauto).
  destruct (lat_ok _ U1 NV) as (X1 & X2 & X3).
  { intros x Hx. apply (proj1 (LAT_set x)). exact (U4 LAT_RANGE LAT_ok SP SQ x Hx). }
  split; [|split; [|split]].
  - unfold valid_zone, r, rect_from_point_pair. cbn [rlat rlng]. split; [exact X1|]. split; [apply U1|]. split; [exact X2|]. split; [exact X3|]. split; [exact W1|]. tauto.
  - split; [exact U2|exact W2].
  - split; [exact U3|exact W3].
  - intros k x Vk [Sp _] [Sq _] [Hx _]. exact (U4 (rlat k) (okz_lat k Vk) Sp Sq _ Hx).
Qed.
Print Assumptions C94_from_point_pair.

(** All longitudes when the rectangle touches a pole, and no change otherwise. *)
Theorem C94_polar_closure : forall r : rect, okz r -> ~ void (zset r) ->
  okz (rect_polar_closure r) /\
  ((exists x, zset r x /\ (fst x = pi / 2 \/ fst x = - (pi / 2))) ->
     forall x, zset (rect_polar_closure r) x <-> between (lo1 (rlat r)) (hi1 (rlat r)) (Fin (fst x))) /\
  (~ (exists x, zset r x /\ (fst x = pi / 2 \/ fst x = - (pi / 2))) -> rect_polar_closure r = r).
Proof.
  intros r V N. destruct (C93_corners r V N) as [K _]. pose proof (K 0%Z) as [K0 Z0]. pose proof (K 2%Z) as [K2 Z2].
  unfold rect_vertex in *. change (0 mod 4)%Z with 0%Z in *. change (2 mod 4)%Z with 2%Z in *. cbv iota in *.
  destruct K0 as (FL & _ & BL & _). destruct K2 as (FH & _ & BH & _). cbn [lat lng] in *.
  pose proof V as (A & B & C & D & E & G). destruct half_neg as [F1 V1]. destruct FRAC_PI_2_val as [F2 V2]. fold FRAC_PI_2.
  unfold rect_polar_closure. fold FRAC_PI_2.
  set (P := exists x, zset r x /\ (fst x = pi / 2 \/ fst x = - (pi / 2))).
  assert (HP : P <-> (B2R (lo1 (rlat r)) = - (pi / 2) \/ B2R (hi1 (rlat r)) = pi / 2)).
  { split.
    - intros ([f t] & [[L U] _] & H). cbn [fst] in *. rewrite (ev_fin _ FL) in L. rewrite (ev_fin _ FH) in U. unfold ele in L, U. destruct H as [H|H]; [right|left]; lra.
    - intros [H|H]; [exists (lat_lng (lo1 (rlat r)) (slo (rlng r))); split; [exact Z0|right; exact H]|exists (lat_lng (hi1 (rlat r)) (shi (rlng r))); split; [exact Z2|left; exact H]]. }
  assert (VF : okz (Rect (rlat r) s1_FULL)).
  { unfold valid_zone. cbn [rlat rlng]. do 4 (split; [assumption|]). split; [exact FULL_valid|]. split; intros H.
    - elim N. apply zset_void; auto.
    - elim (H 0). apply Arc_FULL. }
  assert (SF : forall x, zset (Rect (rlat r) s1_FULL) x <-> between (lo1 (rlat r)) (hi1 (rlat r)) (Fin (fst x))).
  { intros x. unfold zone. cbn [rlat rlng]. split; [tauto|]. intros H. split; [exact H|apply Arc_FULL]. }
  destruct (feq_R _ _ FL F1) as [Q|Q]; rewrite V1 in Q; cbn [orb].
  - split; [exact VF|]. split; [intros _; exact SF|]. intros H. elim H. apply HP. auto.
  - destruct (feq_R _ _ FH F2) as [Q'|Q']; rewrite V2 in Q'.
    + split; [exact VF|]. split; [intros _; exact SF|]. intros H. elim H. apply HP. auto.
    + split; [exact V|]. split; [|reflexivity]. intros H. exfalso. apply HP in H. tauto.
Qed.
Print Assumptions C94_polar_closure.

(** Promised: exactly the common positions.  Proved: all of them, and no others
    unless the first rectangle holds both end longitudes of the second. *)
Theorem C94_intersection_partial : forall r o : rect, okz r -> okz o ->
  okz (rect_intersection r o) /\
  (forall x, zset r x -> zset o x -> zset (rect_intersection r o) x) /\
  (forall x, zset (rect_intersection r o) x -> set1 (rlat r) (Fin (fst x)) /\ set1 (rlat o) (Fin (fst x)) /\ (circ (rlng r) (snd x) \/ circ (rlng o) (snd x))) /\
  (~ (circ (rlng r) (B2R (slo (rlng o))) /\ circ (rlng r) (B2R (shi (rlng o)))) ->
     forall x, zset (rect_intersection r o) x -> zset r x /\ zset o x).
Proof.
  intros r o Vr Vo. pose proof (okz_lat r Vr) as Lr. pose proof (okz_lat o Vo) as Lo. pose proof (okz_lng r Vr) as Gr. pose proof (okz_lng o Vo) as Go.
  destruct (C47_r1_operations _ _ Lr Lo) as ((U1 & U2) & _). destruct (C48_s1_intersection _ _ Gr Go) as (W1 & W2 & W3 & W4).
  assert (W4' : forall t, circ (s1_intersection (rlng r) (rlng o)) t -> circ (rlng r) t \/ circ (rlng o) t).
  { intros t T. destruct W4 as [W4|[W4|W4]]; [rewrite W4 in T; auto|rewrite W4 in T; auto|]. destruct (W4 t T). auto. }
  unfold rect_intersection. set (la := r1_intersection (rlat r) (rlat o)) in *. set (ln := s1_intersection (rlng r) (rlng o)) in *.
  pose proof (r1_is_empty_spec la U1) as E1. pose proof (s1_is_empty_spec ln ln W1 W1) as E2. unfold In1 in E1. unfold Arc in E2.
  destruct (r1_is_empty la || s1_is_empty ln)%bool eqn:E.
  - split; [exact empty_ok|]. split; [|split; [intros x H; elim (empty_void x H)|intros _ x H; elim (empty_void x H)]].
    intros [f t] [A1 A2] [B1 B2]. exfalso. cbn [fst snd] in *. apply orb_true_iff in E. destruct E as [E|E]; [apply E1 in E; apply (E (Fin f)), U2; auto|apply E2 in E; apply (E t), W2; auto].
  - apply orb_false_iff in E. destruct E as [X1 X2].
    assert (NV : ~ void (set1 la)) by (intros H; apply E1 in H; congruence). assert (NW : ~ void (circ ln)) by (intros H; apply E2 in H; congruence).
    destruct (lat_ok _ U1 NV) as (Y1 & Y2 & Y3).
    { intros x Hx. apply U2 in Hx. destruct Hx as [Hx _]. destruct (okz_fin r x Vr Hx) as [g ->]. exists g. split; [reflexivity|]. exact (lat_range r g Vr Hx). }
    split; [|split; [|split]].
    + unfold valid_zone. cbn [rlat rlng]. split; [exact Y1|]. split; [apply U1|]. split; [exact Y2|]. split; [exact Y3|]. split; [exact W1|]. tauto.
    + intros x [A1 A2] [B1 B2]. split; [apply U2; auto|apply W2; auto].
    + intros x [A B]. cbn [rlat rlng] in *. apply U2 in A. destruct A. auto.
    + intros H x [A B]. cbn [rlat rlng] in *. apply U2 in A. destruct A as [A A']. destruct (W3 H _ B). split; split; auto.
Qed.
Print Assumptions C94_intersection_partial.

(** It may keep other positions: longitudes are compared by rounded lengths (C62). *)
Theorem C94_intersection_refuted :
  ~ (forall r o : rect, okz r -> okz o -> forall x, zset (rect_intersection r o) x -> zset r x /\ zset o x).
Proof.
  intros G. set (r := Rect (R1 f0 f1) (S1 (of_int (-1)) (lit 1 (-70)))). set (o := Rect (R1 f0 f1) (S1 (of_int (-1)) f0)). set (p := LL f0 (lit 1 (-70))).
  assert (Vr : okz r) by (apply rect_is_valid_spec; vm_compute; reflexivity). assert (Vo : okz o) by (apply rect_is_valid_spec; vm_compute; reflexivity).
  assert (Vi : okz (rect_intersection r o)) by (apply C94_intersection_partial; auto).
  assert (Hp : okp p) by (apply okp_ll; vm_compute; reflexivity).
  destruct (C93_predicates _ _ Vi Vi) as (_ & _ & Ci & _). destruct (C93_predicates _ _ Vo Vo) as (_ & _ & Co & _).
  assert (I1 : zset (rect_intersection r o) (pos p)) by (apply Ci; [exact Hp|vm_compute; reflexivity]).
  destruct (G r o Vr Vo _ I1) as [_ I2]. apply Co in I2; [|exact Hp]. vm_compute in I2. discriminate.
Qed.
Print Assumptions C94_intersection_refuted.

Example C94_hyps : exists r o p, okz r /\ okz o /\ okp p /\ ~ okp (LL (of_int 2) f0) /\
  rect_contains_ll (rect_intersection r o) (LL (lit 1 (-1)) (of_int 3)) = true /\ rect_contains_ll (rect_union r o) (LL f1 PI64) = true /\
  rect_contains_ll r p = false /\ rect_contains_ll (rect_add r p) p = true /\ rect_contains_ll (rect_polar_closure (rect_add r p)) (LL f0 f0) = true.
Proof.
  exists (Rect (R1 (of_int (-1)) f1) (S1 (lit 5 (-1)) (lit (-5) (-1)))), (Rect (R1 f0 (lit 3 (-1))) (S1 (of_int 2) (of_int 3))), (LL FRAC_PI_2 f1).
  split; [apply rect_is_valid_spec; vm_compute; reflexivity|]. split; [apply rect_is_valid_spec; vm_compute; reflexivity|]. split; [apply okp_ll; vm_compute; reflexivity|].
  split; [rewrite okp_ll; vm_compute; discriminate|]. vm_compute. auto 10.
Qed.
