(** Intervals on the circle: expansion, length, centre, distance, approximate equality. *)
From Coq Require Import Reals Lra Psatz.
From Verif Require Import F64 F64Facts IntervalSpec CircleSpec F64Arith F64Error R1Model S1Model S1Proofs S1Ops PropsInterval StuvError AngleModel AngleProofs ExpandProofs CircleProofs.
Open Scope R_scope.

Notation tiny := (/ 2 ^ 52).
Lemma tiny_eq : tiny = ulp1. Proof. f_equal. lra. Qed.

(** The non-empty interval whose length the code takes for negative: from pi to
    the double after -pi. *)
Definition seam (i : s1) : Prop := B2R (slo i) = pi /\ B2R (shi i) = - pi + 2 * tiny.

Lemma seam_sliver i : seam i <-> sliver i.
Proof. unfold seam, sliver. rewrite tiny_eq. reflexivity. Qed.
Lemma not_void i : okc i -> ~ void (circ i) <-> nonempty i.
Proof.
  intros V. split.
  - intros H E. apply H. intros t [N _]. auto.
  - intros N H. apply (H (B2R (slo i))). apply arc_span; [exact N|]. exists 0%Z. pose proof (span_range i V N). lra.
Qed.
Lemma void_empty i : okc i -> void (circ i) <-> ~ nonempty i.
Proof. intros V. pose proof (not_void i V) as Q. split; [|intros N t [E _]; apply N, E]. intros H N. apply (proj2 Q N H). Qed.
Lemma not_all i : okc i -> ~ (forall t, circ i t) -> B2R (slo i) <> - pi.
Proof.
  intros V H E. apply H. intros t. pose proof pi_bounds. pose proof V as (_ & _ & _ & _ & V3 & _). specialize (V3 E).
  split; [lra|]. unfold arc_end. rewrite E, V3. destruct (reduce t) as (k & K). exists k. destruct Rle_dec; lra.
Qed.

(** ** C88 expanded

    Promised: all points within the margin of the interval, and no others. *)

(** Proved, up to a few roundings, for every non-empty interval but one. *)
Theorem C88_expanded_partial : forall (i : s1) (m : f64), okc i -> ~ void (circ i) -> ~ seam i -> finite m -> 0 <= B2R m ->
  let j := s1_expanded i m in
  okc j /\ subset (circ i) (circ j) /\
  (forall t, within (circ i) (B2R m - 2 * tiny) t -> circ j t) /\
  (forall t, circ j t -> within (circ i) (B2R m + 8 * tiny) t).
Proof.
  intros i m V N S F P. rewrite tiny_eq. apply expand_pos; auto; [apply not_void; auto|rewrite <- seam_sliver; auto].
Qed.
Print Assumptions C88_expanded_partial.

(** False for the remaining one, whose length is computed as -1: expanded by 3.25
    it does not even contain itself. *)
Theorem C88_expanded_refuted :
  ~ (forall (i : s1) (m : f64), okc i -> finite m -> 0 <= B2R m -> subset (circ i) (circ (s1_expanded i m))) /\
  exists (i : s1) (m : f64), okc i /\ seam i /\ B2R m = 13 / 4 /\ okc (s1_expanded i m) /\ circ i pi /\ ~ circ (s1_expanded i m) pi.
Proof.
  assert (H : exists (i : s1) (m : f64), okc i /\ seam i /\ B2R m = 13 / 4 /\ okc (s1_expanded i m) /\ circ i pi /\ ~ circ (s1_expanded i m) pi).
  { exists (S1 PI64 (lit (-7074237752028439) (-51))), (lit 13 (-2)). set (i := S1 PI64 (lit (-7074237752028439) (-51))). set (m := lit 13 (-2)).
    assert (Vi : okc i) by (apply C48_is_valid; vm_compute; reflexivity).
    assert (Vj : okc (s1_expanded i m)) by (apply C48_is_valid; vm_compute; reflexivity).
    assert (AP : angle PI64) by (split; [exact PI64_finite|rewrite pi_val; pose proof pi_bounds; lra]).
    destruct (C48_s1_predicates i i Vi Vi) as (_ & _ & Ci & _). destruct (C48_s1_predicates _ _ Vj Vj) as (_ & _ & Cj & _).
    split; [exact Vi|]. split.
    { split; cbn [i slo shi]; [apply pi_val|]. rewrite tiny_eq. destruct (lit_val (-7074237752028439) (-51) ltac:(lia) ltac:(lia)) as [_ V]. rewrite V, pi_num.
      change (bpow radix2 (-51)) with (/ 2251799813685248). lra. }
    split; [destruct (lit_val 13 (-2) ltac:(lia) ltac:(lia)) as [_ V]; unfold m; rewrite V; change (bpow radix2 (-2)) with (/ 4); lra|].
    split; [exact Vj|]. specialize (Ci PI64 AP). specialize (Cj PI64 AP). rewrite pi_val in Ci, Cj. split.
    - apply Ci. vm_compute. reflexivity.
    - intros A. apply Cj in A. revert A. vm_compute. discriminate. }
  split; [|exact H]. intros G. destruct H as (i & m & Vi & _ & Em & _ & Ci & Cj). apply Cj. apply (G i m Vi); [|rewrite Em; lra|exact Ci].
  destruct m; try reflexivity; cbn [B2R] in Em; lra.
Qed.
Print Assumptions C88_expanded_refuted.

(** Shrinking by a negative margin, up to a few roundings.  Left out: intervals
    through the seam at pi that the margin uses up to within 2^-50. *)
Theorem C88_shrunk_partial : forall (i : s1) (m : f64), okc i -> ~ void (circ i) -> ~ (forall t, circ i t) -> finite m -> B2R m < 0 ->
  B2R (slo i) <= B2R (shi i) \/ 4 * tiny < Rabs (arc_length (slo i) (shi i) + 2 * B2R m) ->
  let j := s1_expanded i m in
  okc j /\ subset (circ j) (circ i) /\
  (forall t, deep (circ i) (- B2R m + 8 * tiny) t -> circ j t) /\
  (forall t, circ j t -> deep (circ i) (- B2R m - 2 * tiny) t).
Proof.
  intros i m V N A F P G. rewrite tiny_eq in *. apply shrink_neg; auto; [apply not_void; auto|apply not_all; auto].
Qed.
Print Assumptions C88_shrunk_partial.

Theorem C88_empty_full : forall (i : s1) (m : f64), okc i -> finite m ->
  (void (circ i) -> void (circ (s1_expanded i m))) /\ ((forall t, circ i t) -> forall t, circ (s1_expanded i m) t).
Proof.
  intros i m V F. split; intros H.
  - apply void_empty in H; auto. rewrite expanded_eq. replace (s1_is_empty i) with true by (symmetry; apply is_empty_R; auto).
    destruct (Rle_dec 0 (B2R m)) as [P|P].
    + unfold fge. destruct (fle_R f0 m eq_refl F) as [_|Q]; [|exfalso; apply Q, P]. intros t [E _]. apply H, E.
    + apply Rnot_le_lt in P. rewrite (fge_neg m F P). assert (NF : B2R (slo i) <> - pi).
      { intros E. apply H. intros [E' _]. pose proof pi_bounds. lra. }
      rewrite (is_full_R i V NF). rewrite (len_empty i V H). destruct (lit_val (-1) 0 ltac:(lia) ltac:(lia)) as [F1 V1]. change (bpow radix2 0) with 1 in V1.
      rewrite (big_shrink (lit (-1) 0) m F1 ltac:(lra) F P ltac:(right; lra)). exact Arc_EMPTY.
  - destruct (C48_s1_predicates i i V V) as (_ & Q & _). apply Q in H as H'. destruct (Rle_dec 0 (B2R m)) as [P|P].
    + assert (N : ~ void (circ i)) by (intros E; apply (E 0), H).
      assert (S : ~ seam i).
      { intros S. apply seam_sliver in S. destruct S as [S1 S2]. destruct (H 0) as [_ (k & K)]. pose proof pi_bounds. unfold arc_end in K. rewrite S1, S2 in K. destruct Rle_dec; [lra|].
        assert (B : 0 < IZR k < 1) by (split; apply Rmult_lt_reg_l with (2 * pi); lra). destruct B as [B1 B2]. apply lt_IZR in B1, B2. lia. }
      destruct (C88_expanded_partial i m V N S F P) as (_ & C & _). intros t. apply C, H.
    + apply Rnot_le_lt in P. rewrite expanded_eq, (fge_neg m F P), H'. exact H.
Qed.
Print Assumptions C88_empty_full.

Example C88_hyps : exists i m, okc i /\ ~ void (circ i) /\ ~ seam i /\ finite m /\ B2R m = 1 /\ B2R (shi i) < B2R (slo i) /\
  s1_contains (s1_expanded i m) (lit 5 (-1)) = true /\ s1_contains i (lit 5 (-1)) = false /\ s1_contains (s1_expanded i m) f0 = false.
Proof.
  exists (S1 (of_int 3) (of_int (-3))), f1. set (i := S1 (of_int 3) (of_int (-3))).
  assert (Vi : okc i) by (apply C48_is_valid; vm_compute; reflexivity). split; [exact Vi|].
  destruct (of_int_val 3 ltac:(lia)) as [_ V3]. destruct (of_int_val (-3) ltac:(lia)) as [_ V3']. destruct (of_int_val 1 ltac:(lia)) as [F1 V1]. pose proof pi_bounds.
  split; [apply not_void; auto; unfold nonempty, i; cbn [slo shi]; rewrite V3; lra|]. split; [unfold seam, i; cbn [slo shi]; rewrite V3; lra|].
  split; [exact F1|]. split; [exact V1|]. split; [unfold i; cbn [slo shi]; rewrite V3, V3'; lra|]. vm_compute. auto.
Qed.

(** ** C89 len

    Promised: the length; negative exactly for the empty interval. *)
Theorem C89_len_partial : forall i : s1, okc i ->
  (void (circ i) -> B2R (s1_len i) = -1) /\
  (~ void (circ i) -> ~ seam i -> finite (s1_len i) /\ 0 <= B2R (s1_len i) /\ Rabs (B2R (s1_len i) - arc_length (slo i) (shi i)) <= 3 * tiny).
Proof.
  intros i V. rewrite tiny_eq. split; intros H.
  - apply void_empty in H; auto. rewrite (len_empty i V H). destruct (lit_val (-1) 0 ltac:(lia) ltac:(lia)) as [F1 V1]. change (bpow radix2 0) with 1 in V1. lra.
  - intros S. apply not_void in H; auto. destruct (len_spec i V H) as [(Q & _)|(F & P & E & _)]; [apply seam_sliver in Q; contradiction|].
    split; [exact F|]. split; [exact P|]. apply Rabs_le. exact E.
Qed.
Print Assumptions C89_len_partial.

Theorem C89_len_refuted :
  ~ (forall i : s1, okc i -> ~ void (circ i) -> 0 <= B2R (s1_len i)) /\
  forall i : s1, okc i -> seam i -> ~ void (circ i) /\ B2R (s1_len i) = -1.
Proof.
  assert (H : forall i : s1, okc i -> seam i -> ~ void (circ i) /\ B2R (s1_len i) = -1).
  { intros i V S. apply seam_sliver in S. assert (N : nonempty i) by (destruct S as [S1 S2]; intros [_ E]; rewrite S2 in E; lra).
    split; [apply not_void; auto|]. destruct S as [S1 S2].
    { destruct V as (FL & FH & _). pose proof (fsub_result _ _ FH FL) as R. rewrite S1, S2 in R. pose proof pi_bounds as PB.
      destruct (half3 _ _ R) as (F & D & _); [apply Rabs_le; lra|].
      destruct TWOPI_val as [FT VT]. destruct f0_val as [F0 V0].
      assert (D2 : rnd (- pi + 2 * ulp1 - pi) = - (2 * pi)).
      { destruct (lit_val (-7074237752028439) (-51) ltac:(lia) ltac:(lia)) as [FA VA]. set (x := lit (-7074237752028439) (-51)) in *.
        assert (VX : B2R x = - pi + 2 * ulp1) by (rewrite VA, pi_num; change (bpow radix2 (-51)) with (/ 2251799813685248); lra).
        pose proof (fsub_result x PI64 FA PI64_finite) as R'. rewrite VX, pi_val in R'. destruct (half3 _ _ R') as (F' & D' & _); [apply Rabs_le; lra|]. rewrite <- D'.
        destruct (fneg_val _ FT) as [FN VN]. rewrite <- VT, <- VN. assert (Q : feq (fsub x PI64) (fneg TWOPI) = true) by (vm_compute; reflexivity).
        destruct (feq_R _ _ F' FN) as [E|_]; [exact E|discriminate]. }
      rewrite D2 in D. pose proof (fadd_result _ _ F FT) as R2. rewrite D, VT in R2. destruct (result_exact _ _ f0 R2) as [F2 E2]; [rewrite V0; ring|].
      change (s1_len i) with (if fge (fsub (shi i) (slo i)) f0 then fsub (shi i) (slo i) else
        if fgt (fadd (fsub (shi i) (slo i)) TWOPI) f0 then fadd (fsub (shi i) (slo i)) TWOPI else lit (-1) 0).
      unfold fge, fgt. destruct (fle_R f0 _ F0 F) as [C|C]; [rewrite V0, D in C; lra|]. destruct (flt_R f0 _ F0 F2) as [C'|C']; [rewrite V0, E2 in C'; lra|].
      destruct (lit_val (-1) 0 ltac:(lia) ltac:(lia)) as [F1 V1]. change (bpow radix2 0) with 1 in V1. lra. } }
  split; [|exact H]. intros G. set (i := S1 PI64 (lit (-7074237752028439) (-51))).
  assert (Vi : okc i) by (apply C48_is_valid; vm_compute; reflexivity).
  assert (S : seam i).
  { split; cbn [i slo shi]; [apply pi_val|]. rewrite tiny_eq. destruct (lit_val (-7074237752028439) (-51) ltac:(lia) ltac:(lia)) as [_ V]. rewrite V, pi_num.
    change (bpow radix2 (-51)) with (/ 2251799813685248). lra. }
  destruct (H i Vi S) as [N E]. specialize (G i Vi N). lra.
Qed.
Print Assumptions C89_len_refuted.

Example C89_hyps : exists i, okc i /\ ~ void (circ i) /\ ~ seam i /\ B2R (shi i) < B2R (slo i) /\ flt (s1_len i) (lit 1 (-1)) = true.
Proof.
  exists (S1 (of_int 3) (of_int (-3))). set (i := S1 (of_int 3) (of_int (-3))).
  assert (Vi : okc i) by (apply C48_is_valid; vm_compute; reflexivity). split; [exact Vi|].
  destruct (of_int_val 3 ltac:(lia)) as [_ V3]. destruct (of_int_val (-3) ltac:(lia)) as [_ V3']. pose proof pi_bounds.
  split; [apply not_void; auto; unfold nonempty, i; cbn [slo shi]; rewrite V3; lra|]. split; [unfold seam, i; cbn [slo shi]; rewrite V3; lra|].
  split; [unfold i; cbn [slo shi]; rewrite V3, V3'; lra|]. vm_compute. auto.
Qed.

(** ** C90 center and complement_center *)

(** The centre is a point of the interval, halfway along it up to a few roundings. *)
Theorem C90_center : forall i : s1, okc i -> ~ void (circ i) ->
  angle (s1_center i) /\ circ i (B2R (s1_center i)) /\
  exists k : Z, Rabs (B2R (s1_center i) + 2 * pi * IZR k - (B2R (slo i) + arc_length (slo i) (shi i) / 2)) <= 4 * tiny.
Proof.
  intros i V N. rewrite tiny_eq. apply not_void in N; auto. destruct (center_spec i V N) as (A & B & C & _). auto.
Qed.
Print Assumptions C90_center.

(** The centre of the complement is halfway along the rest of the circle. *)
Theorem C90_complement_center : forall i : s1, okc i -> ~ void (circ i) -> ~ (forall t, circ i t) ->
  angle (s1_complement_center i) /\ ~ circ_int i (B2R (s1_complement_center i)) /\
  exists k : Z, Rabs (B2R (s1_complement_center i) + 2 * pi * IZR k - (B2R (slo i) + (arc_length (slo i) (shi i) + 2 * pi) / 2)) <= 4 * tiny.
Proof.
  intros i V N A. rewrite tiny_eq. apply not_void in N; auto. apply not_all in A; auto.
  destruct (complement_center_spec i V N A) as (AC & _ & k & K & R). split; [exact AC|]. pose proof pi_bounds. pose proof (span_range i V N) as SR. split.
  - unfold arc_interior. intros [[E _]|(n & E)]; [contradiction|]. fold (span i) in R. unfold span in *. set (c := B2R (s1_complement_center i)) in *.
    set (e := arc_end (B2R (slo i)) (B2R (shi i))) in *. set (lo := B2R (slo i)) in *.
    assert (Q : 0 < IZR (k - n) < 1) by (rewrite minus_IZR; split; apply Rmult_lt_reg_l with (2 * pi); lra). destruct Q as [Q1 Q2]. apply lt_IZR in Q1, Q2. lia.
  - exists k. replace (B2R (slo i) + (arc_length (slo i) (shi i) + 2 * pi) / 2) with (B2R (slo i) + span i + (2 * pi - span i) / 2); [exact K|].
    unfold arc_length, span. lra.
Qed.
Print Assumptions C90_complement_center.

Example C90_hyps : exists i, okc i /\ ~ void (circ i) /\ ~ (forall t, circ i t) /\ B2R (shi i) < B2R (slo i) /\
  feq (s1_center i) PI64 = true /\ feq (s1_complement_center i) f0 = true.
Proof.
  exists (S1 (of_int 3) (of_int (-3))). set (i := S1 (of_int 3) (of_int (-3))).
  assert (Vi : okc i) by (apply C48_is_valid; vm_compute; reflexivity). split; [exact Vi|].
  destruct (of_int_val 3 ltac:(lia)) as [_ V3]. destruct (of_int_val (-3) ltac:(lia)) as [_ V3']. pose proof pi_bounds.
  split; [apply not_void; auto; unfold nonempty, i; cbn [slo shi]; rewrite V3; lra|]. split.
  { intros A. destruct (C48_s1_predicates i i Vi Vi) as (_ & Q & _). apply Q in A. vm_compute in A. discriminate. }
  split; [unfold i; cbn [slo shi]; rewrite V3, V3'; lra|]. vm_compute. auto.
Qed.

(** ** C91 directed_hausdorff_distance

    The greatest distance of a point of i from y, up to a few roundings. *)
Theorem C91_hausdorff : forall i y : s1, okc i -> okc y -> ~ void (circ i) -> ~ void (circ y) ->
  let h := s1_hausdorff i y in
  finite h /\ 0 <= B2R h /\
  (forall p, circ i p -> within (circ y) (B2R h + 16 * tiny) p) /\
  (exists p, circ i p /\ forall r, r < B2R h - 16 * tiny -> ~ within (circ y) r p).
Proof.
  intros i y Vi Vy Ni Ny. rewrite tiny_eq. apply hausdorff_spec; auto; apply not_void; auto.
Qed.
Print Assumptions C91_hausdorff.

Theorem C91_hausdorff_empty : forall i y : s1, okc i -> okc y ->
  (void (circ i) -> B2R (s1_hausdorff i y) = 0) /\ (~ void (circ i) -> void (circ y) -> B2R (s1_hausdorff i y) = pi) /\
  (subset (circ i) (circ y) -> B2R (s1_hausdorff i y) = 0).
Proof.
  intros i y Vi Vy. unfold s1_hausdorff. destruct (C48_s1_predicates y i Vy Vi) as (E & _ & _ & _ & C & _).
  split; [|split].
  - intros H. replace (s1_contains_interval y i) with true; [reflexivity|]. symmetry. apply C. intros t A. destruct (H t A).
  - intros N H. destruct (s1_contains_interval y i) eqn:Q.
    + exfalso. apply N. intros t A. apply (H t). apply C; auto.
    + replace (s1_is_empty y) with true by (symmetry; apply E, H). apply pi_val.
  - intros H. replace (s1_contains_interval y i) with true; [reflexivity|]. symmetry. apply C, H.
Qed.
Print Assumptions C91_hausdorff_empty.

Example C91_hyps : exists i y, okc i /\ okc y /\ ~ void (circ i) /\ ~ void (circ y) /\
  fgt (s1_hausdorff i y) (of_int 2) = true /\ flt (s1_hausdorff i y) (of_int 3) = true.
Proof.
  exists (S1 (of_int 3) (of_int (-3))), (S1 f0 f1). set (i := S1 (of_int 3) (of_int (-3))). set (y := S1 f0 f1).
  assert (Vi : okc i) by (apply C48_is_valid; vm_compute; reflexivity). assert (Vy : okc y) by (apply C48_is_valid; vm_compute; reflexivity).
  destruct (C48_s1_predicates i i Vi Vi) as (Ei & _). destruct (C48_s1_predicates y y Vy Vy) as (Ey & _).
  split; [exact Vi|]. split; [exact Vy|]. split; [intros E; apply Ei in E; vm_compute in E; discriminate|]. split; [intros E; apply Ey in E; vm_compute in E; discriminate|].
  vm_compute. auto.
Qed.

(** ** C92 approx_eq

    Promised: whether each end can be moved by at most e, along the circle, to
    turn one interval into the other without the ends crossing. *)

(** Proved: a positive answer is right, up to roundings; the answer is positive
    when the ends are close as numbers in [-pi, pi]. *)
Theorem C92_s1_approx_partial : forall (i o : s1) (e : f64), okc i -> okc o -> finite e -> 0 <= B2R e <= 2 -> ~ seam i -> ~ seam o ->
  ~ void (circ i) -> ~ void (circ o) -> ~ (forall t, circ i t) -> ~ (forall t, circ o t) ->
  (s1_approx_eq_by i o e = true ->
     close (slo i) (slo o) (B2R e + 2 * tiny) /\ close (shi i) (shi o) (B2R e + 2 * tiny) /\
     Rabs (arc_length (slo i) (shi i) - arc_length (slo o) (shi o)) <= 2 * B2R e + 8 * tiny) /\
  (Rabs (B2R (slo o) - B2R (slo i)) <= B2R e -> Rabs (B2R (shi o) - B2R (shi i)) <= B2R e ->
   Rabs (arc_length (slo i) (shi i) - arc_length (slo o) (shi o)) + 8 * tiny <= 2 * B2R e ->
     s1_approx_eq_by i o e = true).
Proof.
  intros i o e Vi Vo Fe Be Si So Ni No Ai Ao. rewrite tiny_eq. apply not_void in Ni, No; auto. apply not_all in Ai, Ao; auto. rewrite seam_sliver in *.
  apply s1_approx_spec; auto; lra.
Qed.
Print Assumptions C92_s1_approx_partial.

(** Against the empty and the full interval: by the length alone. *)
Theorem C92_s1_approx_empty_full : forall (i o : s1) (e : f64), okc i -> okc o -> finite e -> 0 <= B2R e <= 2 -> ~ seam o ->
  (void (circ i) ->
     (s1_approx_eq_by i o e = true -> void (circ o) \/ arc_length (slo o) (shi o) < 2 * B2R e + 3 * tiny) /\
     (void (circ o) \/ arc_length (slo o) (shi o) + 3 * tiny < 2 * B2R e -> s1_approx_eq_by i o e = true)) /\
  ((forall t, circ i t) -> ~ void (circ o) ->
     (s1_approx_eq_by i o e = true -> 2 * pi - 2 * B2R e - 5 * tiny <= arc_length (slo o) (shi o)) /\
     (2 * pi - 2 * B2R e + 5 * tiny <= arc_length (slo o) (shi o) -> s1_approx_eq_by i o e = true)).
Proof.
  intros i o e Vi Vo Fe Be So. rewrite tiny_eq. rewrite seam_sliver in So. split.
  - intros E. apply void_empty in E; auto. destruct (s1_approx_empty i o e Vi Vo E So Fe ltac:(lra)) as [A B]. split.
    + intros H. destruct (C48_s1_predicates o o Vo Vo) as (Q & _). destruct (s1_is_empty o) eqn:X; [left; apply Q; reflexivity|right].
      apply A; auto. apply not_void; auto. intros C. apply Q in C. discriminate.
    + intros [H|H]; apply B; [left; apply void_empty; auto|right; exact H].
  - intros H N. apply not_void in N; auto. apply s1_approx_full; auto. destruct (C48_s1_predicates i i Vi Vi) as (_ & Q & _). apply Q in H.
    unfold s1_is_full, s1_eq, s1_FULL in H. cbn [slo shi] in H. apply andb_prop in H. destruct H as [H _]. pose proof Vi as (FL & _).
    assert (FM : finite (fneg PI64)) by (vm_compute; reflexivity). destruct (feq_R (slo i) (fneg PI64) FL FM) as [X|X]; [rewrite mpi_val in X; exact X|discriminate].
Qed.
Print Assumptions C92_s1_approx_empty_full.

(** Not positive when the ends are close across the seam: the lower ends are
    8 * 2^-52 apart, and the tolerance is 1e-14. *)
Theorem C92_s1_approx_refuted :
  ~ (forall i o : s1, okc i -> okc o -> ~ void (circ i) -> ~ void (circ o) -> ~ seam i -> ~ seam o ->
       close (slo i) (slo o) (8 * tiny) -> B2R (shi i) = B2R (shi o) ->
       Rabs (arc_length (slo i) (shi i) - arc_length (slo o) (shi o)) <= 8 * tiny -> s1_approx_eq i o = true) /\
  8 * tiny < B2R EPSILON.
Proof.
  assert (EPS : 8 * tiny < B2R EPSILON).
  { rewrite tiny_eq. destruct (lit_val 0x16849B86A12B9B (-99) ltac:(lia) ltac:(lia)) as [_ V]. fold EPSILON in V. rewrite V.
    change (bpow radix2 (-99)) with (/ 633825300114114700748351602688). lra. }
  split; [|exact EPS]. intros G. set (o := S1 (lit (-7074237752028436) (-51)) f1). set (i := S1 PI64 f1).
  destruct (lit_val (-7074237752028436) (-51) ltac:(lia) ltac:(lia)) as [FA VA]. destruct f1_val as [F1 V1]. pose proof pi_bounds as PB.
  assert (VX : B2R (lit (-7074237752028436) (-51)) = - pi + 8 * ulp1) by (rewrite VA, pi_num; change (bpow radix2 (-51)) with (/ 2251799813685248); lra).
  assert (Vi : okc i) by (apply C48_is_valid; vm_compute; reflexivity). assert (Vo : okc o) by (apply C48_is_valid; vm_compute; reflexivity).
  assert (Q : s1_approx_eq i o = true).
  { apply G; auto.
    - apply not_void; auto. unfold nonempty, i. cbn [slo shi]. rewrite V1. lra.
    - apply not_void; auto. unfold nonempty, o. cbn [slo shi]. rewrite V1. lra.
    - unfold seam, i. cbn [slo shi]. rewrite V1, tiny_eq. lra.
    - unfold seam, o. cbn [slo shi]. rewrite V1, tiny_eq. lra.
    - unfold close, i, o. cbn [slo shi]. rewrite VX, pi_val, tiny_eq. exists (-1)%Z. apply Rabs_le. lra.
    - unfold arc_length, arc_end, i, o. cbn [slo shi]. rewrite VX, pi_val, V1, tiny_eq. destruct (Rle_dec pi 1), Rle_dec; try lra; apply Rabs_le; lra. }
  vm_compute in Q. discriminate.
Qed.
Print Assumptions C92_s1_approx_refuted.

(** On the line: exactly the ends within e, up to one rounding. *)
Theorem C92_r1_approx : forall (i o : r1) (e : f64), finite (lo1 i) -> finite (hi1 i) -> finite (lo1 o) -> finite (hi1 o) ->
  B2R (lo1 i) <= B2R (hi1 i) -> B2R (lo1 o) <= B2R (hi1 o) -> finite e -> bpow radix2 (-900) <= B2R e <= bpow radix2 900 ->
  (r1_approx_eq_by i o e = true -> Rabs (B2R (lo1 i) - B2R (lo1 o)) <= B2R e * (1 + tiny) /\ Rabs (B2R (hi1 i) - B2R (hi1 o)) <= B2R e * (1 + tiny)) /\
  (Rabs (B2R (lo1 i) - B2R (lo1 o)) <= B2R e -> Rabs (B2R (hi1 i) - B2R (hi1 o)) <= B2R e -> r1_approx_eq_by i o e = true).
Proof. intros. rewrite tiny_eq. apply r1_approx_spec; auto. Qed.
Print Assumptions C92_r1_approx.

Example C92_hyps : exists i o, okc i /\ okc o /\ ~ seam i /\ ~ seam o /\ ~ void (circ i) /\ ~ void (circ o) /\ s1_eq i o = false /\ s1_approx_eq i o = true.
Proof.
  exists (S1 (of_int 3) (of_int (-3))), (S1 (lit 6755399441055745 (-51)) (of_int (-3))).
  destruct (of_int_val 3 ltac:(lia)) as [_ V3]. destruct (of_int_val (-3) ltac:(lia)) as [_ V3']. pose proof pi_bounds.
  destruct (lit_val 6755399441055745 (-51) ltac:(lia) ltac:(lia)) as [_ V]. change (bpow radix2 (-51)) with (/ 2251799813685248) in V.
  set (i := S1 (of_int 3) (of_int (-3))). set (o := S1 (lit 6755399441055745 (-51)) (of_int (-3))).
  assert (Vi : okc i) by (apply C48_is_valid; vm_compute; reflexivity). assert (Vo : okc o) by (apply C48_is_valid; vm_compute; reflexivity).
  split; [exact Vi|]. split; [exact Vo|]. split; [unfold seam, i; cbn [slo shi]; rewrite V3; lra|]. split; [unfold seam, o; cbn [slo shi]; rewrite V; lra|].
  split; [apply not_void; auto; unfold nonempty, i; cbn [slo shi]; rewrite V3; lra|]. split; [apply not_void; auto; unfold nonempty, o; cbn [slo shi]; rewrite V3'; lra|].
  vm_compute. auto.
Qed.
