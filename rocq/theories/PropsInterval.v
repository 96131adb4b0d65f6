(** C47-C49, C56, C62: intervals of the line and of the circle, rectangles.

    [between lo hi] is the set of extended reals between two doubles,
    [arc lo hi] the set of angles from lo counter-clockwise to hi
    (IntervalSpec.v). *)
From Coq Require Import Reals Lra Classical.
From Verif Require Import F64 F64Facts F64Arith IntervalSpec R1Model S1Model R1Proofs R2Proofs S1Proofs S1Ops.
Open Scope R_scope.

Notation set1 i := (between (lo1 i) (hi1 i)).
Notation int1 i := (strictly_between (lo1 i) (hi1 i)).
Notation ok1 i := (number (lo1 i) /\ number (hi1 i)).

(** ** C47 *)
Theorem C47_r1_predicates : forall i o : r1, ok1 i -> ok1 o ->
  (r1_is_empty i = true <-> void (set1 i)) /\
  (forall p, number p -> r1_contains i p = true <-> set1 i (ev p)) /\
  (forall p, number p -> r1_interior_contains i p = true <-> int1 i (ev p)) /\
  (r1_contains_interval i o = true <-> subset (set1 o) (set1 i)) /\
  (r1_interior_contains_interval i o = true <-> subset (set1 o) (int1 i)) /\
  (r1_intersects i o = true <-> meets (set1 i) (set1 o)) /\
  (r1_interior_intersects i o = true <-> meets (int1 i) (set1 o)) /\
  (r1_eq i o = true <-> forall x, set1 i x <-> set1 o x).
Proof.
  intros i o Hi Ho. split; [apply r1_is_empty_spec; auto|].
  split; [intros; apply r1_contains_spec; auto|].
  split; [intros; apply r1_interior_contains_spec; auto|].
  split; [apply r1_contains_interval_spec; auto|].
  split; [apply r1_interior_contains_interval_spec; auto|].
  split; [apply r1_intersects_spec; auto|].
  split; [apply r1_interior_intersects_spec; auto|].
  apply r1_eq_spec; auto.
Qed.
Print Assumptions C47_r1_predicates.

Theorem C47_r1_operations : forall i o : r1, ok1 i -> ok1 o ->
  (ok1 (r1_intersection i o) /\ forall x, set1 (r1_intersection i o) x <-> set1 i x /\ set1 o x) /\
  (ok1 (r1_union i o) /\ (forall x, set1 i x \/ set1 o x -> set1 (r1_union i o) x) /\
   forall k : r1, ok1 k -> subset (set1 i) (set1 k) -> subset (set1 o) (set1 k) ->
     subset (set1 (r1_union i o)) (set1 k)) /\
  (forall p, number p ->
     ok1 (r1_add i p) /\ subset (set1 i) (set1 (r1_add i p)) /\ set1 (r1_add i p) (ev p) /\
     forall k : r1, ok1 k -> subset (set1 i) (set1 k) -> set1 k (ev p) -> subset (set1 (r1_add i p)) (set1 k)) /\
  (forall p, number p -> ~ void (set1 i) ->
     set1 i (ev (r1_clamp_point i p)) /\
     (set1 i (ev p) -> ev (r1_clamp_point i p) = ev p) /\
     (elt (ev p) (ev (lo1 i)) -> ev (r1_clamp_point i p) = ev (lo1 i)) /\
     (elt (ev (hi1 i)) (ev p) -> ev (r1_clamp_point i p) = ev (hi1 i))) /\
  (forall p q, number p -> number q ->
     let k := r1_from_point_pair p q in
     ok1 k /\ set1 k (ev p) /\ set1 k (ev q) /\
     forall k' : r1, ok1 k' -> set1 k' (ev p) -> set1 k' (ev q) -> subset (set1 k) (set1 k')).
Proof.
  intros i o Hi Ho. split.
  { split; [apply r1_intersection_num; auto|]. intros. apply r1_intersection_spec; auto. }
  split.
  { split; [apply r1_union_num; auto|]. split; [intros; apply r1_union_upper; auto|]. intros. apply r1_union_least; auto. }
  split.
  { intros p Hp. split; [apply r1_add_num; auto|]. split; [intros x X; apply r1_add_upper; auto|].
    split; [apply r1_add_upper; auto|]. intros. apply r1_add_least; auto. }
  split; [intros; apply r1_clamp_spec; auto|].
  intros p q Hp Hq. apply r1_pair_spec; auto.
Qed.
Print Assumptions C47_r1_operations.

(** Expansion by a margin of either sign; the bounds are rounded, and no double
    within the margin is lost to rounding or overflow. *)
Theorem C47_r1_expanded : forall (i : r1) (m p : f64),
  finite (lo1 i) -> finite (hi1 i) -> finite m -> finite p ->
  (void (set1 i) -> r1_expanded i m = i) /\
  (~ void (set1 i) -> B2R (lo1 i) - B2R m <= B2R p <= B2R (hi1 i) + B2R m ->
     r1_contains (r1_expanded i m) p = true) /\
  (~ void (set1 i) -> set1 (r1_expanded i m) (ev p) ->
     rnd (B2R (lo1 i) - B2R m) <= B2R p <= rnd (B2R (hi1 i) + B2R m)).
Proof.
  intros i m p A B C D. assert (N : ok1 i) by auto using finite_number. split.
  { intros V. unfold r1_expanded. apply (r1_is_empty_spec i N) in V. rewrite V. reflexivity. }
  split.
  { intros V H. apply r1_contains_spec; [apply r1_expanded_num; auto|apply finite_number; auto|].
    apply r1_expanded_contains; auto. }
  intros V. assert (E : r1_is_empty i = false).
  { destruct (r1_is_empty i) eqn:X; auto. elim V. apply r1_is_empty_spec; auto. }
  unfold r1_expanded. rewrite E. unfold between; cbn [lo1 hi1]. rewrite (ev_fin p D). intros [X Y].
  pose proof (B2R_max p) as M. apply Rabs_def2 in M. split.
  - destruct (fsub_result (lo1 i) m A C) as [(F & Q & _)|(s & Q & L & S)].
    + rewrite ev_fin in X by auto. cbn in X. lra.
    + rewrite Q in X. destruct s; cbn in X; [|tauto].
      rewrite Rabs_left1 in L; [lra|]. rewrite <- rnd_0. apply rnd_le. exact S.
  - destruct (fadd_result (hi1 i) m B C) as [(F & Q & _)|(s & Q & L & S)].
    + rewrite ev_fin in Y by auto. cbn in Y. lra.
    + rewrite Q in Y. destruct s; cbn in Y; [tauto|].
      rewrite Rabs_pos_eq in L; [lra|]. rewrite <- rnd_0. apply rnd_le. exact S.
Qed.
Print Assumptions C47_r1_expanded.

(* [1,3] and [2,inf], with a double in between *)
Example C47_hyps : exists i o, ok1 i /\ ok1 o /\ r1_intersects i o = true /\ r1_contains_interval i o = false
   /\ r1_contains (r1_intersection i o) (of_int 2) = true /\ r1_contains (r1_intersection i o) (of_int 4) = false
   /\ r1_contains (r1_union i o) (of_int 4) = true.
Proof. exists (R1 (of_int 1) (of_int 3)), (R1 (of_int 2) inf). vm_compute. tauto. Qed.

(** ** C49 *)
Notation set2 r := (fun p : ext * ext => set1 (rx r) (fst p) /\ set1 (ry r) (snd p)).
Notation int2 r := (fun p : ext * ext => int1 (rx r) (fst p) /\ int1 (ry r) (snd p)).
Notation ok2 r := (ok1 (rx r) /\ ok1 (ry r)).
(* both sides empty or none *)
Notation regular r := (void (set1 (rx r)) <-> void (set1 (ry r))).
Notation okpt p := (number (px p) /\ number (py p)).
Notation at_ p := (ev (px p), ev (py p)).

Theorem C49_r2_predicates : forall r o : r2, ok2 r -> ok2 o ->
  (r2_is_valid r = true <-> regular r) /\
  (regular r -> (r2_is_empty r = true <-> void (set2 r))) /\
  (forall p, okpt p -> r2_contains_point r p = true <-> set2 r (at_ p)) /\
  (forall p, okpt p -> r2_interior_contains_point r p = true <-> int2 r (at_ p)) /\
  (regular o -> (r2_contains r o = true <-> subset (set2 o) (set2 r))) /\
  (regular o -> (r2_interior_contains r o = true <-> subset (set2 o) (int2 r))) /\
  (r2_intersects r o = true <-> meets (set2 r) (set2 o)) /\
  (r2_interior_intersects r o = true <-> meets (int2 r) (set2 o)).
Proof.
  intros r o Hr Ho. split; [apply r2_is_valid_spec; auto|].
  split; [intros; apply r2_is_empty_spec; auto|].
  split; [intros; apply r2_contains_point_spec; auto|].
  split; [intros; apply r2_interior_contains_point_spec; auto|].
  split; [intros; apply r2_contains_spec; auto|].
  split; [intros; apply r2_interior_contains_spec; auto|].
  split; [apply r2_intersects_spec; auto|apply r2_interior_intersects_spec; auto].
Qed.
Print Assumptions C49_r2_predicates.

Theorem C49_r2_operations : forall r o : r2, ok2 r -> ok2 o ->
  (ok2 (r2_intersection r o) /\ regular (r2_intersection r o) /\
   forall x, set2 (r2_intersection r o) x <-> set2 r x /\ set2 o x) /\
  (regular r -> regular o ->
   ok2 (r2_union r o) /\ regular (r2_union r o) /\ (forall x, set2 r x \/ set2 o x -> set2 (r2_union r o) x) /\
   forall k : r2, ok2 k -> subset (set2 r) (set2 k) -> subset (set2 o) (set2 k) ->
     subset (set2 (r2_union r o)) (set2 k)) /\
  (forall p, okpt p -> regular r ->
     ok2 (r2_add_point r p) /\ regular (r2_add_point r p) /\
     subset (set2 r) (set2 (r2_add_point r p)) /\ set2 (r2_add_point r p) (at_ p) /\
     forall k : r2, ok2 k -> subset (set2 r) (set2 k) -> set2 k (at_ p) -> subset (set2 (r2_add_point r p)) (set2 k)) /\
  (forall p, okpt p -> ~ void (set2 r) ->
     set2 r (at_ (r2_clamp_point r p)) /\ (set2 r (at_ p) -> at_ (r2_clamp_point r p) = at_ p)).
Proof.
  intros r o Hr Ho. split.
  { destruct (r2_intersection_valid r o Hr Ho). split; [auto|]. split; [auto|]. intros. apply r2_intersection_spec; auto. }
  split.
  { intros Vr Vo. split; [apply r2_union_num; auto|]. split; [apply r2_union_valid; auto|].
    split; [intros; apply r2_union_upper; auto|]. intros k Hk. apply (r2_union_least r o Hr Ho k); auto. }
  split.
  { intros p Hp Vr. split; [apply r2_add_num; auto|]. split; [apply r2_add_valid; auto|].
    split; [intros x X; apply r2_add_upper; auto|]. split; [apply (r2_add_upper r Hr p (at_ p)); auto|].
    intros. apply (r2_add_least r Hr p k); auto. }
  intros p Hp V. apply (r2_clamp_spec r Hr p Hp V).
Qed.
Print Assumptions C49_r2_operations.

Theorem C49_from_points : forall ps : list pt2, ps <> nil -> (forall p, In p ps -> okpt p) ->
  let r := r2_from_points ps in
  ok2 r /\ regular r /\ (forall p, In p ps -> set2 r (at_ p)) /\
  forall k : r2, ok2 k -> (forall p, In p ps -> set2 k (at_ p)) -> subset (set2 r) (set2 k).
Proof.
  intros ps NE H. apply (r2_from_points_spec ps NE). apply Forall_forall. exact H.
Qed.
Print Assumptions C49_from_points.

Theorem C49_r2_expanded : forall (r : r2) (m p : pt2),
  finite (lo1 (rx r)) -> finite (hi1 (rx r)) -> finite (lo1 (ry r)) -> finite (hi1 (ry r)) ->
  finite (px m) -> finite (py m) -> finite (px p) -> finite (py p) -> ~ void (set2 r) ->
  B2R (lo1 (rx r)) - B2R (px m) <= B2R (px p) <= B2R (hi1 (rx r)) + B2R (px m) ->
  B2R (lo1 (ry r)) - B2R (py m) <= B2R (py p) <= B2R (hi1 (ry r)) + B2R (py m) ->
  r2_contains_point (r2_expanded r m) p = true.
Proof.
  intros r m p H1 H2 H3 H4 H5 H6 H7 H8 V HX HY.
  assert (N : num2 (r2_expanded r m)).
  { unfold r2_expanded. destruct orb; [split; split; reflexivity|]. split; cbn [rx ry]; apply r1_expanded_num; auto. }
  apply r2_contains_point_spec; auto; [split; auto using finite_number|].
  apply r2_expanded_contains; auto.
Qed.
Print Assumptions C49_r2_expanded.

(* three points with negative coordinates and a zero *)
Example C49_hyps : exists ps : list pt2, ps <> nil /\ (forall p, In p ps -> okpt p) /\
  r2_contains_point (r2_from_points ps) (P2 (of_int (-2)) (of_int 1)) = true /\
  r2_contains_point (r2_from_points ps) (P2 (of_int 1) (of_int 1)) = false.
Proof.
  exists (P2 (of_int (-3)) (of_int 0) :: P2 (of_int 0) (of_int 2) :: P2 (of_int (-1)) (of_int (-1)) :: nil)%list.
  split; [discriminate|]. split; [|vm_compute; auto].
  intros p [<-|[<-|[<-|[]]]]; vm_compute; auto.
Qed.

(** ** C56: the product of two r2 points is not componentwise. *)
Theorem C56_r2_mul_refuted :
  ~ (forall a b : pt2, numpt a -> numpt b ->
       feq (px (pt2_mul a b)) (fmul (px a) (px b)) = true /\ feq (py (pt2_mul a b)) (fmul (py a) (py b)) = true) /\
  ~ (forall a b : pt2, numpt a -> numpt b ->
       feq (px (pt2_mul a b)) (px (pt2_mul b a)) = true).
Proof.
  split; intros H; specialize (H (P2 (of_int 2) (of_int 3)) (P2 (of_int 5) (of_int 7)) (conj eq_refl eq_refl) (conj eq_refl eq_refl));
    vm_compute in H; [destruct H|]; discriminate.
Qed.
Print Assumptions C56_r2_mul_refuted.

(** ** C48 *)
Notation circ i := (arc (slo i) (shi i)).
Notation circ_int i := (arc_interior (slo i) (shi i)).
Notation okc i := (valid_arc (slo i) (shi i)).

Theorem C48_s1_predicates : forall i o : s1, okc i -> okc o ->
  (s1_is_empty i = true <-> void (circ i)) /\
  (s1_is_full i = true <-> forall t, circ i t) /\
  (forall p, angle p -> s1_contains i p = true <-> circ i (B2R p)) /\
  (forall p, angle p -> s1_interior_contains i p = true <-> circ_int i (B2R p)) /\
  (s1_contains_interval i o = true <-> subset (circ o) (circ i)) /\
  (s1_interior_contains_interval i o = true <-> subset (circ o) (circ_int i)) /\
  (s1_intersects i o = true <-> meets (circ i) (circ o)) /\
  (s1_interior_intersects i o = true <-> meets (circ_int i) (circ o)).
Proof.
  intros i o Hi Ho. split; [apply (s1_is_empty_spec i i); auto|].
  split; [apply (s1_is_full_spec i i); auto|].
  split; [intros; apply s1_contains_spec; auto|].
  split; [intros; apply (s1_interior_contains_spec i i); auto|].
  split; [apply s1_contains_interval_spec; auto|].
  split; [apply s1_interior_contains_interval_spec; auto|].
  split; [apply s1_intersects_spec; auto|apply s1_interior_intersects_spec; auto].
Qed.
Print Assumptions C48_s1_predicates.

Theorem C48_is_valid : forall i : s1, s1_is_valid i = true <-> okc i.
Proof. exact s1_is_valid_spec. Qed.
Print Assumptions C48_is_valid.

Lemma meets_common i o : okc i -> okc o ->
  (meets (circ i) (circ o) <-> exists u, - pi < u <= pi /\ A0 i u /\ A0 o u).
Proof.
  intros Vi Vo. rewrite (meets_0 o Vo (Arc i) (A0 i)); [reflexivity|intros; apply arc_shift|intros; apply Arc_A0; auto].
Qed.

Theorem C48_s1_union : forall i o : s1, okc i -> okc o ->
  okc (s1_union i o) /\
  (forall t, circ i t \/ circ o t -> circ (s1_union i o) t) /\
  (* nothing is added when the two share a point or one of them is empty *)
  (meets (circ i) (circ o) \/ void (circ i) \/ void (circ o) -> forall t, circ (s1_union i o) t -> circ i t \/ circ o t) /\
  (* otherwise one of the two gaps is filled, the one measured as narrower *)
  (~ meets (circ i) (circ o) -> ~ void (circ i) -> ~ void (circ o) ->
     s1_union i o = if flt (positive_distance (shi o) (slo i)) (positive_distance (shi i) (slo o))
                   then S1 (slo o) (shi i) else S1 (slo i) (shi o)).
Proof.
  intros i o Vi Vo. pose proof (s1_union_valid i o Vi Vo) as V.
  split; [exact V|]. split; [|split].
  - apply (all_angles (fun t => Arc i t \/ Arc o t) (fun t => A0 i t \/ A0 o t) (Arc (s1_union i o)) (A0 (s1_union i o))).
    + intros. unfold Arc. rewrite !arc_shift. tauto.
    + intros. apply arc_shift.
    + intros. rewrite !Arc_A0 by auto. tauto.
    + intros. apply Arc_A0; auto.
    + intros. apply s1_union_0; auto.
  - intros M.
    apply (all_angles (Arc (s1_union i o)) (A0 (s1_union i o)) (fun t => Arc i t \/ Arc o t) (fun t => A0 i t \/ A0 o t)).
    + intros. apply arc_shift.
    + intros. unfold Arc. rewrite !arc_shift. tauto.
    + intros. apply Arc_A0; auto.
    + intros. rewrite !Arc_A0 by auto. tauto.
    + intros t T X. destruct M as [M|[M|M]].
      * apply meets_common in M; auto. eapply s1_union_exact_0; eauto.
      * right. apply (s1_is_empty_spec i i Vi Vi) in M. assert (E : B2R (slo i) = pi /\ B2R (shi i) = - pi) by (destruct (em_spec i Vi) as [E|E]; [auto|discriminate]).
        unfold s1_union in X. destruct (em_spec o Vo) as [Q|Q].
        { exfalso. unfold A0, arc0 in X. pose proof pi_pos. lra. }
        destruct (Valid_0 o Vo) as (Fo1 & Fo2 & _).
        destruct (fc_spec i (slo o) Vi Fo1) as [A|A]. { exfalso. unfold A0, arc0 in A. lra. }
        destruct (fc_spec i (shi o) Vi Fo2) as [B|B]. { exfalso. unfold A0, arc0 in B. lra. }
        rewrite M in X. exact X.
      * left. apply (s1_is_empty_spec o o Vo Vo) in M. unfold s1_union in X. rewrite M in X. exact X.
  - intros M Ei Eo. apply s1_union_apart; auto.
    + rewrite (s1_is_empty_spec i i Vi Vi). exact Ei.
    + rewrite (s1_is_empty_spec o o Vo Vo). exact Eo.
    + rewrite <- meets_common; auto.
Qed.
Print Assumptions C48_s1_union.

Theorem C48_s1_intersection : forall i o : s1, okc i -> okc o ->
  okc (s1_intersection i o) /\
  (forall t, circ i t -> circ o t -> circ (s1_intersection i o) t) /\
  (* exact, unless i contains both end points of o *)
  (~ (circ i (B2R (slo o)) /\ circ i (B2R (shi o))) ->
     forall t, circ (s1_intersection i o) t -> circ i t /\ circ o t) /\
  (* in that case it is one of the arguments *)
  (s1_intersection i o = i \/ s1_intersection i o = o \/ forall t, circ (s1_intersection i o) t -> circ i t /\ circ o t).
Proof.
  intros i o Vi Vo. pose proof (s1_intersection_valid i o Vi Vo) as V.
  destruct (Valid_0 o Vo) as (Fo1 & Fo2 & Ro1 & Ro2 & No1 & No2). pose proof pi_pos as Ppi.
  assert (Ex : ~ (s1_fast_contains i (slo o) = true /\ s1_fast_contains i (shi o) = true) ->
     forall t, circ (s1_intersection i o) t -> circ i t /\ circ o t).
  { intros N. apply (all_angles (Arc (s1_intersection i o)) (A0 (s1_intersection i o)) (fun t => Arc i t /\ Arc o t) (fun t => A0 i t /\ A0 o t)).
    + intros. apply arc_shift.
    + intros. unfold Arc. rewrite !arc_shift. tauto.
    + intros. apply Arc_A0; auto.
    + intros. rewrite !Arc_A0 by auto. tauto.
    + intros t T X. apply s1_intersection_exact_0; auto. }
  split; [exact V|]. split; [|split].
  - assert (H : forall t, Arc i t /\ Arc o t -> Arc (s1_intersection i o) t).
    { apply (all_angles (fun t => Arc i t /\ Arc o t) (fun t => A0 i t /\ A0 o t) (Arc (s1_intersection i o)) (A0 (s1_intersection i o))).
      + intros. unfold Arc. rewrite !arc_shift. tauto.
      + intros. apply arc_shift.
      + intros. rewrite !Arc_A0 by auto. tauto.
      + intros. apply Arc_A0; auto.
      + intros t T [X Y]. apply s1_intersection_0; auto. }
    intros. apply H; auto.
  - intros N. apply Ex. intros [X Y]. apply N.
    apply fast_contains_val in X, Y; auto.
    assert (K : forall p, angle p -> A0 i (B2R p) -> Arc i (B2R p)).
    { intros p Hp Z. rewrite <- Arc_norm by auto. destruct (norm_pi_val p Hp) as (F & R & _). rewrite Arc_A0 by auto.
      destruct (Valid_0 i Vi) as (Fi1 & Fi2 & Ri1 & Ri2 & Ni1 & Ni2).
      unfold norm_pi. destruct (feq_R p (fneg PI64)) as [Q|Q]; auto using mpi_finite. { apply Hp. }
      rewrite mpi_val in Q. rewrite Q in Z. rewrite pi_val. unfold A0, arc0 in *. lra. }
    split; apply K; auto; split; auto.
  - destruct (s1_fast_contains i (slo o) && s1_fast_contains i (shi o))%bool eqn:E.
    + apply Bool.andb_true_iff in E. destruct E as [E1 E2]. unfold s1_intersection. rewrite E1, E2.
      destruct (s1_is_empty o). { right. right. intros t T. exfalso. revert T. apply (s1_is_empty_spec s1_EMPTY s1_EMPTY EMPTY_valid EMPTY_valid). vm_compute. reflexivity. }
      destruct flt; auto.
    + right. right. apply Ex. rewrite <- Bool.andb_true_iff. congruence.
Qed.
Print Assumptions C48_s1_intersection.

Theorem C48_s1_complement : forall i : s1, okc i ->
  okc (s1_complement i) /\ (forall t, circ (s1_complement i) t <-> ~ circ_int i t) /\
  (feq (slo i) (shi i) = false -> s1_invert i = s1_complement i).
Proof.
  intros i Vi. pose proof (s1_complement_valid i i Vi Vi) as V. split; [exact V|]. split.
  - intros t. split; revert t.
    + apply (all_angles (Arc (s1_complement i)) (A0 (s1_complement i)) (fun t => ~ ArcI i t) (fun t => ~ I0 i t)).
      * intros. apply arc_shift.
      * intros. unfold ArcI. rewrite int_shift. tauto.
      * intros. apply Arc_A0; auto.
      * intros. rewrite ArcI_I0 by auto. tauto.
      * intros t T. apply (s1_complement_0 i i Vi Vi); auto.
    + apply (all_angles (fun t => ~ ArcI i t) (fun t => ~ I0 i t) (Arc (s1_complement i)) (A0 (s1_complement i))).
      * intros. unfold ArcI. rewrite int_shift. tauto.
      * intros. apply arc_shift.
      * intros. rewrite ArcI_I0 by auto. tauto.
      * intros. apply Arc_A0; auto.
      * intros t T. apply (s1_complement_0 i i Vi Vi); auto.
  - intros E. unfold s1_invert, s1_complement. rewrite E. reflexivity.
Qed.
Print Assumptions C48_s1_complement.

Theorem C48_s1_construction :
  (forall lo hi, angle lo -> angle hi -> okc (s1_new lo hi) /\ forall t, circ (s1_new lo hi) t <-> arc lo hi t) /\
  (forall a b, angle a -> angle b ->
     okc (s1_from_point_pair a b) /\ circ (s1_from_point_pair a b) (B2R a) /\ circ (s1_from_point_pair a b) (B2R b)) /\
  (forall i p, okc i -> angle p ->
     okc (s1_add i p) /\ subset (circ i) (circ (s1_add i p)) /\ circ (s1_add i p) (B2R p)).
Proof.
  split; [|split].
  - intros lo hi A B. split; [apply s1_new_valid; auto|]. intros. apply s1_new_spec; auto.
  - intros a b A B. split; [apply s1_pair_valid; auto|]. apply s1_pair_contains; auto.
  - intros i p Vi Hp. split; [apply s1_add_valid; auto|]. apply s1_add_contains; auto.
Qed.
Print Assumptions C48_s1_construction.

(* the arcs [3, -3], across the antimeridian, and [-3.1.., 1] *)
Example C48_hyps : exists i o, okc i /\ okc o /\ s1_is_inverted i = true /\
  s1_intersects i o = true /\ s1_contains_interval i o = false /\
  s1_contains (s1_intersection i o) (of_int (-3)) = true /\ s1_contains (s1_intersection i o) (of_int 3) = false /\
  s1_contains (s1_union i o) (of_int 0) = true.
Proof.
  exists (S1 (of_int 3) (of_int (-3))), (S1 (lit (-25) (-3)) (of_int 1)).
  split; [apply s1_is_valid_spec; vm_compute; reflexivity|].
  split; [apply s1_is_valid_spec; vm_compute; reflexivity|]. vm_compute. auto 10.
Qed.

(** ** C62: the intersection may keep points that are not common, because the
    lengths are compared after rounding. *)
Theorem C62_s1_intersection_exact_refuted :
  ~ (forall i o : s1, okc i -> okc o -> forall t, circ (s1_intersection i o) t -> circ i t /\ circ o t) /\
  (* even when one argument contains the other *)
  exists i o p, okc i /\ okc o /\ angle p /\ s1_contains_interval i o = true /\
    s1_contains (s1_intersection i o) p = true /\ s1_contains o p = false.
Proof.
  set (i := S1 (of_int (-1)) (lit 1 (-70))). set (o := S1 (of_int (-1)) f0). set (p := lit 1 (-70)).
  assert (Vi : okc i) by (apply s1_is_valid_spec; vm_compute; reflexivity).
  assert (Vo : okc o) by (apply s1_is_valid_spec; vm_compute; reflexivity).
  assert (Hp : angle p).
  { assert (V : okc (S1 p p)) by (apply s1_is_valid_spec; vm_compute; reflexivity). destruct V as (F & _ & R & _). split; auto. }
  assert (B : s1_contains (s1_intersection i o) p = true) by (vm_compute; reflexivity).
  assert (C : s1_contains o p = false) by (vm_compute; reflexivity).
  split.
  - intros H. specialize (H i o Vi Vo (B2R p)). apply (s1_contains_spec _ (s1_intersection_valid i o Vi Vo) p Hp) in B. destruct (H B) as [_ K]. apply (s1_contains_spec o Vo p Hp) in K. congruence.
  - exists i, o, p. do 3 (split; [assumption|]). split; [vm_compute; reflexivity|]. auto.
Qed.
Print Assumptions C62_s1_intersection_exact_refuted.
