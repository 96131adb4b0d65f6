(** Facts about s1 intervals. *)
From Coq Require Import Reals Lra Lia Classical.
From Verif Require Import F64 F64Facts IntervalSpec S1Model OrdTac.
Open Scope R_scope.

Lemma PI64_finite : is_finite PI64 = true.
Proof. vm_compute. reflexivity. Qed.
Lemma pi_pos : 0 < pi.
Proof.
  unfold pi, PI64, lit. 
  pose proof (binary_normalize_correct 53 1024 _ _ mode_NE 7074237752028440 (-51) false) as H.
  assert (flt f0 PI64 = true) by (vm_compute; reflexivity).
  unfold flt in H0. rewrite Bltb_correct in H0; [|vm_compute; reflexivity|exact PI64_finite].
  change (B2R f0) with 0 in H0. apply Rcompare_Lt_inv. revert H0. unfold PI64, lit. clear. unfold Rlt_bool. destruct Rcompare; congruence.
Qed.
Lemma fneg_finite x : finite x -> finite (fneg x).
Proof. unfold finite, fneg. rewrite is_finite_Bopp. auto. Qed.
Lemma mpi_finite : finite (fneg PI64).
Proof. apply fneg_finite, PI64_finite. Qed.
Lemma mpi_val : B2R (fneg PI64) = - pi.
Proof. apply B2R_Bopp. Qed.
Lemma pi_val : B2R PI64 = pi.
Proof. reflexivity. Qed.
Global Opaque pi.

Lemma fle_R x y : finite x -> finite y -> BoolSpec (B2R x <= B2R y) (~ B2R x <= B2R y) (fle x y).
Proof.
  intros. unfold fle. rewrite Bleb_correct by auto. destruct (Rle_bool_spec (B2R x) (B2R y)); constructor; lra.
Qed.
Lemma flt_R x y : finite x -> finite y -> BoolSpec (B2R x < B2R y) (~ B2R x < B2R y) (flt x y).
Proof.
  intros. unfold flt. rewrite Bltb_correct by auto. destruct (Rlt_bool_spec (B2R x) (B2R y)); constructor; lra.
Qed.
Lemma feq_R x y : finite x -> finite y -> BoolSpec (B2R x = B2R y) (~ B2R x = B2R y) (feq x y).
Proof.
  intros. unfold feq. rewrite Beqb_correct by auto. destruct (Req_bool_spec (B2R x) (B2R y)); constructor; lra.
Qed.

Ltac fin := solve [auto using PI64_finite, mpi_finite].
Ltac cmpR :=
  repeat match goal with
  | |- context [fgt ?x ?y] => unfold fgt
  | |- context [fge ?x ?y] => unfold fge
  | |- context [fne ?x ?y] => unfold fne
  | |- context [fle ?x ?y] => let E := fresh "E" in destruct (fle_R x y) as [E|E]; [fin|fin| |]
  | |- context [flt ?x ?y] => let E := fresh "E" in destruct (flt_R x y) as [E|E]; [fin|fin| |]
  | |- context [feq ?x ?y] => let E := fresh "E" in destruct (feq_R x y) as [E|E]; [fin|fin| |]
  end; rewrite ?mpi_val, ?pi_val in *; cbn [andb orb negb].

(** ** Arcs on (-pi, pi] *)
Definition arc0 (lo hi t : R) : Prop :=
  ~ (lo = pi /\ hi = - pi) /\ ((lo <= hi /\ lo <= t <= hi) \/ (hi < lo /\ (lo <= t \/ t <= hi))).
Definition int0 (lo hi t : R) : Prop :=
  (lo = - pi /\ hi = pi) \/ (lo <= hi /\ lo < t < hi) \/ (hi < lo /\ (lo < t \/ t < hi)).
Definition valid0 (lo hi : R) : Prop :=
  - pi <= lo <= pi /\ - pi <= hi <= pi /\ (lo = - pi -> hi = pi) /\ (hi = - pi -> lo = pi).

Lemma IZR_cases (k : Z) : IZR k <= -2 \/ IZR k = -1 \/ IZR k = 0 \/ IZR k = 1 \/ IZR k = 2 \/ 3 <= IZR k.
Proof.
  destruct (Z_le_gt_dec k (-2)). { left. apply IZR_le; auto. }
  destruct (Z_le_gt_dec 3 k). { do 5 right. apply IZR_le; auto. }
  assert (C : (k = -1 \/ k = 0 \/ k = 1 \/ k = 2)%Z) by lia.
  destruct C as [->|[->|[->| ->]]]; auto 8.
Qed.

Lemma arc_arc0 lo hi t : valid0 (B2R lo) (B2R hi) -> - pi < t <= pi -> arc lo hi t <-> arc0 (B2R lo) (B2R hi) t.
Proof.
  intros (V1 & V2 & V3 & V4) T. pose proof pi_pos. unfold arc, arc0, arc_end.
  set (l := B2R lo) in *. set (h := B2R hi) in *. clearbody l h.
  destruct (Rle_dec l h) as [L|L]; split; intros [E A]; (split; [exact E|]).
  - destruct A as (k & A1 & A2). left. split; auto.
    destruct (IZR_cases k) as [K|[K|[K|[K|[K|K]]]]]; try rewrite K in *.
    + pose proof (Rmult_le_compat_l (2 * pi) _ _ ltac:(lra) K). lra.
    + assert (l = - pi) by lra. assert (h = pi) by lra. lra.
    + lra.
    + lra.
    + lra.
    + pose proof (Rmult_le_compat_l (2 * pi) _ _ ltac:(lra) K). lra.
  - exists 0%Z. lra.
  - right. split; [lra|]. destruct A as (k & A1 & A2).
    destruct (IZR_cases k) as [K|[K|[K|[K|[K|K]]]]]; try rewrite K in *; try lra.
    + pose proof (Rmult_le_compat_l (2 * pi) _ _ ltac:(lra) K). lra.
    + pose proof (Rmult_le_compat_l (2 * pi) _ _ ltac:(lra) K). lra.
  - destruct A as [A|[_ [A|A]]]; [lra|exists 0%Z|exists 1%Z]; lra.
Qed.
Lemma int_int0 lo hi t : valid0 (B2R lo) (B2R hi) -> - pi < t <= pi -> arc_interior lo hi t <-> int0 (B2R lo) (B2R hi) t.
Proof.
  intros (V1 & V2 & V3 & V4) T. pose proof pi_pos. unfold arc_interior, int0, arc_end.
  set (l := B2R lo) in *. set (h := B2R hi) in *. clearbody l h.
  destruct (Req_EM_T l (- pi)) as [E1|E1]; [pose proof (V3 E1); tauto|].
  destruct (Rle_dec l h) as [L|L]; split; (intros [E|A]; [auto|]); right.
  - left. split; auto. destruct A as (k & A1 & A2).
    destruct (IZR_cases k) as [K|[K|[K|[K|[K|K]]]]]; try rewrite K in *; try lra.
    + pose proof (Rmult_le_compat_l (2 * pi) _ _ ltac:(lra) K). lra.
    + pose proof (Rmult_le_compat_l (2 * pi) _ _ ltac:(lra) K). lra.
  - exists 0%Z. lra.
  - right. split; [lra|]. destruct A as (k & A1 & A2).
    destruct (IZR_cases k) as [K|[K|[K|[K|[K|K]]]]]; try rewrite K in *; try lra.
    + pose proof (Rmult_le_compat_l (2 * pi) _ _ ltac:(lra) K). lra.
    + pose proof (Rmult_le_compat_l (2 * pi) _ _ ltac:(lra) K). lra.
  - destruct A as [A|[_ [A|A]]]; [lra|exists 0%Z|exists 1%Z]; lra.
Qed.

(** Every angle is one in (-pi, pi] plus turns. *)
Lemma reduce t : exists k : Z, - pi < t + 2 * pi * IZR k <= pi.
Proof.
  pose proof pi_pos. set (n := up ((t - pi) / (2 * pi))).
  destruct (archimed ((t - pi) / (2 * pi))) as [A B]. fold n in A, B.
  assert (M : (t - pi) / (2 * pi) * (2 * pi) = t - pi) by (field; lra).
  assert (N : 2 * pi * ((t - pi) / (2 * pi)) = t - pi) by (rewrite Rmult_comm; exact M).
  set (q := (t - pi) / (2 * pi)) in *.
  destruct (Req_EM_T (IZR n - q) 1) as [E|E].
  - exists (1 - n)%Z. rewrite minus_IZR. replace (IZR n) with (q + 1) by lra.
    replace (t + 2 * pi * (1 - (q + 1))) with (t - 2 * pi * q) by ring. rewrite N. lra.
  - exists (- n)%Z. rewrite opp_IZR. assert (C : 0 < IZR n - q < 1) by lra.
    assert (P : 0 < 2 * pi * (IZR n - q)) by (apply Rmult_lt_0_compat; lra).
    assert (Q : 2 * pi * (IZR n - q) < 2 * pi * 1) by (apply Rmult_lt_compat_l; lra).
    replace (t + 2 * pi * - IZR n) with (t - 2 * pi * q - 2 * pi * (IZR n - q)) by ring. rewrite N. lra.
Qed.
Lemma arc_shift lo hi t k : arc lo hi (t + 2 * pi * IZR k) <-> arc lo hi t.
Proof.
  unfold arc. split; intros [E (j & A)]; (split; [auto|]).
  - exists (k + j)%Z. rewrite plus_IZR. replace (t + 2 * pi * (IZR k + IZR j)) with (t + 2 * pi * IZR k + 2 * pi * IZR j) by ring. auto.
  - exists (j - k)%Z. rewrite minus_IZR. replace (t + 2 * pi * IZR k + 2 * pi * (IZR j - IZR k)) with (t + 2 * pi * IZR j) by ring. auto.
Qed.
Lemma int_shift lo hi t k : arc_interior lo hi (t + 2 * pi * IZR k) <-> arc_interior lo hi t.
Proof.
  unfold arc_interior. split; (intros [E|(j & A)]; [left; auto|right]).
  - exists (k + j)%Z. rewrite plus_IZR. replace (t + 2 * pi * (IZR k + IZR j)) with (t + 2 * pi * IZR k + 2 * pi * IZR j) by ring. auto.
  - exists (j - k)%Z. rewrite minus_IZR. replace (t + 2 * pi * IZR k + 2 * pi * (IZR j - IZR k)) with (t + 2 * pi * IZR j) by ring. auto.
Qed.

Definition Arc (i : s1) : R -> Prop := arc (slo i) (shi i).
Definition ArcI (i : s1) : R -> Prop := arc_interior (slo i) (shi i).
Definition Valid (i : s1) : Prop := valid_arc (slo i) (shi i).
Lemma Valid_0 i : Valid i -> finite (slo i) /\ finite (shi i) /\ valid0 (B2R (slo i)) (B2R (shi i)).
Proof. unfold Valid, valid_arc, valid0. tauto. Qed.
Lemma Valid_of_0 i : finite (slo i) -> finite (shi i) -> valid0 (B2R (slo i)) (B2R (shi i)) -> Valid i.
Proof. unfold Valid, valid_arc, valid0. tauto. Qed.

(** A statement about all angles only has to be shown on (-pi, pi]. *)
Lemma on_circle (P : R -> Prop) : (forall t k, P (t + 2 * pi * IZR k) -> P t) ->
  (forall t, - pi < t <= pi -> P t) -> forall t, P t.
Proof. intros S H t. destruct (reduce t) as [k K]. eapply S, H, K. Qed.

Definition A0 (i : s1) t := arc0 (B2R (slo i)) (B2R (shi i)) t.
Definition I0 (i : s1) t := int0 (B2R (slo i)) (B2R (shi i)) t.
Lemma Arc_A0 i t : Valid i -> - pi < t <= pi -> Arc i t <-> A0 i t.
Proof. intros V T. apply arc_arc0; auto. apply Valid_0, V. Qed.
Lemma ArcI_I0 i t : Valid i -> - pi < t <= pi -> ArcI i t <-> I0 i t.
Proof. intros V T. apply int_int0; auto. apply Valid_0, V. Qed.

Lemma norm_pi_val p : angle p -> finite (norm_pi p) /\ - pi < B2R (norm_pi p) <= pi /\
  (B2R (norm_pi p) = B2R p \/ B2R (norm_pi p) = B2R p + 2 * pi).
Proof.
  intros [F R]. pose proof pi_pos. unfold norm_pi. cmpR.
  - split; [apply PI64_finite|]. lra.
  - split; auto. lra.
Qed.
Lemma Arc_norm i p : angle p -> Arc i (B2R (norm_pi p)) <-> Arc i (B2R p).
Proof.
  intros H. destruct (norm_pi_val p H) as (_ & _ & [->| ->]); [tauto|].
  rewrite <- (arc_shift (slo i) (shi i) (B2R p) 1). unfold Arc. rewrite Rmult_1_r. tauto.
Qed.
Lemma ArcI_norm i p : angle p -> ArcI i (B2R (norm_pi p)) <-> ArcI i (B2R p).
Proof.
  intros H. destruct (norm_pi_val p H) as (_ & _ & [->| ->]); [tauto|].
  rewrite <- (int_shift (slo i) (shi i) (B2R p) 1). unfold ArcI. rewrite Rmult_1_r. tauto.
Qed.

Ltac lord := assert_succeeds lra; ord.
Ltac unf := unfold s1_union, s1_intersection, s1_fast_contains, s1_contains_interval, s1_is_inverted, s1_is_empty, s1_is_full, s1_eq, s1_FULL, s1_EMPTY; cbn [slo shi].

Lemma fast_contains_val i p : Valid i -> finite p ->
  s1_fast_contains i p = true <-> A0 i (B2R p).
Proof.
  intros V Fp. destruct (Valid_0 i V) as (F1 & F2 & V1 & V2 & V3 & V4). pose proof pi_pos. unf. unfold A0, arc0.
  cmpR; split; intros; try congruence; try lord; auto.
Qed.

Lemma s1_is_valid_spec i : s1_is_valid i = true <-> Valid i.
Proof.
  pose proof pi_pos.
  assert (K : forall x, fle (fabs x) PI64 = true <-> finite x /\ - pi <= B2R x <= pi).
  { intros x. split.
    - intros H1. assert (F : finite x).
      { destruct x as [s|s| |s m e B]; try reflexivity; exfalso.
        - revert H1. unfold fle, fabs. cbn [Babs]. vm_compute. discriminate.
        - revert H1. vm_compute. discriminate. }
      split; auto. destruct (fle_R (fabs x) PI64) as [E|E]; try congruence.
      + unfold finite, fabs. rewrite is_finite_Babs. exact F.
      + apply PI64_finite.
      + unfold fabs in E. rewrite B2R_Babs, pi_val in E. apply Rabs_le_inv in E. lra.
    - intros [F R]. destruct (fle_R (fabs x) PI64) as [E|E]; auto.
      + unfold finite, fabs. rewrite is_finite_Babs. exact F.
      + apply PI64_finite.
      + exfalso. apply E. unfold fabs. rewrite B2R_Babs, pi_val. apply Rabs_le. lra. }
  unfold s1_is_valid. rewrite !Bool.andb_true_iff, !K. unfold Valid, valid_arc. split.
  - intros [[[[F1 R1] [F2 R2]] A] B]. repeat split; try lra; auto; revert A B; cmpR; intros; try congruence; ord.
  - intros (F1 & F2 & R1 & R2 & A & B). repeat split; auto; try lra; cmpR; auto; ord.
Qed.

Section S.
Context (i o : s1) (Vi : Valid i) (Vo : Valid o).

Ltac start :=
  destruct (Valid_0 i Vi) as (Fi1 & Fi2 & Ri1 & Ri2 & Ni1 & Ni2);
  destruct (Valid_0 o Vo) as (Fo1 & Fo2 & Ro1 & Ro2 & No1 & No2); pose proof pi_pos as Ppi.

Lemma s1_contains_spec p : angle p -> s1_contains i p = true <-> Arc i (B2R p).
Proof.
  intros H. destruct (norm_pi_val p H) as (F & R & _). rewrite <- Arc_norm by auto.
  rewrite Arc_A0 by auto. apply fast_contains_val; auto.
Qed.
Lemma s1_interior_contains_spec p : angle p -> s1_interior_contains i p = true <-> ArcI i (B2R p).
Proof.
  intros H. destruct (norm_pi_val p H) as (F & R & _). rewrite <- ArcI_norm by auto. start.
  rewrite ArcI_I0 by auto. unfold I0, int0, s1_interior_contains. unf. cmpR; split; intros; try congruence; try lord; auto.
Qed.
Lemma s1_is_empty_spec : s1_is_empty i = true <-> void (Arc i).
Proof.
  start. split.
  - intros E t. apply (on_circle (fun t => ~ Arc i t)).
    + intros u k A B. apply A. apply arc_shift. auto.
    + intros u U. rewrite Arc_A0 by auto. unfold A0, arc0. revert E. unf. cmpR; intros; try congruence; ord.
  - intros H. pose proof (H (B2R (shi i))) as A. pose proof (H pi) as B.
    rewrite Arc_A0 in B by (auto; lra). unfold A0, arc0 in B.
    destruct (Req_EM_T (B2R (shi i)) (- pi)) as [E|E].
    + specialize (Ni2 E). unf. cmpR; auto; ord.
    + rewrite Arc_A0 in A by (auto; lra). unfold A0, arc0 in A. exfalso. lra.
Qed.
Lemma s1_is_full_spec : s1_is_full i = true <-> forall t, Arc i t.
Proof.
  start. split.
  - intros E. apply on_circle.
    + intros u k A. eapply arc_shift. exact A.
    + intros u U. rewrite Arc_A0 by auto. unfold A0, arc0. revert E. unf. cmpR; intros; try congruence; ord.
  - intros H. unf. cmpR; auto; exfalso.
    all: set (l := B2R (slo i)) in *; set (h := B2R (shi i)) in *.
    all: destruct (Rle_lt_dec l h) as [C|C].
    all: try (pose proof (H ((l - pi) / 2)) as A; rewrite Arc_A0 in A by (auto; lra); unfold A0, arc0 in A; fold l h in A; lra).
    all: try (pose proof (H ((h + pi) / 2)) as A; rewrite Arc_A0 in A by (auto; lra); unfold A0, arc0 in A; fold l h in A; lra).
    all: try (pose proof (H ((h + l) / 2)) as A; rewrite Arc_A0 in A by (auto; lra); unfold A0, arc0 in A; fold l h in A; lra).
Qed.

(* subset on the circle *)
Lemma subset_0 (Q : R -> Prop) (Q0 : R -> Prop) : (forall t k, Q (t + 2 * pi * IZR k) <-> Q t) ->
  (forall t, - pi < t <= pi -> Q t <-> Q0 t) ->
  (subset (Arc o) Q <-> forall t, - pi < t <= pi -> A0 o t -> Q0 t).
Proof.
  intros S E. split.
  - intros H t T A. apply E; auto. apply H. apply Arc_A0; auto.
  - intros H. unfold subset. apply (on_circle (fun t => Arc o t -> Q t)).
    + intros t k A B. apply (S t k). apply A. apply arc_shift. auto.
    + intros t T A. apply E; auto. apply H; auto. apply Arc_A0; auto.
Qed.
Lemma meets_0 (P P0 : R -> Prop) : (forall t k, P (t + 2 * pi * IZR k) <-> P t) ->
  (forall t, - pi < t <= pi -> P t <-> P0 t) ->
  (meets P (Arc o) <-> exists t, - pi < t <= pi /\ P0 t /\ A0 o t).
Proof.
  intros S E. split.
  - intros (t & A & B). destruct (reduce t) as [k K]. exists (t + 2 * pi * IZR k). split; auto.
    rewrite <- E by auto. split; [apply S; auto|]. rewrite <- Arc_A0 by auto. apply arc_shift; auto.
  - intros (t & T & A & B). exists t. rewrite E by auto. split; auto. apply Arc_A0; auto.
Qed.

(* refute H : forall t, -pi < t <= pi -> ... by one of a few points *)
Ltac wit H :=
  first [ specialize (H (B2R (slo o))); lord | specialize (H (B2R (shi o))); lord | specialize (H pi); lord
        | specialize (H ((B2R (slo i) + B2R (shi i)) / 2)); lord
        | specialize (H ((B2R (slo i) - pi) / 2)); lord
        | specialize (H ((B2R (shi i) + pi) / 2)); lord
        | specialize (H (B2R (slo i))); lord | specialize (H (B2R (shi i))); lord
        | specialize (H ((B2R (slo i) + B2R (shi o)) / 2)); lord
        | specialize (H ((B2R (shi i) + B2R (slo o)) / 2)); lord
        | specialize (H ((B2R (shi i) - pi) / 2)); lord | specialize (H ((B2R (shi o) - pi) / 2)); lord ].

Ltac split_wit H := first [wit H |
      destruct (Rle_lt_dec (B2R (slo o)) (B2R (shi i))), (Rle_lt_dec (B2R (slo i)) (B2R (shi o))); wit H
    | destruct (Req_EM_T (B2R (slo o)) (- pi)), (Req_EM_T (B2R (slo i)) (- pi)); wit H
    | destruct (Rle_lt_dec (B2R (slo o)) (B2R (slo i))), (Rle_lt_dec (B2R (shi o)) (B2R (shi i)));
      first [wit H | destruct (Req_EM_T (B2R (slo o)) (- pi)), (Req_EM_T (B2R (slo i)) (- pi)); wit H] ].

Lemma s1_contains_interval_spec : s1_contains_interval i o = true <-> subset (Arc o) (Arc i).
Proof.
  rewrite (subset_0 (Arc i) (A0 i)); [|intros; apply arc_shift|intros; apply Arc_A0; auto].
  start. split.
  - intros H t T. unfold A0, arc0. revert H. unf. cmpR; intros; try congruence; ord.
  - intros H. unfold A0, arc0 in H.
    unf. cmpR; auto; exfalso; split_wit H.
Qed.
Lemma s1_interior_contains_interval_spec : s1_interior_contains_interval i o = true <-> subset (Arc o) (ArcI i).
Proof.
  rewrite (subset_0 (ArcI i) (I0 i)); [|intros; apply int_shift|intros; apply ArcI_I0; auto].
  start. split.
  - intros H t T. unfold A0, arc0, I0, int0. revert H. unfold s1_interior_contains_interval. unf. cmpR; intros; try congruence; ord.
  - intros H. unfold A0, arc0, I0, int0 in H. unfold s1_interior_contains_interval.
    unf. cmpR; auto; exfalso; split_wit H.
Qed.
Lemma s1_intersects_spec : s1_intersects i o = true <-> meets (Arc i) (Arc o).
Proof.
  rewrite (meets_0 (Arc i) (A0 i)); [|intros; apply arc_shift|intros; apply Arc_A0; auto].
  start. split.
  - intros H. apply NNPP. intros N.
    assert (M : forall t, - pi < t <= pi -> A0 i t -> A0 o t -> False) by (intros t ? ? ?; apply N; exists t; auto).
    clear N. unfold A0, arc0 in M. revert H. unfold s1_intersects. unf. cmpR; intros; try congruence; split_wit M.
  - intros (t & T & A & B). unfold A0, arc0 in A, B. unfold s1_intersects. unf. cmpR; auto; exfalso; ord.
Qed.
Lemma s1_interior_intersects_spec : s1_interior_intersects i o = true <-> meets (ArcI i) (Arc o).
Proof.
  rewrite (meets_0 (ArcI i) (I0 i)); [|intros; apply int_shift|intros; apply ArcI_I0; auto].
  start. split.
  - intros H. apply NNPP. intros N.
    assert (M : forall t, - pi < t <= pi -> I0 i t -> A0 o t -> False) by (intros t ? ? ?; apply N; exists t; auto).
    clear N. unfold A0, arc0, I0, int0 in M. revert H. unfold s1_interior_intersects. unf. cmpR; intros; try congruence; split_wit M.
  - intros (t & T & A & B). unfold A0, arc0, I0, int0 in A, B. unfold s1_interior_intersects. unf. cmpR; auto; exfalso; ord.
Qed.
End S.
