(** Expansion of r1 intervals; r2 rectangles. *)
From Coq Require Import Reals Lra.
From Verif Require Import F64 F64Facts F64Arith IntervalSpec R1Model R1Proofs.
Open Scope R_scope.

Lemma r1_expanded_num i m : finite (lo1 i) -> finite (hi1 i) -> finite m -> num1 (r1_expanded i m).
Proof.
  intros A B C. unfold r1_expanded. destruct r1_is_empty; split; cbn [lo1 hi1]; auto using finite_number.
  - eapply result_number, fsub_result; auto.
  - eapply result_number, fadd_result; auto.
Qed.
Lemma r1_expanded_contains i m p : finite (lo1 i) -> finite (hi1 i) -> finite m -> finite p ->
  ~ void (In1 i) -> B2R (lo1 i) - B2R m <= B2R p <= B2R (hi1 i) + B2R m ->
  In1 (r1_expanded i m) (ev p).
Proof.
  intros A B C D E H. unfold r1_expanded.
  assert (N : r1_is_empty i = false).
  { destruct (r1_is_empty i) eqn:X; auto. elim E. apply r1_is_empty_spec; auto. split; auto using finite_number. }
  rewrite N. split; cbn [lo1 hi1].
  - eapply result_le; [apply fsub_result; auto|auto|lra].
  - eapply result_ge; [apply fadd_result; auto|auto|lra].
Qed.

(** A rectangle and a point of the plane. *)
Definition num2 (r : r2) : Prop := num1 (rx r) /\ num1 (ry r).
Definition In2 (r : r2) (p : ext * ext) : Prop := In1 (rx r) (fst p) /\ In1 (ry r) (snd p).
Definition Int2 (r : r2) (p : ext * ext) : Prop := Int1 (rx r) (fst p) /\ Int1 (ry r) (snd p).
Definition valid2 (r : r2) : Prop := void (In1 (rx r)) <-> void (In1 (ry r)).
Definition numpt (p : pt2) : Prop := number (px p) /\ number (py p).
Definition evpt (p : pt2) : ext * ext := (ev (px p), ev (py p)).

Lemma r2_is_valid_spec r : num2 r -> r2_is_valid r = true <-> valid2 r.
Proof.
  intros [A B]. unfold r2_is_valid, valid2. rewrite <- !r1_is_empty_spec by auto.
  destruct (r1_is_empty (rx r)), (r1_is_empty (ry r)); cbn; intuition congruence.
Qed.
Lemma nonvoid i : num1 i -> ~ void (In1 i) -> exists x, In1 i x.
Proof.
  intros N V. exists (ev (lo1 i)). rewrite In1_phi. fold (g (lo1 i)). split; [lra|].
  apply Rnot_lt_le. intros L. apply V. intros x. rewrite In1_phi. lra.
Qed.
Lemma void_dec i : num1 i -> void (In1 i) \/ ~ void (In1 i).
Proof. intros N. rewrite <- r1_is_empty_spec by auto. destruct (r1_is_empty i); auto. Qed.
Lemma r2_is_empty_spec r : num2 r -> valid2 r -> r2_is_empty r = true <-> void (In2 r).
Proof.
  intros [A B] V. unfold r2_is_empty. rewrite r1_is_empty_spec by auto. split.
  - intros E [x y] [H _]. apply (E x); auto.
  - intros E. destruct (void_dec (rx r) A) as [|N]; auto. exfalso.
    destruct (nonvoid _ A N) as [x X]. destruct (nonvoid (ry r) B) as [y Y]; [unfold valid2 in V; tauto|].
    apply (E (x, y)). split; auto.
Qed.

Section S.
Context (r o : r2) (Nr : num2 r) (No : num2 o).

Lemma r2_contains_point_spec p : numpt p -> r2_contains_point r p = true <-> In2 r (evpt p).
Proof.
  intros [A B]. destruct Nr. unfold r2_contains_point. rewrite Bool.andb_true_iff, !r1_contains_spec by auto. reflexivity.
Qed.
Lemma r2_interior_contains_point_spec p : numpt p -> r2_interior_contains_point r p = true <-> Int2 r (evpt p).
Proof.
  intros [A B]. destruct Nr. unfold r2_interior_contains_point. rewrite Bool.andb_true_iff, !r1_interior_contains_spec by auto. reflexivity.
Qed.
Lemma prod_subset (P Q P' Q' : ext -> Prop) : (void P <-> void Q) -> (void P \/ exists x, P x) -> (void Q \/ exists x, Q x) ->
  subset P P' /\ subset Q Q' <-> subset (fun p => P (fst p) /\ Q (snd p)) (fun p => P' (fst p) /\ Q' (snd p)).
Proof.
  intros V D1 D2. split.
  - intros [A B] [x y] [X Y]. split; [apply A|apply B]; auto.
  - intros H. destruct D1 as [E|[x X]].
    { split; intros z Z; exfalso; [apply (E z Z)|apply (proj1 V E z Z)]. }
    destruct D2 as [E|[y Y]]. { exfalso. apply (proj2 V E x X). }
    split; intros z Z; [apply (H (z, y))|apply (H (x, z))]; auto.
Qed.
Lemma r2_contains_spec : valid2 o -> r2_contains r o = true <-> subset (In2 o) (In2 r).
Proof.
  intros V. destruct Nr, No as [H1 H2]. unfold r2_contains. rewrite Bool.andb_true_iff, !r1_contains_interval_spec by auto.
  apply prod_subset; auto.
  - destruct (void_dec _ H1); auto. right. apply nonvoid; auto.
  - destruct (void_dec _ H2); auto. right. apply nonvoid; auto.
Qed.
Lemma r2_interior_contains_spec : valid2 o -> r2_interior_contains r o = true <-> subset (In2 o) (Int2 r).
Proof.
  intros V. destruct Nr, No as [H1 H2]. unfold r2_interior_contains. rewrite Bool.andb_true_iff, !r1_interior_contains_interval_spec by auto.
  apply prod_subset; auto.
  - destruct (void_dec _ H1); auto. right. apply nonvoid; auto.
  - destruct (void_dec _ H2); auto. right. apply nonvoid; auto.
Qed.
Lemma r2_intersects_spec : r2_intersects r o = true <-> meets (In2 r) (In2 o).
Proof.
  destruct Nr, No. unfold r2_intersects. rewrite Bool.andb_true_iff, !r1_intersects_spec by auto. unfold meets, In2. split.
  - intros [(x & A & B) (y & C & D)]. exists (x, y). auto.
  - intros ((x & y) & [A B] & [C D]). split; eauto.
Qed.
Lemma r2_interior_intersects_spec : r2_interior_intersects r o = true <-> meets (Int2 r) (In2 o).
Proof.
  destruct Nr, No. unfold r2_interior_intersects. rewrite Bool.andb_true_iff, !r1_interior_intersects_spec by auto. unfold meets, In2, Int2. split.
  - intros [(x & A & B) (y & C & D)]. exists (x, y). auto.
  - intros ((x & y) & [A B] & [C D]). split; eauto.
Qed.
Lemma EMPTY1_void : void (In1 r1_EMPTY).
Proof. apply r1_is_empty_spec; [split; reflexivity|vm_compute; reflexivity]. Qed.
Lemma r2_intersection_spec p : In2 (r2_intersection r o) p <-> In2 r p /\ In2 o p.
Proof.
  destruct Nr as [A B], No as [C D]. unfold r2_intersection.
  destruct (r1_is_empty (r1_intersection (rx r) (rx o)) || r1_is_empty (r1_intersection (ry r) (ry o)))%bool eqn:E.
  - split.
    + intros [H _]. elim (EMPTY1_void _ H).
    + intros [[H1 H2] [H3 H4]]. exfalso. apply Bool.orb_true_iff in E. destruct E as [E|E]; apply r1_is_empty_spec in E; auto using r1_intersection_num;
        eapply E; apply r1_intersection_spec; eauto.
  - unfold In2; cbn [rx ry]. rewrite !r1_intersection_spec by auto. tauto.
Qed.
Lemma r2_intersection_valid : num2 (r2_intersection r o) /\ valid2 (r2_intersection r o).
Proof.
  destruct Nr as [A B], No as [C D]. unfold r2_intersection.
  destruct (r1_is_empty (r1_intersection (rx r) (rx o)) || r1_is_empty (r1_intersection (ry r) (ry o)))%bool eqn:E.
  - split; [split; split; reflexivity|]. unfold valid2. cbn [r2_EMPTY rx ry]. tauto.
  - split; [split; cbn [rx ry]; apply r1_intersection_num; auto|].
    apply Bool.orb_false_iff in E. unfold valid2. cbn [rx ry]. rewrite <- !r1_is_empty_spec by auto using r1_intersection_num.
    destruct E as [-> ->]. tauto.
Qed.
Lemma r2_union_num : num2 (r2_union r o).
Proof. destruct Nr, No. split; cbn [r2_union rx ry]; apply r1_union_num; auto. Qed.
Lemma r2_union_upper p : In2 r p \/ In2 o p -> In2 (r2_union r o) p.
Proof.
  destruct Nr, No. intros [[A B]|[A B]]; (split; cbn [r2_union rx ry]; apply r1_union_upper; auto).
Qed.
Lemma r2_union_least k : valid2 r -> valid2 o -> num2 k -> subset (In2 r) (In2 k) -> subset (In2 o) (In2 k) -> subset (In2 (r2_union r o)) (In2 k).
Proof.
  intros Vr Vo Nk A B. destruct Nr as [R1 R2], No as [O1 O2], Nk as [K1 K2].
  unfold In2 in A, B.
  apply prod_subset in A; auto; [|destruct (void_dec _ R1); auto; right; apply nonvoid; auto|destruct (void_dec _ R2); auto; right; apply nonvoid; auto].
  apply prod_subset in B; auto; [|destruct (void_dec _ O1); auto; right; apply nonvoid; auto|destruct (void_dec _ O2); auto; right; apply nonvoid; auto].
  intros [x y] [X Y]. cbn [r2_union rx ry fst snd] in *. destruct A, B. split; cbn [fst snd].
  - eapply (r1_union_least (rx r) (rx o)); eauto.
  - eapply (r1_union_least (ry r) (ry o)); eauto.
Qed.
Lemma r2_union_void i j : num1 i -> num1 j -> void (In1 (r1_union i j)) <-> void (In1 i) /\ void (In1 j).
Proof.
  intros A B. split.
  - intros V. split; intros x X; apply (V x), r1_union_upper; auto.
  - intros [V W] x X. unfold r1_union in X. apply (r1_is_empty_spec i A) in V. rewrite V in X. apply (W x X).
Qed.
Lemma r2_union_valid : valid2 r -> valid2 o -> valid2 (r2_union r o).
Proof.
  destruct Nr, No. unfold valid2. cbn [r2_union rx ry]. rewrite !r2_union_void by auto. tauto.
Qed.
Lemma r2_add_num p : numpt p -> num2 (r2_add_point r p).
Proof. intros []. destruct Nr. split; cbn [r2_add_point rx ry]; apply r1_add_num; auto. Qed.
Lemma r2_add_upper p q : numpt p -> In2 r q \/ q = evpt p -> In2 (r2_add_point r p) q.
Proof.
  intros [P1 P2] H. destruct Nr. split; cbn [r2_add_point rx ry]; apply r1_add_upper; auto; destruct H as [[HA HB]|H]; auto; subst q; auto.
Qed.
Lemma r2_add_valid p : numpt p -> valid2 (r2_add_point r p).
Proof.
  intros Np. assert (H : In2 (r2_add_point r p) (evpt p)) by (apply r2_add_upper; auto).
  destruct H as [A B]. split; intros V; exfalso; [apply (V _ A)|apply (V _ B)].
Qed.
Lemma r2_add_least p k : valid2 r -> numpt p -> num2 k -> subset (In2 r) (In2 k) -> In2 k (evpt p) -> subset (In2 (r2_add_point r p)) (In2 k).
Proof.
  intros V [P1 P2] [K1 K2] A [B1 B2]. destruct Nr as [R1 R2]. unfold In2 in A.
  apply prod_subset in A; auto; [|destruct (void_dec _ R1); auto; right; apply nonvoid; auto|destruct (void_dec _ R2); auto; right; apply nonvoid; auto].
  intros [x y] [X Y]. cbn [r2_add_point rx ry fst snd] in *. destruct A. split; cbn [fst snd].
  - apply (r1_add_least (rx r) R1 (px p) (rx k)); auto.
  - apply (r1_add_least (ry r) R2 (py p) (ry k)); auto.
Qed.
Lemma r2_clamp_spec p : numpt p -> ~ void (In2 r) ->
  In2 r (evpt (r2_clamp_point r p)) /\ (In2 r (evpt p) -> evpt (r2_clamp_point r p) = evpt p).
Proof.
  intros [A B] V. destruct Nr as [R1 R2].
  assert (V1 : ~ void (In1 (rx r))) by (intros X; apply V; intros q [Q _]; apply (X _ Q)).
  assert (V2 : ~ void (In1 (ry r))) by (intros X; apply V; intros q [_ Q]; apply (X _ Q)).
  destruct (r1_clamp_spec (rx r) R1 (px p) A V1) as (C & D & _).
  destruct (r1_clamp_spec (ry r) R2 (py p) B V2) as (C' & D' & _).
  split; [split; auto|]. intros [X Y]. unfold evpt; cbn [r2_clamp_point px py]. f_equal; auto.
Qed.
Lemma r2_expanded_contains m p :
  finite (lo1 (rx r)) -> finite (hi1 (rx r)) -> finite (lo1 (ry r)) -> finite (hi1 (ry r)) ->
  finite (px m) -> finite (py m) -> finite (px p) -> finite (py p) -> ~ void (In2 r) ->
  B2R (lo1 (rx r)) - B2R (px m) <= B2R (px p) <= B2R (hi1 (rx r)) + B2R (px m) ->
  B2R (lo1 (ry r)) - B2R (py m) <= B2R (py p) <= B2R (hi1 (ry r)) + B2R (py m) ->
  In2 (r2_expanded r m) (evpt p).
Proof.
  intros. assert (V1 : ~ void (In1 (rx r))) by (intros X; apply H7; intros q [Q _]; apply (X _ Q)).
  assert (V2 : ~ void (In1 (ry r))) by (intros X; apply H7; intros q [_ Q]; apply (X _ Q)).
  assert (X : In1 (r1_expanded (rx r) (px m)) (ev (px p))) by (apply r1_expanded_contains; auto).
  assert (Y : In1 (r1_expanded (ry r) (py m)) (ev (py p))) by (apply r1_expanded_contains; auto).
  unfold r2_expanded.
  destruct (r1_is_empty (r1_expanded (rx r) (px m))) eqn:E1.
  { apply r1_is_empty_spec in E1; [|apply r1_expanded_num; auto]. elim (E1 _ X). }
  destruct (r1_is_empty (r1_expanded (ry r) (py m))) eqn:E2.
  { apply r1_is_empty_spec in E2; [|apply r1_expanded_num; auto]. elim (E2 _ Y). }
  split; auto.
Qed.
End S.

Lemma r2_from_points_aux ps : forall r, num2 r -> valid2 r -> Forall numpt ps ->
  let u := fold_left r2_add_point ps r in
  num2 u /\ valid2 u /\ subset (In2 r) (In2 u) /\ (forall p, In p ps -> In2 u (evpt p)) /\
  forall k, num2 k -> subset (In2 r) (In2 k) -> (forall p, In p ps -> In2 k (evpt p)) -> subset (In2 u) (In2 k).
Proof.
  induction ps as [|p ps IH]; intros r N V F; cbn [fold_left].
  - split; [auto|]. split; [auto|]. split; [intros x X; auto|]. split; [intros p []|]. intros k _ H _. exact H.
  - inversion F as [|p' ps' P1 P2]; subst. destruct (IH (r2_add_point r p)) as (A & B & C & D & E);
      auto using r2_add_num, r2_add_valid. cbn zeta in *.
    split; [auto|]. split; [auto|]. split; [intros x X; apply C, r2_add_upper; auto|]. split.
    + intros q [<-|Q]; auto. apply C, r2_add_upper; auto.
    + intros k Nk S1 S2. apply E; auto.
      * apply r2_add_least; auto. apply S2. left; auto.
      * intros q Q. apply S2. right; auto.
Qed.
Lemma r2_from_points_spec ps : ps <> [] -> Forall numpt ps ->
  num2 (r2_from_points ps) /\ valid2 (r2_from_points ps) /\
  (forall p, In p ps -> In2 (r2_from_points ps) (evpt p)) /\
  forall k, num2 k -> (forall p, In p ps -> In2 k (evpt p)) -> subset (In2 (r2_from_points ps)) (In2 k).
Proof.
  intros NE F. destruct ps as [|p ps]; [congruence|]. inversion F as [|p' ps' [P1 P2] Q]; subst.
  set (r := R2 (r1_from_point (px p)) (r1_from_point (py p))).
  assert (Self : In2 r (evpt p)).
  { split; apply In1_phi; cbn [r rx ry evpt fst snd r1_from_point lo1 hi1]; unfold g; lra. }
  assert (N : num2 r) by (split; split; auto).
  assert (V : valid2 r).
  { destruct Self as [A B]. split; intros V; exfalso; [apply (V _ A)|apply (V _ B)]. }
  destruct (r2_from_points_aux ps r N V Q) as (A & B & C & D & E). cbn [r2_from_points]. fold r.
  split; [auto|]. split; [auto|]. split.
  - intros q [<-|I]; auto.
  - intros k Nk H. apply E; auto. 2: intros q I; apply H; right; auto.
    intros [x y] [X Y]. assert (K : In2 k (evpt p)) by (apply H; left; auto).
    cbn [fst snd r rx ry] in *. apply In1_phi in X, Y. cbn [r1_from_point lo1 hi1] in *.
    assert (x = ev (px p)) by (apply phi_inj; unfold g in *; lra).
    assert (y = ev (py p)) by (apply phi_inj; unfold g in *; lra). subst. exact K.
Qed.
