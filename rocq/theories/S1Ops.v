(** Union, intersection, complement and construction of s1 intervals. *)
From Coq Require Import Reals Lra Lia Classical.
From Verif Require Import F64 F64Facts IntervalSpec S1Model OrdTac S1Proofs.
Open Scope R_scope.

Ltac unf1 := unfold s1_is_inverted, s1_is_empty, s1_is_full, s1_eq, s1_FULL, s1_EMPTY; cbn [slo shi].

Lemma FULL_valid : Valid s1_FULL.
Proof.
  pose proof pi_pos. apply Valid_of_0; cbn [s1_FULL slo shi]; [apply mpi_finite|apply PI64_finite|].
  unfold valid0. rewrite mpi_val, pi_val. lra.
Qed.
Lemma EMPTY_valid : Valid s1_EMPTY.
Proof.
  pose proof pi_pos. apply Valid_of_0; cbn [s1_EMPTY slo shi]; [apply PI64_finite|apply mpi_finite|].
  unfold valid0. rewrite mpi_val, pi_val. lra.
Qed.
Lemma FULL_A0 t : - pi < t <= pi -> A0 s1_FULL t.
Proof. intros. unfold A0, arc0, s1_FULL; cbn [slo shi]. rewrite mpi_val, pi_val. lra. Qed.
Lemma EMPTY_A0 t : ~ A0 s1_EMPTY t.
Proof. unfold A0, arc0, s1_EMPTY; cbn [slo shi]. rewrite mpi_val, pi_val. lra. Qed.

Lemma fc_spec i p : Valid i -> finite p -> BoolSpec (A0 i (B2R p)) (~ A0 i (B2R p)) (s1_fast_contains i p).
Proof.
  intros V F. pose proof (fast_contains_val i p V F) as H. destruct (s1_fast_contains i p); constructor; tauto || (intros A; apply H in A; discriminate).
Qed.
Lemma em_spec i : Valid i ->
  BoolSpec (B2R (slo i) = pi /\ B2R (shi i) = - pi) (~ (B2R (slo i) = pi /\ B2R (shi i) = - pi)) (s1_is_empty i).
Proof.
  intros V. destruct (Valid_0 i V) as (F1 & F2 & _). unf1. cmpR; constructor; lra.
Qed.
Lemma ci_spec i o : Valid i -> Valid o -> BoolSpec (forall t, - pi < t <= pi -> A0 o t -> A0 i t)
   (~ forall t, - pi < t <= pi -> A0 o t -> A0 i t) (s1_contains_interval i o).
Proof.
  intros Vi Vo. pose proof (s1_contains_interval_spec i o Vi Vo) as H.
  rewrite (subset_0 o Vo (Arc i) (A0 i)) in H; [|intros; apply arc_shift|intros; apply Arc_A0; auto].
  destruct (s1_contains_interval i o); constructor; tauto || (intros A; apply H in A; discriminate).
Qed.

(* the two shapes of an arc *)
Lemma arc0_le lo hi t : lo <= hi -> arc0 lo hi t <-> lo <= t <= hi.
Proof. intros. pose proof pi_pos. unfold arc0. lra. Qed.
Lemma arc0_gt lo hi t : hi < lo -> arc0 lo hi t <-> ~ (lo = pi /\ hi = - pi) /\ (lo <= t \/ t <= hi).
Proof. intros. unfold arc0. lra. Qed.
Ltac shape l h :=
  let L := fresh "L" in
  destruct (Rle_lt_dec l h) as [L|L];
  [repeat match goal with
   | H : context [arc0 l h ?t] |- _ => rewrite (arc0_le l h t L) in H
   | |- context [arc0 l h ?t] => rewrite (arc0_le l h t L)
   end
  |repeat match goal with
   | H : context [arc0 l h ?t] |- _ => rewrite (arc0_gt l h t L) in H
   | |- context [arc0 l h ?t] => rewrite (arc0_gt l h t L)
   end].
Ltac shapes :=
  unfold A0 in *; cbn [slo shi] in *;
  repeat match goal with
  | H : context [arc0 ?l ?h _] |- _ => shape l h
  | |- context [arc0 ?l ?h _] => shape l h
  end.

Section S.
Context (i o : s1) (Vi : Valid i) (Vo : Valid o).

Ltac start :=
  destruct (Valid_0 i Vi) as (Fi1 & Fi2 & Ri1 & Ri2 & Ni1 & Ni2);
  destruct (Valid_0 o Vo) as (Fo1 & Fo2 & Ro1 & Ro2 & No1 & No2); pose proof pi_pos as Ppi.

Lemma s1_union_valid : Valid (s1_union i o).
Proof.
  start. unfold s1_union.
  destruct (em_spec o Vo) as [E|E]; auto.
  destruct (fc_spec i (slo o) Vi Fo1) as [A|A]; destruct (fc_spec i (shi o) Vi Fo2) as [B|B].
  - destruct (s1_contains_interval i o); auto using FULL_valid.
  - apply Valid_of_0; cbn [slo shi]; auto. unfold valid0. shapes; ord.
  - apply Valid_of_0; cbn [slo shi]; auto. unfold valid0. shapes; ord.
  - destruct (em_spec i Vi) as [E'|E']; auto. destruct (fc_spec o (slo i) Vo Fi1) as [C|C]; auto. cbn [orb].
    destruct flt; (apply Valid_of_0; cbn [slo shi]; auto; unfold valid0; shapes; ord).
Qed.

Lemma s1_union_0 t : - pi < t <= pi -> A0 i t \/ A0 o t -> A0 (s1_union i o) t.
Proof.
  start. intros T. unfold s1_union.
  destruct (em_spec o Vo) as [E|E]. { unfold A0, arc0. lra. }
  destruct (fc_spec i (slo o) Vi Fo1) as [A|A]; destruct (fc_spec i (shi o) Vi Fo2) as [B|B].
  - destruct (ci_spec i o Vi Vo); auto using FULL_A0. intros []; auto.
  - shapes; ord.
  - shapes; ord.
  - destruct (em_spec i Vi) as [E'|E']. { cbn [orb]. shapes; ord. }
    destruct (fc_spec o (slo i) Vo Fi1) as [C|C]; cbn [orb]. { shapes; ord. }
    destruct flt; shapes; ord.
Qed.

(* two arcs that share a point *)
Lemma s1_union_exact_0 t : - pi < t <= pi -> (exists u, - pi < u <= pi /\ A0 i u /\ A0 o u) ->
  A0 (s1_union i o) t -> A0 i t \/ A0 o t.
Proof.
  start. intros T (u & U & U1 & U2). unfold s1_union.
  destruct (em_spec o Vo) as [E|E]; auto.
  destruct (fc_spec i (slo o) Vi Fo1) as [A|A]; destruct (fc_spec i (shi o) Vi Fo2) as [B|B].
  - destruct (ci_spec i o Vi Vo) as [C|C]; auto. intros _.
    destruct (classic (A0 i t)) as [X|X]; auto. right. apply NNPP. intros Y.
    apply C. intros v V W. apply NNPP. intros Z. clear C. shapes; ord.
  - intros X. apply NNPP. intros Y. shapes; ord.
  - intros X. apply NNPP. intros Y. shapes; ord.
  - destruct (em_spec i Vi) as [E'|E']; auto.
    destruct (fc_spec o (slo i) Vo Fi1) as [C|C]; cbn [orb]; auto.
    exfalso. clear t T. shapes; ord.
Qed.
(* otherwise the union also takes in one of the two gaps *)
Lemma s1_union_apart : ~ s1_is_empty i = true -> ~ s1_is_empty o = true ->
  ~ (exists u, - pi < u <= pi /\ A0 i u /\ A0 o u) ->
  s1_union i o = (if flt (positive_distance (shi o) (slo i)) (positive_distance (shi i) (slo o))
                 then S1 (slo o) (shi i) else S1 (slo i) (shi o)).
Proof.
  start. intros Ei Eo N.
  assert (M : forall u, - pi < u <= pi -> A0 i u -> A0 o u -> False) by (intros u ? ? ?; apply N; exists u; auto).
  clear N. unfold s1_union.
  destruct (s1_is_empty i) eqn:EI; [congruence|]. destruct (s1_is_empty o) eqn:EO; [congruence|].
  destruct (em_spec i Vi) as [|E1]; [discriminate|]. destruct (em_spec o Vo) as [|E2]; [discriminate|]. clear Ei Eo EI EO.
  assert (X : ~ A0 i (B2R (slo o))).
  { intros X. destruct (Req_EM_T (B2R (slo o)) (- pi)) as [Q|Q].
    - specialize (M (B2R (shi i))). specialize (No1 Q).
      destruct (Req_EM_T (B2R (shi i)) (- pi)); shapes; ord.
    - apply (M (B2R (slo o))); auto; try lra. clear M. shapes; ord. }
  assert (Y : ~ A0 i (B2R (shi o))).
  { intros Y. apply (M (B2R (shi o))); auto; clear M; shapes; ord. }
  assert (Z : ~ A0 o (B2R (slo i))).
  { intros Z. destruct (Req_EM_T (B2R (slo i)) (- pi)) as [Q|Q].
    - apply (M (B2R (shi o))); clear M; shapes; ord.
    - apply (M (B2R (slo i))); auto; try lra. clear M. shapes; ord. }
  destruct (fc_spec i (slo o) Vi Fo1) as [A|A]; [tauto|]; destruct (fc_spec i (shi o) Vi Fo2) as [B|B]; [tauto|].
  destruct (fc_spec o (slo i) Vo Fi1) as [C|C]; [tauto|]. reflexivity.
Qed.

Lemma s1_intersection_valid : Valid (s1_intersection i o).
Proof.
  start. unfold s1_intersection.
  destruct (em_spec o Vo) as [E|E]; [apply EMPTY_valid|].
  destruct (fc_spec i (slo o) Vi Fo1) as [A|A]; destruct (fc_spec i (shi o) Vi Fo2) as [B|B].
  - destruct flt; auto.
  - apply Valid_of_0; cbn [slo shi]; auto. unfold valid0. shapes; ord.
  - apply Valid_of_0; cbn [slo shi]; auto. unfold valid0. shapes; ord.
  - destruct (fc_spec o (slo i) Vo Fi1) as [C|C]; auto. apply EMPTY_valid.
Qed.
Lemma s1_intersection_0 t : - pi < t <= pi -> A0 i t -> A0 o t -> A0 (s1_intersection i o) t.
Proof.
  start. intros T X Y. unfold s1_intersection.
  destruct (em_spec o Vo) as [E|E]. { exfalso. shapes; ord. }
  destruct (fc_spec i (slo o) Vi Fo1) as [A|A]; destruct (fc_spec i (shi o) Vi Fo2) as [B|B].
  - destruct flt; auto.
  - shapes; ord.
  - shapes; ord.
  - destruct (fc_spec o (slo i) Vo Fi1) as [C|C]; auto. exfalso. shapes; ord.
Qed.
Lemma s1_intersection_exact_0 t : - pi < t <= pi ->
  ~ (s1_fast_contains i (slo o) = true /\ s1_fast_contains i (shi o) = true) ->
  A0 (s1_intersection i o) t -> A0 i t /\ A0 o t.
Proof.
  start. intros T N X. unfold s1_intersection in X.
  destruct (em_spec o Vo) as [E|E]. { elim (EMPTY_A0 _ X). }
  destruct (fc_spec i (slo o) Vi Fo1) as [A|A]; destruct (fc_spec i (shi o) Vi Fo2) as [B|B].
  - tauto.
  - clear N. shapes; ord.
  - clear N. shapes; ord.
  - clear N. destruct (fc_spec o (slo i) Vo Fi1) as [C|C]; [|elim (EMPTY_A0 _ X)]. shapes; ord.
Qed.

Lemma s1_complement_valid : Valid (s1_complement i).
Proof.
  start. unfold s1_complement. cmpR; [apply FULL_valid|]. apply Valid_of_0; cbn [slo shi]; auto.
  unfold valid0. lra.
Qed.
Lemma s1_complement_0 t : - pi < t <= pi -> A0 (s1_complement i) t <-> ~ I0 i t.
Proof.
  start. intros T. unfold s1_complement, I0, int0. cmpR.
  - split; [intros _; lra|]. intros _. apply FULL_A0; auto.
  - unfold A0, arc0; cbn [slo shi]. lra.
Qed.
End S.

(* periodicity of the derived sets, to state everything for all angles *)
Lemma all_angles (P P0 Q Q0 : R -> Prop) :
  (forall t k, P (t + 2 * pi * IZR k) <-> P t) -> (forall t k, Q (t + 2 * pi * IZR k) <-> Q t) ->
  (forall t, - pi < t <= pi -> P t <-> P0 t) -> (forall t, - pi < t <= pi -> Q t <-> Q0 t) ->
  (forall t, - pi < t <= pi -> P0 t -> Q0 t) -> forall t, P t -> Q t.
Proof.
  intros SP SQ EP EQ H. apply (on_circle (fun t => P t -> Q t)).
  - intros t k A B. apply (SQ t k). apply A. apply SP. auto.
  - intros t T A. apply EQ; auto. apply H; auto. apply EP; auto.
Qed.

Lemma s1_new_valid lo hi : angle lo -> angle hi -> Valid (s1_new lo hi).
Proof.
  intros [F1 R1] [F2 R2]. pose proof pi_pos. apply Valid_of_0; unfold s1_new; cbn [slo shi]; cmpR;
    auto; try exact PI64_finite; unfold valid0; rewrite ?pi_val; lra.
Qed.
Lemma s1_new_spec lo hi t : angle lo -> angle hi -> Arc (s1_new lo hi) t <-> arc lo hi t.
Proof.
  intros [F1 R1] [F2 R2]. pose proof pi_pos. unfold Arc, s1_new; cbn [slo shi].
  destruct (Req_EM_T (B2R lo) (- pi)) as [L|L], (Req_EM_T (B2R hi) (- pi)) as [G|G];
  destruct (Req_EM_T (B2R lo) pi) as [L'|L'], (Req_EM_T (B2R hi) pi) as [G'|G'];
    cmpR; try lra; try tauto; unfold arc, arc_end; rewrite ?pi_val.
  all: repeat destruct Rle_dec; try lra.
  all: split; intros [N (k & K)]; (split; [lra|]).
  all: first [exists k; lra | exists (k - 1)%Z; rewrite minus_IZR; lra | exists (k + 1)%Z; rewrite plus_IZR; lra].
Qed.

Lemma s1_pair_valid a b : angle a -> angle b -> Valid (s1_from_point_pair a b).
Proof.
  intros HA HB. destruct (norm_pi_val a HA) as (F1 & R1 & _). destruct (norm_pi_val b HB) as (F2 & R2 & _).
  unfold s1_from_point_pair. destruct fle; apply Valid_of_0; cbn [slo shi]; auto; unfold valid0; lra.
Qed.
Lemma s1_pair_contains a b : angle a -> angle b ->
  Arc (s1_from_point_pair a b) (B2R a) /\ Arc (s1_from_point_pair a b) (B2R b).
Proof.
  intros HA HB. pose proof (s1_pair_valid a b HA HB) as V.
  rewrite <- (Arc_norm _ a), <- (Arc_norm _ b) by auto.
  destruct (norm_pi_val a HA) as (F1 & R1 & _). destruct (norm_pi_val b HB) as (F2 & R2 & _).
  rewrite !Arc_A0 by auto. unfold s1_from_point_pair. destruct fle; unfold A0, arc0; cbn [slo shi]; lra.
Qed.

Lemma s1_add_valid i p : Valid i -> angle p -> Valid (s1_add i p).
Proof.
  intros V Hp. unfold s1_add. destruct (fgt (fabs p) PI64); auto.
  destruct (Valid_0 i V) as (F1 & F2 & R1 & R2 & N1 & N2). pose proof pi_pos as Ppi.
  destruct (norm_pi_val p Hp) as (Fq & Rq & _). set (q := norm_pi p) in *. clearbody q.
  destruct (fc_spec i q V Fq) as [A|A]; auto. destruct (em_spec i V) as [E|E].
  + apply Valid_of_0; cbn [slo shi]; auto; unfold valid0; lra.
  + destruct flt; apply Valid_of_0; cbn [slo shi]; auto; unfold valid0; shapes; ord.
Qed.
Lemma s1_add_contains i p : Valid i -> angle p ->
  subset (Arc i) (Arc (s1_add i p)) /\ Arc (s1_add i p) (B2R p).
Proof.
  intros V Hp. pose proof (s1_add_valid i p V Hp) as V'.
  rewrite (subset_0 i V (Arc (s1_add i p)) (A0 (s1_add i p)));
    [|intros; apply arc_shift|intros; apply Arc_A0; auto].
  rewrite <- Arc_norm by auto. destruct (norm_pi_val p Hp) as (Fq & Rq & _).
  rewrite Arc_A0 by auto. clear V'. unfold s1_add.
  assert (G : fgt (fabs p) PI64 = false).
  { unfold fgt. destruct Hp as [Fp Rp]. destruct (flt_R PI64 (fabs p)) as [E|E]; auto.
    - apply PI64_finite.
    - unfold finite, fabs. rewrite is_finite_Babs. auto.
    - unfold fabs in E. rewrite B2R_Babs, pi_val in E. assert (Rabs (B2R p) <= pi) by (apply Rabs_le; lra). lra. }
  rewrite G. destruct (Valid_0 i V) as (F1 & F2 & R1 & R2 & N1 & N2). pose proof pi_pos as Ppi.
  set (q := norm_pi p) in *. clearbody q.
  destruct (fc_spec i q V Fq) as [A|A]; auto. destruct (em_spec i V) as [E|E].
  + split; [intros t T X; exfalso; shapes; ord|]. unfold A0, arc0; cbn [slo shi]. lra.
  + destruct flt; (split; [intros t T X|]; shapes; ord).
Qed.
