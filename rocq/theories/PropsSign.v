(** C51, C65, C67: the answers of the orientation predicates against the exact determinant. *)
From Coq Require Import Reals Lra Lia Bool.
From Flocq Require Import Core.
From Verif Require Import F64 F64Facts IntervalSpec F64Arith F64Error S1Proofs VectorModel PredicatesModel F64Neg PredicatesProofs PredicatesError PredicatesFloat PredicatesSound PredicatesStable PredicatesRobust PropsPredicates.
Open Scope R_scope.

(** ** Specification: the determinant of three points in exact arithmetic *)
Definition exact_det (a b c : vec) : R :=
  B2R (vx a) * (B2R (vy b) * B2R (vz c) - B2R (vz b) * B2R (vy c)) -
  B2R (vy a) * (B2R (vx b) * B2R (vz c) - B2R (vz b) * B2R (vx c)) +
  B2R (vz a) * (B2R (vx b) * B2R (vy c) - B2R (vy b) * B2R (vx c)).

Lemma exact_det_det a b c : exact_det a b c = det a b c.
Proof. unfold exact_det, det. ring. Qed.

(* an answer that is not contradicted by the exact determinant *)
Definition agrees (d : direction) (x : R) : Prop :=
  match d with CounterClockwise => 0 < x | Clockwise => x < 0 | Indeterminate => True end.

(** ** C65: triage_sign never gives a wrong answer *)
Theorem C65_triage_sound a b c : is_unit a = true -> is_unit b = true -> is_unit c = true ->
  agrees (triage_sign a b c) (exact_det a b c).
Proof.
  intros Ua Ub Uc. rewrite exact_det_det. destruct (triage_sign a b c) eqn:E; cbn [agrees]; auto;
    [apply triage_cw|apply triage_ccw]; auto.
Qed.
Print Assumptions C65_triage_sound.

(* every coordinate is zero or at least 2^-200 in magnitude *)
Definition coord_ok (x : f64) : bool := feq x f0 || fge (fabs x) (lit 1 (-200)).
Definition no_tiny (v : vec) : bool := coord_ok (vx v) && coord_ok (vy v) && coord_ok (vz v).

Lemma coord_ok_sizeable x : finite x -> coord_ok x = true -> sizeable (B2R x).
Proof.
  intros F H. unfold coord_ok in H. apply orb_true_iff in H. destruct H as [H|H].
  - left. apply (feq_val x f0 F eq_refl H).
  - right. destruct (fabs_val x F) as [Fa Va]. destruct (lit_val 1 (-200) ltac:(lia) ltac:(lia)) as [F1 V1].
    unfold fge in H. revert H. destruct (fle_R (lit 1 (-200)) (fabs x) F1 Fa) as [G|G]; [|discriminate]. intros _. rewrite Va, V1 in G. lra.
Qed.
Lemma no_tiny_sizeable v : is_unit v = true -> no_tiny v = true -> sizeable_vec v.
Proof.
  intros U H. destruct (unit_bound v U) as [(F1 & F2 & F3) _]. unfold no_tiny in H.
  apply andb_true_iff in H. destruct H as [H H3]. apply andb_true_iff in H. destruct H as [H1 H2].
  split; [|split]; apply coord_ok_sizeable; auto.
Qed.

(** robust_sign never gives a wrong answer, unless some coordinate is nonzero and smaller than 2^-200.
    Missing: such coordinates, for which the claim is false, see below. *)
Theorem C65_robust_sound_partial a b c : is_unit a = true -> is_unit b = true -> is_unit c = true ->
  no_tiny a = true -> no_tiny b = true -> no_tiny c = true ->
  agrees (robust_sign a b c) (exact_det a b c).
Proof.
  intros Ua Ub Uc Na Nb Nc. rewrite exact_det_det.
  destruct (robust_sound a b c Ua Ub Uc (no_tiny_sizeable a Ua Na) (no_tiny_sizeable b Ub Nb) (no_tiny_sizeable c Uc Nc)) as [A B].
  destruct (robust_sign a b c) eqn:E; cbn [agrees]; auto.
Qed.
Print Assumptions C65_robust_sound_partial.

(* three points within 2^-30 of each other, decided by stable_sign only *)
Definition near1 : vec := Vec f1 f0 f0.
Definition near2 : vec := Vec f1 (lit 1 (-30)) f0.
Definition near3 : vec := Vec f1 f0 (lit 1 (-31)).
Example C65_robust_sound_ex :
  is_unit near1 = true /\ is_unit near2 = true /\ is_unit near3 = true /\
  no_tiny near1 = true /\ no_tiny near2 = true /\ no_tiny near3 = true /\
  triage_sign near1 near2 near3 = Indeterminate /\ robust_sign near1 near2 near3 = CounterClockwise /\
  robust_sign near1 near3 near2 = Clockwise.
Proof. vm_compute. repeat split. Qed.
Example C65_triage_ex : is_unit (V 1 0 0) = true /\ is_unit (V 0 1 0) = true /\ is_unit (V 0 0 (-1)) = true /\
  triage_sign (V 1 0 0) (V 0 1 0) (V 0 0 (-1)) = Clockwise.
Proof. vm_compute. repeat split. Qed.

(* underflow makes stable_sign wrong: a point 2^-1027 above the other two's great circle *)
Definition under_a : vec := Vec (lit 7353955398896839 (-53)) (lit 5200863236583324 (-53)) f0.
Definition under_b : vec := Vec (lit 7353955398896785 (-53)) (lit 5200863236583280 (-53)) (lit 91940339890882 (-1074)).
Definition under_c : vec := Vec (lit 7353955398896785 (-53)) (lit 5200863236583280 (-53)) f0.
Theorem C65_robust_sound_refuted : exists a b c,
  is_unit a = true /\ is_unit b = true /\ is_unit c = true /\
  robust_sign a b c = Clockwise /\ 0 < exact_det a b c.
Proof.
  exists under_a, under_b, under_c. split; [vm_compute; reflexivity|]. split; [vm_compute; reflexivity|]. split; [vm_compute; reflexivity|].
  split; [vm_compute; reflexivity|]. unfold exact_det, under_a, under_b, under_c. cbn [vx vy vz]. change (B2R f0) with 0.
  destruct (lit_val 7353955398896839 (-53) ltac:(lia) ltac:(lia)) as [_ ->]. destruct (lit_val 5200863236583324 (-53) ltac:(lia) ltac:(lia)) as [_ ->].
  destruct (lit_val 7353955398896785 (-53) ltac:(lia) ltac:(lia)) as [_ ->]. destruct (lit_val 5200863236583280 (-53) ltac:(lia) ltac:(lia)) as [_ ->].
  destruct (lit_val 91940339890882 (-1074) ltac:(lia) ltac:(lia)) as [_ ->].
  pose proof (bpow_gt_0 radix2 (-1074)) as P1. pose proof (bpow_gt_0 radix2 (-53)) as P2.
  generalize dependent (bpow radix2 (-1074)). generalize dependent (bpow radix2 (-53)). intros p Hp q Hq.
  match goal with |- 0 < ?e => replace e with (((5200863236583324 * 7353955398896785 - 7353955398896839 * 5200863236583280) * 91940339890882) * (p * p * q)) by ring end.
  apply Rmult_lt_0_compat; [lra|]. apply Rmult_lt_0_compat; [apply Rmult_lt_0_compat; auto|auto].
Qed.
Print Assumptions C65_robust_sound_refuted.

(** ** C51: equal points are Indeterminate, and only triples with a small determinant are *)
Lemma veq_B2R a b : is_unit a = true -> is_unit b = true -> veq a b = true ->
  B2R (vx a) = B2R (vx b) /\ B2R (vy a) = B2R (vy b) /\ B2R (vz a) = B2R (vz b).
Proof.
  intros Ua Ub H. destruct (unit_bound a Ua) as [(F1 & F2 & F3) _]. destruct (unit_bound b Ub) as [(G1 & G2 & G3) _].
  unfold veq in H. apply andb_true_iff in H. destruct H as [H H3]. apply andb_true_iff in H. destruct H as [H1 H2].
  split; [|split]; apply feq_val; auto.
Qed.
Theorem C51_equal_points a b c : is_unit a = true -> is_unit b = true -> is_unit c = true ->
  veq a b = true \/ veq b c = true \/ veq c a = true -> robust_sign a b c = Indeterminate.
Proof.
  intros Ua Ub Uc H. pose proof (C65_triage_sound a b c Ua Ub Uc) as T.
  assert (D : exact_det a b c = 0).
  { unfold exact_det. destruct H as [H|[H|H]]; [apply (veq_B2R a b Ua Ub) in H|apply (veq_B2R b c Ub Uc) in H|apply (veq_B2R c a Uc Ua) in H];
    destruct H as (-> & -> & ->); ring. }
  rewrite D in T. unfold robust_sign. destruct (triage_sign a b c); cbn [agrees] in T; try lra.
  unfold expensive_sign. destruct H as [H|[H|H]]; rewrite H; rewrite ?orb_true_r; reflexivity.
Qed.
Print Assumptions C51_equal_points.
Example C51_equal_points_ex2 : is_unit near2 = true /\ is_unit near3 = true /\ veq near3 near3 = true.
Proof. vm_compute. repeat split. Qed.

(* Missing: triples with an exact determinant below 36 * 2^-53, which are not always resolved *)
Theorem C51_resolves_partial a b c : is_unit a = true -> is_unit b = true -> is_unit c = true ->
  36 * bpow radix2 (-53) <= Rabs (exact_det a b c) ->
  robust_sign a b c = (if Rlt_dec 0 (exact_det a b c) then CounterClockwise else Clockwise).
Proof.
  intros Ua Ub Uc H. rewrite exact_det_det in *. destruct (robust_resolves a b c Ua Ub Uc) as [A B].
  change (bpow radix2 (-53)) with u in H. destruct (Rlt_dec 0 (det a b c)) as [L|L].
  - apply A. rewrite Rabs_pos_eq in H; lra.
  - apply B. rewrite Rabs_left1 in H; lra.
Qed.
Print Assumptions C51_resolves_partial.
Example C51_resolves_ex : 36 * bpow radix2 (-53) <= Rabs (exact_det (V 1 0 0) (V 0 1 0) (V 0 0 (-1))).
Proof.
  unfold exact_det, V. cbn [vx vy vz]. destruct (of_int_val 1 ltac:(lia)) as [_ ->]. destruct (of_int_val 0 ltac:(lia)) as [_ ->].
  destruct (of_int_val (-1) ltac:(lia)) as [_ ->]. change (bpow radix2 (-53)) with (/ 9007199254740992).
  match goal with |- _ <= Rabs ?e => replace e with (- 1) by ring end. rewrite Rabs_left; lra.
Qed.

(** ** C67: the answers for the six orders of three points never contradict each other.
    Missing: equality of the answers, which is false (C67_robust_sign_laws_refuted). *)
Definition consistent (d e : direction) : Prop := d = Indeterminate \/ e = Indeterminate \/ d = e.
Theorem C67_robust_sign_laws_partial a b c : is_unit a = true -> is_unit b = true -> is_unit c = true ->
  no_tiny a = true -> no_tiny b = true -> no_tiny c = true ->
  consistent (robust_sign a b c) (robust_sign b c a) /\ consistent (robust_sign a b c) (robust_sign c a b) /\
  consistent (robust_sign a b c) (flip (robust_sign c b a)) /\ consistent (robust_sign a b c) (flip (robust_sign b a c)) /\
  consistent (robust_sign a b c) (flip (robust_sign a c b)).
Proof.
  intros Ua Ub Uc Na Nb Nc.
  pose proof (C65_robust_sound_partial a b c Ua Ub Uc Na Nb Nc) as P. 
  assert (K : forall d x, agrees d x -> x = exact_det a b c -> consistent (robust_sign a b c) d).
  { intros d x Q E. unfold consistent. destruct (robust_sign a b c), d; auto; cbn [agrees] in P, Q; exfalso; lra. }
  assert (F : forall d x, agrees d x -> agrees (flip d) (- x)).
  { intros d x Q. destruct d; cbn [agrees flip] in *; lra. }
  split; [|split; [|split; [|split]]].
  - eapply K; [exact (C65_robust_sound_partial b c a Ub Uc Ua Nb Nc Na)|]. unfold exact_det. ring.
  - eapply K; [exact (C65_robust_sound_partial c a b Uc Ua Ub Nc Na Nb)|]. unfold exact_det. ring.
  - eapply K; [exact (F _ _ (C65_robust_sound_partial c b a Uc Ub Ua Nc Nb Na))|]. unfold exact_det. ring.
  - eapply K; [exact (F _ _ (C65_robust_sound_partial b a c Ub Ua Uc Nb Na Nc))|]. unfold exact_det. ring.
  - eapply K; [exact (F _ _ (C65_robust_sound_partial a c b Ua Uc Ub Na Nc Nb))|]. unfold exact_det. ring.
Qed.
Print Assumptions C67_robust_sign_laws_partial.
Example C67_robust_sign_laws_ex : robust_sign near2 near3 near1 = CounterClockwise /\ robust_sign near3 near2 near1 = Clockwise.
Proof. vm_compute. auto. Qed.
