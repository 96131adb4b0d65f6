(** simple_crossing compares four determinants; what it decides when no product of two of
    them underflows. *)
From Coq Require Import Reals Lra Lia Bool ZArith.
From Flocq Require Import Core.
From Verif Require Import F64 F64Facts IntervalSpec F64Arith F64Error F64Neg S1Proofs VectorModel PredicatesModel PredicatesProofs.
Open Scope R_scope.

(* finite, and either zero or not close to it *)
Definition plain (x : f64) : Prop := finite x /\ (B2R x = 0 \/ bpow radix2 (-500) <= Rabs (B2R x)).

Lemma plain_neg x : plain x -> plain (fneg x).
Proof.
  intros [F V]. destruct (fneg_val x F) as [F' V']. split; auto. rewrite V', Rabs_Ropp. destruct V; [left; lra|right; auto].
Qed.
Lemma plain_opp x y : opposite x y -> plain x -> plain y.
Proof.
  intros H P. apply opposite_sym in H. apply plain_neg in P. destruct H as [->|[A B]]; auto.
  destruct y; try discriminate. split; [reflexivity|left; reflexivity].
Qed.

Lemma rnd_pos_big r : bpow radix2 (-1000) <= r -> 0 < rnd r.
Proof.
  intros H. apply rnd_le in H. rewrite rnd_bpow in H by lia. pose proof (bpow_gt_0 radix2 (-1000)). lra.
Qed.

Lemma big_prod x y : bpow radix2 (-500) <= Rabs x -> bpow radix2 (-500) <= Rabs y -> bpow radix2 (-1000) <= Rabs (x * y).
Proof.
  intros H K. rewrite Rabs_mult. replace (-1000)%Z with (-500 + -500)%Z by reflexivity. rewrite bpow_plus.
  pose proof (bpow_gt_0 radix2 (-500)). apply Rmult_le_compat; lra.
Qed.

Lemma pos_iff (z : f64) r : result z r -> (r = 0 \/ bpow radix2 (-1000) <= Rabs r) ->
  (flt f0 z = true <-> 0 < r) /\ (fle z f0 = true <-> r <= 0).
Proof.
  intros R B. pose proof (bpow_gt_0 radix2 (-1000)) as P. pose proof (bpow_gt_0 radix2 1024) as P'.
  assert (S : (0 < r /\ 0 < rnd r) \/ (r < 0 /\ rnd r < 0) \/ (r = 0 /\ rnd r = 0)).
  { destruct B as [->|B]; [right; right; split; auto; apply rnd_0|]. unfold Rabs in B. destruct (Rcase_abs r).
    - right; left. split; auto. apply rnd_pos_big in B. rewrite rnd_opp in B. lra.
    - left. pose proof (rnd_pos_big r B). lra. }
  destruct R as [(F & V & _)|(s & -> & L & Hs)].
  - destruct (flt_R f0 z eq_refl F) as [A|A], (fle_R z f0 F eq_refl) as [C|C]; change (B2R f0) with 0 in *;
      rewrite V in *; split; split; intros; try discriminate; try reflexivity; try lra.
  - assert (r <> 0) by (intros ->; rewrite rnd_0, Rabs_R0 in L; lra).
    destruct s; cbn; split; split; intros; try discriminate; try reflexivity; lra.
Qed.

Lemma mul_sign x y : plain x -> plain y ->
  (flt f0 (fmul x y) = true <-> 0 < B2R x * B2R y) /\ (fle (fmul x y) f0 = true <-> B2R x * B2R y <= 0).
Proof.
  intros [F V] [F' V']. apply pos_iff; [apply fmul_result; auto|].
  destruct V as [->|V]; [left; lra|]. destruct V' as [->|V']; [left; lra|]. right. apply big_prod; auto.
Qed.

Lemma same_sign x y : 0 < x * y <-> (0 < x /\ 0 < y) \/ (x < 0 /\ y < 0).
Proof.
  split.
  - intros H. destruct (Rtotal_order x 0) as [A|[->|A]]; [right|lra|left]; split; auto.
    + apply Rnot_le_lt. intros B. assert (0 <= (- x) * y) by (apply Rmult_le_pos; lra). lra.
    + apply Rnot_le_lt. intros B. assert (0 <= x * (- y)) by (apply Rmult_le_pos; lra). lra.
  - intros [[A B]|[A B]]; [apply Rmult_lt_0_compat; auto|]. replace (x * y) with ((- x) * (- y)) by ring. apply Rmult_lt_0_compat; lra.
Qed.

(* the four determinants ACB, BDA, CBD, DAC have the same strict sign *)
Lemma simple_crossing_iff a b c d :
  plain (dot (cross a b) c) -> plain (dot (cross a b) d) -> plain (dot (cross c d) b) -> plain (dot (cross c d) a) ->
  (simple_crossing a b c d = true <->
   (B2R (dot (cross a b) c) < 0 /\ 0 < B2R (dot (cross a b) d) /\ B2R (dot (cross c d) b) < 0 /\ 0 < B2R (dot (cross c d) a)) \/
   (0 < B2R (dot (cross a b) c) /\ B2R (dot (cross a b) d) < 0 /\ 0 < B2R (dot (cross c d) b) /\ B2R (dot (cross c d) a) < 0)).
Proof.
  intros P1 P2 P3 P4. unfold simple_crossing, fgt.
  pose proof (plain_neg _ P1) as N1. pose proof (plain_neg _ P3) as N3.
  pose proof (mul_sign _ _ N1 P2) as [_ L12]. pose proof (mul_sign _ _ N1 N3) as [L13 _]. pose proof (mul_sign _ _ N1 P4) as [L14 _].
  destruct P1 as [F1 _], P3 as [F3 _]. destruct (fneg_val _ F1) as [_ V1], (fneg_val _ F3) as [_ V3].
  set (x1 := dot (cross a b) c) in *. set (x2 := dot (cross a b) d) in *.
  set (x3 := dot (cross c d) b) in *. set (x4 := dot (cross c d) a) in *.
  destruct (fle (fmul (fneg x1) x2) f0) eqn:E.
  - pose proof (proj1 L12 eq_refl) as H. rewrite V1 in H. split; [discriminate|]. intros K.
    assert (0 < - B2R x1 * B2R x2) by (apply same_sign; lra). lra.
  - assert (H : 0 < - B2R x1 * B2R x2).
    { apply Rnot_le_lt. intros K. rewrite <- V1 in K. apply L12 in K. congruence. }
    rewrite andb_true_iff, L13, L14, V1, V3, !same_sign. apply same_sign in H. lra.
Qed.
