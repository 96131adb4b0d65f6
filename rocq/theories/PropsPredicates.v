(** C50, C51, C64, C66, C67: orientation predicates. *)
From Coq Require Import Reals Lra Lia Bool ZArith.
From Flocq Require Import Core.
From Verif Require Import F64 F64Facts IntervalSpec F64Arith F64Error F64Neg VectorModel PredicatesModel PredicatesProofs PredicatesCrossing.
Open Scope Z_scope.

Definition V (x y z : Z) : vec := Vec (of_int x) (of_int y) (of_int z).

(** ** C50: sign(a,b,c) implies not sign(c,b,a), whatever the coordinates are *)
Theorem C50_sign_antisymmetric a b c : sign a b c = true -> sign c b a = false.
Proof.
  unfold sign, fgt. intros H. pose proof (dot_cross_swap c a b) as O.
  rewrite (opposite_pos _ _ O) in H. apply flt_asym, H.
Qed.
Print Assumptions C50_sign_antisymmetric.
Example C50_sign_ex : sign (V 1 0 0) (V 0 1 0) (V 0 0 1) = true /\ sign (V 0 0 1) (V 0 1 0) (V 1 0 0) = false /\
  sign (V 1 0 0) (V 0 0 1) (V 0 1 0) = false.
Proof. vm_compute. auto. Qed.
(* more: the two determinants are opposite numbers (or both NaN) *)
Theorem C50_sign_reversed a b c : sign c b a = flt (dot (cross c a) b) f0.
Proof. unfold sign, fgt. apply opposite_pos, dot_cross_swap. Qed.
Print Assumptions C50_sign_reversed.

(** ** C67: exchange and rotation laws *)

(* exchanging the first two points flips triage_sign, for all f64 *)
Theorem C67_triage_exchange a b c : triage_sign b a c = flip (triage_sign a b c).
Proof. apply judge_opp; [apply dot_cross_swap|apply MAX_DET_pos]. Qed.
Print Assumptions C67_triage_exchange.
Example C67_triage_exchange_ex : triage_sign (V 1 0 0) (V 0 1 0) (V 0 0 1) = CounterClockwise /\
  triage_sign (V 0 1 0) (V 1 0 0) (V 0 0 1) = Clockwise.
Proof. vm_compute. auto. Qed.

(* robust_sign(b,c,a) = robust_sign(a,b,c) and robust_sign(c,b,a) = -robust_sign(a,b,c) are documented
   for all points; both fail for three nearly coplanar points 120 degrees apart *)
Definition ra : vec := Vec (lit (-4767976555419343) (-53)) (lit 6102402215487491 (-53)) (lit 4599644027747315 (-53)).
Definition rb : vec := Vec (lit (-8000314973399946) (-54)) (lit (-5160515186741650) (-53)) (lit (-6204632261755216) (-53)).
Definition rc : vec := Vec (lit 8806904405312220 (-53)) (lit (-7134961887821080) (-56)) (lit 6660499311584511 (-55)).
Theorem C67_robust_sign_laws_refuted :
  is_unit ra = true /\ is_unit rb = true /\ is_unit rc = true /\
  robust_sign ra rb rc = Indeterminate /\ robust_sign rb rc ra = Clockwise /\ robust_sign rc rb ra = CounterClockwise.
Proof. vm_compute. repeat split. Qed.
Print Assumptions C67_robust_sign_laws_refuted.

(** ** C51 *)

(* three distinct unit points on a great circle are not resolved: exact_sign is a stub *)
Theorem C51_resolves_distinct_refuted :
  exists a b c, is_unit a = true /\ is_unit b = true /\ is_unit c = true /\
    veq a b = false /\ veq b c = false /\ veq c a = false /\ robust_sign a b c = Indeterminate.
Proof. exists (V 1 0 0), (V 0 1 0), (V (-1) 0 0). vm_compute. repeat split. Qed.
Print Assumptions C51_resolves_distinct_refuted.

(* the converse, for the first two points and all f64.
   Missing: b == c and c == a, which need unit length (see C65), and the refuted direction. *)
Theorem C51_equal_points_partial a b c : veq a b = true -> robust_sign a b c = Indeterminate.
Proof. intros H. unfold robust_sign, expensive_sign. rewrite (cross_self a b c H), H. reflexivity. Qed.
Print Assumptions C51_equal_points_partial.
Example C51_equal_points_ex : veq (V 1 0 0) (Vec f1 (fneg f0) f0) = true.
Proof. reflexivity. Qed.

(** ** C66: ordered_ccw.  Its documented laws (1), (2), (3), (5) fail on a great circle, because
    all signs are Indeterminate there; (4) fails for nearly coplanar points. *)
Definition ob : vec := Vec (lit 7915742429447172 (-53)) (lit (-8450165637999207) (-55)) (lit (-7485406868943078) (-54)).
Definition oo : vec := Vec (lit (-7463641873287581) (-53)) (lit (-8960568204982313) (-54)) (lit (-4626334515739203) (-54)).
Definition oc : vec := Vec (lit (-6076182043711025) (-57)) (lit 6636249362786466 (-53)) (lit 6078290393318343 (-53)).
Theorem C66_ordered_ccw_laws_refuted :
  (exists a b c o, is_unit a = true /\ is_unit b = true /\ is_unit c = true /\ is_unit o = true /\
     veq a b = false /\ ordered_ccw a b c o = true /\ ordered_ccw b a c o = true) /\
  (exists a b c o, is_unit a = true /\ is_unit b = true /\ is_unit c = true /\ is_unit o = true /\
     veq b c = false /\ ordered_ccw a b c o = true /\ ordered_ccw a c b o = true) /\
  (exists a b c o, is_unit a = true /\ is_unit b = true /\ is_unit c = true /\ is_unit o = true /\
     veq a b = false /\ ordered_ccw a b c o = true /\ ordered_ccw c b a o = true) /\
  (exists a c o, is_unit a = true /\ is_unit c = true /\ is_unit o = true /\
     ordered_ccw a a c o = false) /\
  (exists a b o, is_unit a = true /\ is_unit b = true /\ is_unit o = true /\
     veq a b = false /\ ordered_ccw a b a o = true).
Proof.
  split; [|split; [|split; [|split]]].
  - exists (V 1 0 0), (V 0 1 0), (V (-1) 0 0), (V 0 (-1) 0). vm_compute. repeat split.
  - exists (V 1 0 0), (V 0 1 0), (V (-1) 0 0), (V 0 (-1) 0). vm_compute. repeat split.
  - exists (V 1 0 0), (V 0 1 0), (V (-1) 0 0), (V 0 (-1) 0). vm_compute. repeat split.
  - exists ob, oc, oo. vm_compute. repeat split.
  - exists (V 1 0 0), (V 0 1 0), (V (-1) 0 0). vm_compute. repeat split.
Qed.
Print Assumptions C66_ordered_ccw_laws_refuted.

(** ** C64: simple_crossing *)

(* law (1): exchanging the ends of AB, for all f64 *)
Theorem C64_crossing_reverse a b c d : simple_crossing b a c d = simple_crossing a b c d.
Proof.
  unfold simple_crossing, fgt. pose proof (dot_cross_swap b a c) as C1. pose proof (dot_cross_swap b a d) as C2.
  assert (N : opposite (fneg (dot (cross b a) c)) (fneg (dot (cross a b) c))) by (apply same_neg, C1).
  rewrite (fle_same _ (fmul (fneg (dot (cross a b) c)) (dot (cross a b) d)) f0 f0); [|apply fmul_opp_opp; auto|apply same_refl].
  destruct (fle _ _); [reflexivity|]. rewrite andb_comm. f_equal.
  - apply flt_same; [apply same_refl|]. apply fmul_opp_opp; auto. apply opposite_sym, opposite_neg.
  - apply flt_same; [apply same_refl|]. apply fmul_opp_opp; auto. apply opposite_neg.
Qed.
Print Assumptions C64_crossing_reverse.

(* law (2): exchanging AB and CD, and also reversing CD, when none of the four determinants is
   infinite, NaN or closer to zero than 2^-500 without being zero.
   Missing: the other determinants, for which law (2) is false. *)
Definition plain_edges (a b c d : vec) : Prop :=
  plain (dot (cross a b) c) /\ plain (dot (cross a b) d) /\ plain (dot (cross c d) a) /\ plain (dot (cross c d) b).
Theorem C64_crossing_exchange_partial a b c d : plain_edges a b c d ->
  simple_crossing c d a b = simple_crossing a b c d /\ simple_crossing a b d c = simple_crossing a b c d.
Proof.
  intros (P1 & P2 & P3 & P4). split.
  - apply eq_true_iff_eq. rewrite !simple_crossing_iff by assumption. lra.
  - pose proof (dot_cross_swap c d a) as O1. pose proof (dot_cross_swap c d b) as O2.
    pose proof (plain_opp _ _ O1 P3) as Q1. pose proof (plain_opp _ _ O2 P4) as Q2.
    assert (E1 : B2R (dot (cross d c) a) = (- B2R (dot (cross c d) a))%R).
    { apply opposite_sym in O1. destruct O1 as [->|[A B]]; [apply fneg_val; apply P3|].
      destruct (dot (cross d c) a); try discriminate. rewrite is_zero_neg in B. destruct (dot (cross c d) a); try discriminate.
      cbn [B2R]. lra. }
    assert (E2 : B2R (dot (cross d c) b) = (- B2R (dot (cross c d) b))%R).
    { apply opposite_sym in O2. destruct O2 as [->|[A B]]; [apply fneg_val; apply P4|].
      destruct (dot (cross d c) b); try discriminate. rewrite is_zero_neg in B. destruct (dot (cross c d) b); try discriminate.
      cbn [B2R]. lra. }
    apply eq_true_iff_eq. rewrite !simple_crossing_iff by assumption. rewrite E1, E2. lra.
Qed.
Print Assumptions C64_crossing_exchange_partial.

(* two crossing edges *)
Example C64_crossing_ex :
  let a := V 1 (-1) 1 in let b := V 1 1 1 in let c := V 1 0 0 in let d := V 1 0 2 in
  simple_crossing a b c d = true /\ simple_crossing c d a b = true /\ simple_crossing a c b d = false.
Proof. vm_compute. auto. Qed.
Lemma plain_int x n : feq x (of_int n) = true -> (Z.abs n <= 2 ^ 53)%Z -> n <> 0%Z -> plain x.
Proof.
  intros H B N. destruct (of_int_val n B) as [F E]. apply feq_same in H.
  assert (FX : finite x /\ B2R x = IZR n).
  { destruct H as [->|[A C]]; auto. exfalso. destruct (of_int n); try discriminate. cbn [B2R] in E. apply eq_IZR in E. congruence. }
  destruct FX as [F' E']. split; auto. right. rewrite E', <- abs_IZR.
  apply Rle_trans with 1%R; [change 1%R with (bpow radix2 0); apply bpow_le; lia|]. apply IZR_le. lia.
Qed.
Example C64_crossing_plain_ex : plain_edges (V 1 (-1) 1) (V 1 1 1) (V 1 0 0) (V 1 0 2).
Proof.
  split; [|split; [|split]].
  - apply (plain_int _ (-2)); [vm_compute; reflexivity|lia|discriminate].
  - apply (plain_int _ 2); [vm_compute; reflexivity|lia|discriminate].
  - apply (plain_int _ 2); [vm_compute; reflexivity|lia|discriminate].
  - apply (plain_int _ (-2)); [vm_compute; reflexivity|lia|discriminate].
Qed.

(* law (2) fails by underflow for edges within 2^-535 of a common great circle *)
Theorem C64_crossing_exchange_refuted :
  exists a b c d, is_unit a = true /\ is_unit b = true /\ is_unit c = true /\ is_unit d = true /\
    simple_crossing a b c d = true /\ simple_crossing c d a b = false.
Proof.
  exists (V 1 0 0), (V 0 1 0),
    (Vec (lit 6413009609819073 (-53)) (lit 6324788230365892 (-53)) (lit 6663629284765073 (-587))),
    (Vec (lit 8673984317587095 (-53)) (lit 4854537865898182 (-54)) (lit (-6418664410424042) (-592))).
  vm_compute. repeat split.
Qed.
Print Assumptions C64_crossing_exchange_refuted.
