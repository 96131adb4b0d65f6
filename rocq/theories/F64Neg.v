(** Negation commutes with the f64 operators, up to the sign of zeros. *)
From Coq Require Import Reals Lra Lia Bool.
From Flocq Require Import Core.
From Verif Require Import F64 F64Facts IntervalSpec F64Arith F64Error.
Open Scope R_scope.

Definition is_zero (x : f64) : bool := match x with B754_zero _ => true | _ => false end.
(* the same number, or both NaN *)
Definition same (x y : f64) : Prop := x = y \/ (is_zero x = true /\ is_zero y = true).
(* opposite numbers, or both NaN *)
Definition opposite (x y : f64) : Prop := same x (fneg y).

Lemma same_refl x : same x x. Proof. left; reflexivity. Qed.
Lemma same_sym x y : same x y -> same y x. Proof. unfold same. intuition. Qed.
Lemma same_trans x y z : same x y -> same y z -> same x z.
Proof. unfold same. intros [->|[A B]] [->|[C D]]; auto. Qed.
Lemma is_zero_neg x : is_zero (fneg x) = is_zero x. Proof. destruct x; reflexivity. Qed.
Lemma fneg_invol x : fneg (fneg x) = x. Proof. apply Bopp_involutive. Qed.
Lemma same_neg x y : same x y -> same (fneg x) (fneg y).
Proof. unfold same. rewrite !is_zero_neg. intros [->|H]; auto. Qed.
Lemma opposite_neg x : opposite (fneg x) x. Proof. apply same_refl. Qed.
Lemma opposite_sym x y : opposite x y -> opposite y x.
Proof. unfold opposite. intros H. apply same_neg in H. rewrite fneg_invol in H. apply same_sym, H. Qed.

Lemma zero_dec x : finite x -> B2R x = 0 -> is_zero x = true.
Proof.
  destruct x as [s|s| |s m e B]; try discriminate; try reflexivity. intros _ H. exfalso.
  cbn [B2R] in H. apply eq_0_F2R in H. destruct s; discriminate.
Qed.

Lemma same_val x y : finite x -> finite y -> B2R x = B2R y -> same x y.
Proof.
  intros Fx Fy E. destruct (Req_dec (B2R x) 0) as [Z|N].
  - right. split; apply zero_dec; auto. congruence.
  - left. apply B2R_inj; auto; destruct x, y; try discriminate; try reflexivity; cbn [B2R] in *; lra.
Qed.

Lemma result_same z z' r : result z r -> result z' r -> same z z'.
Proof.
  intros [(F & V & L)|(s & E & L & S)] [(F' & V' & L')|(s' & E' & L' & S')]; try lra.
  - apply same_val; auto. congruence.
  - left. subst. destruct s, s'; auto; exfalso;
      assert (r = 0) by lra; subst r; rewrite rnd_0, Rabs_R0 in L; pose proof (bpow_gt_0 radix2 1024); lra.
Qed.
Lemma result_neg z r : result z r -> result (fneg z) (- r).
Proof.
  intros [(F & V & L)|(s & E & L & S)].
  - left. destruct (fneg_val z F) as [F' V']. split; auto. rewrite rnd_opp, Rabs_Ropp, V', V. auto.
  - right. exists (negb s). subst. split; [reflexivity|]. rewrite rnd_opp, Rabs_Ropp. split; auto. destruct s; cbn [negb]; lra.
Qed.
Lemma result_opposite z z' r : result z r -> result z' (- r) -> opposite z z'.
Proof.
  intros H H'. apply result_neg in H'. rewrite Ropp_involutive in H'. apply (result_same _ _ _ H H').
Qed.

Lemma fmul_comm x y : same (fmul x y) (fmul y x).
Proof.
  destruct (is_finite x) eqn:Fx, (is_finite y) eqn:Fy.
  - apply (result_same _ _ (B2R x * B2R y)); [apply fmul_result; auto|]. rewrite Rmult_comm. apply fmul_result; auto.
  - destruct x as [[]|[]| |[]], y as [[]|[]| |[]]; try discriminate; left; reflexivity.
  - destruct x as [[]|[]| |[]], y as [[]|[]| |[]]; try discriminate; left; reflexivity.
  - destruct x as [[]|[]| |[]], y as [[]|[]| |[]]; try discriminate; left; reflexivity.
Qed.
Lemma fadd_comm x y : same (fadd x y) (fadd y x).
Proof.
  destruct (is_finite x) eqn:Fx, (is_finite y) eqn:Fy.
  - apply (result_same _ _ (B2R x + B2R y)); [apply fadd_result; auto|]. rewrite Rplus_comm. apply fadd_result; auto.
  - destruct x as [[]|[]| |[]], y as [[]|[]| |[]]; try discriminate; left; reflexivity.
  - destruct x as [[]|[]| |[]], y as [[]|[]| |[]]; try discriminate; left; reflexivity.
  - destruct x as [[]|[]| |[]], y as [[]|[]| |[]]; try discriminate; left; reflexivity.
Qed.

(* zeros are interchangeable *)
Lemma fmul_same x x' y y' : same x x' -> same y y' -> same (fmul x y) (fmul x' y').
Proof.
  intros [->|[A B]] [->|[C D]]; try apply same_refl.
  - destruct y as [s|s| |s m e H], y' as [s'|s'| |s' m' e' H']; try discriminate.
    destruct x' as [[]|[]| |[]]; ((left; reflexivity) || (right; split; reflexivity)).
  - destruct x as [s|s| |s m e H], x' as [s'|s'| |s' m' e' H']; try discriminate.
    destruct y' as [[]|[]| |[]]; ((left; reflexivity) || (right; split; reflexivity)).
  - destruct x, x', y, y'; try discriminate. right; split; reflexivity.
Qed.
Lemma fadd_same x x' y y' : same x x' -> same y y' -> same (fadd x y) (fadd x' y').
Proof.
  intros [->|[A B]] [->|[C D]]; try apply same_refl.
  - destruct y as [s|s| |s m e H], y' as [s'|s'| |s' m' e' H']; try discriminate.
    destruct x' as [[]|[]| |[]], s, s'; ((left; reflexivity) || (right; split; reflexivity)).
  - destruct x as [s|s| |s m e H], x' as [s'|s'| |s' m' e' H']; try discriminate.
    destruct y' as [[]|[]| |[]], s, s'; ((left; reflexivity) || (right; split; reflexivity)).
  - destruct x as [[]|[]| |[]], x' as [[]|[]| |[]], y as [[]|[]| |[]], y' as [[]|[]| |[]]; try discriminate; ((left; reflexivity) || (right; split; reflexivity)).
Qed.
Lemma fsub_same x x' y y' : same x x' -> same y y' -> same (fsub x y) (fsub x' y').
Proof.
  intros [->|[A B]] [->|[C D]]; try apply same_refl.
  - destruct y as [s|s| |s m e H], y' as [s'|s'| |s' m' e' H']; try discriminate.
    destruct x' as [[]|[]| |[]], s, s'; ((left; reflexivity) || (right; split; reflexivity)).
  - destruct x as [s|s| |s m e H], x' as [s'|s'| |s' m' e' H']; try discriminate.
    destruct y' as [[]|[]| |[]], s, s'; ((left; reflexivity) || (right; split; reflexivity)).
  - destruct x as [[]|[]| |[]], x' as [[]|[]| |[]], y as [[]|[]| |[]], y' as [[]|[]| |[]]; try discriminate; ((left; reflexivity) || (right; split; reflexivity)).
Qed.

(* x - y = -(y - x) *)
Lemma fsub_swap x y : opposite (fsub x y) (fsub y x).
Proof.
  destruct (is_finite x) eqn:Fx, (is_finite y) eqn:Fy.
  - apply (result_opposite _ _ (B2R x - B2R y)); [apply fsub_result; auto|]. rewrite Ropp_minus_distr. apply fsub_result; auto.
  - destruct x as [[]|[]| |[]], y as [[]|[]| |[]]; try discriminate; left; reflexivity.
  - destruct x as [[]|[]| |[]], y as [[]|[]| |[]]; try discriminate; left; reflexivity.
  - destruct x as [[]|[]| |[]], y as [[]|[]| |[]]; try discriminate; left; reflexivity.
Qed.
(* (-x) * y = -(x * y) *)
Lemma fmul_neg_l x y : fmul (fneg x) y = fneg (fmul x y) \/ same (fmul (fneg x) y) (fneg (fmul x y)).
Proof.
  right. destruct (is_finite x) eqn:Fx, (is_finite y) eqn:Fy.
  - destruct (fneg_val x Fx) as [F V]. apply (result_same _ _ (- (B2R x * B2R y))).
    + rewrite Ropp_mult_distr_l, <- V. apply fmul_result; auto.
    + apply result_neg, fmul_result; auto.
  - destruct x as [[]|[]| |[]], y as [[]|[]| |[]]; try discriminate; left; reflexivity.
  - destruct x as [[]|[]| |[]], y as [[]|[]| |[]]; try discriminate; left; reflexivity.
  - destruct x as [[]|[]| |[]], y as [[]|[]| |[]]; try discriminate; left; reflexivity.
Qed.
(* (-x) + (-y) = -(x + y) *)
Lemma fadd_neg x y : same (fadd (fneg x) (fneg y)) (fneg (fadd x y)).
Proof.
  destruct (is_finite x) eqn:Fx, (is_finite y) eqn:Fy.
  - destruct (fneg_val x Fx) as [F V], (fneg_val y Fy) as [F' V']. apply (result_same _ _ (- (B2R x + B2R y))).
    + rewrite Ropp_plus_distr, <- V, <- V'. apply fadd_result; auto.
    + apply result_neg, fadd_result; auto.
  - destruct x as [[]|[]| |[]], y as [[]|[]| |[]]; try discriminate; left; reflexivity.
  - destruct x as [[]|[]| |[]], y as [[]|[]| |[]]; try discriminate; left; reflexivity.
  - destruct x as [[]|[]| |[]], y as [[]|[]| |[]]; try discriminate; left; reflexivity.
Qed.

Lemma fmul_opp x x' y y' : opposite x x' -> same y y' -> opposite (fmul x y) (fmul x' y').
Proof.
  intros H K. apply same_trans with (fmul (fneg x') y'); [apply fmul_same; auto|].
  destruct (fmul_neg_l x' y') as [E|E]; [left; exact E|exact E].
Qed.
Lemma fmul_opp_opp x x' y y' : opposite x x' -> opposite y y' -> same (fmul x y) (fmul x' y').
Proof.
  intros H K. apply same_trans with (fmul (fneg x') (fneg y')); [apply fmul_same; auto|].
  assert (A : same (fmul (fneg x') (fneg y')) (fneg (fmul x' (fneg y')))) by (apply fmul_opp; [apply opposite_neg|apply same_refl]).
  assert (B : same (fmul x' (fneg y')) (fneg (fmul x' y'))).
  { eapply same_trans; [apply fmul_comm|]. eapply same_trans; [apply fmul_opp; [apply opposite_neg|apply same_refl]|].
    apply same_neg, fmul_comm. }
  apply same_neg in B. rewrite fneg_invol in B. eapply same_trans; eauto.
Qed.
Lemma fadd_opp x x' y y' : opposite x x' -> opposite y y' -> opposite (fadd x y) (fadd x' y').
Proof.
  intros H K. apply same_trans with (fadd (fneg x') (fneg y')); [apply fadd_same; auto|]. apply fadd_neg.
Qed.

(* comparisons do not see the sign of zeros *)
Lemma flt_same x x' y y' : same x x' -> same y y' -> flt x y = flt x' y'.
Proof.
  intros [->|[A B]] [->|[C D]]; auto.
  - destruct y, y', x' as [[]|[]| |[]]; try discriminate; reflexivity.
  - destruct x, x', y' as [[]|[]| |[]]; try discriminate; reflexivity.
  - destruct x, x', y, y'; try discriminate; reflexivity.
Qed.
Lemma fle_same x x' y y' : same x x' -> same y y' -> fle x y = fle x' y'.
Proof.
  intros [->|[A B]] [->|[C D]]; auto.
  - destruct y, y', x' as [[]|[]| |[]]; try discriminate; reflexivity.
  - destruct x, x', y' as [[]|[]| |[]]; try discriminate; reflexivity.
  - destruct x, x', y, y'; try discriminate; reflexivity.
Qed.
Lemma flt_neg x y : flt (fneg x) (fneg y) = flt y x.
Proof.
  destruct (is_nan x) eqn:N.
  - rewrite !flt_nan; auto. left. destruct x; try discriminate; reflexivity.
  - destruct (is_nan y) eqn:N'.
    + rewrite !flt_nan; auto. right. destruct y; try discriminate; reflexivity.
    + destruct (fneg_num x N) as [A B], (fneg_num y N') as [C D]. rewrite !flt_rank by auto. rewrite B, D.
      destruct (Z.ltb_spec (- rank x) (- rank y)), (Z.ltb_spec (rank y) (rank x)); auto; lia.
Qed.
Lemma fsqrt_same x y : same x y -> same (fsqrt x) (fsqrt y).
Proof. intros [->|[A B]]; [apply same_refl|]. destruct x, y; try discriminate. right; split; reflexivity. Qed.
