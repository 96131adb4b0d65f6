(** Symmetries of the predicates that hold for all f64, NaN and infinities included. *)
From Coq Require Import Reals Lra Lia Bool.
From Flocq Require Import Core.
From Verif Require Import F64 F64Facts IntervalSpec F64Arith F64Error F64Neg VectorModel PredicatesModel.

Definition vsame (u v : vec) : Prop := same (vx u) (vx v) /\ same (vy u) (vy v) /\ same (vz u) (vz v).
Definition vopp (u v : vec) : Prop := opposite (vx u) (vx v) /\ opposite (vy u) (vy v) /\ opposite (vz u) (vz v).

Lemma cross_swap a b : vopp (cross a b) (cross b a).
Proof.
  repeat split; cbn [vx vy vz cross]; (eapply same_trans; [apply fsub_swap|]);
    apply same_neg, fsub_same; apply fmul_comm.
Qed.
Lemma dot_opp u v w : vopp u v -> opposite (dot u w) (dot v w).
Proof. intros (A & B & C). unfold dot. repeat apply fadd_opp; apply fmul_opp; auto; apply same_refl. Qed.
Lemma dot_cross_swap a b c : opposite (dot (cross a b) c) (dot (cross b a) c).
Proof. apply dot_opp, cross_swap. Qed.

Lemma opposite_pos x y : opposite x y -> flt f0 x = flt y f0.
Proof.
  intros H. rewrite (flt_same f0 (fneg f0) x (fneg y)); [apply flt_neg| |exact H]. right; split; reflexivity.
Qed.
Lemma flt_asym x y : flt x y = true -> flt y x = false.
Proof.
  intros H. destruct (is_nan x) eqn:N; [rewrite flt_nan in H by auto; discriminate|].
  destruct (is_nan y) eqn:N'; [rewrite flt_nan in H by auto; discriminate|].
  rewrite flt_rank in * by auto. apply Z.ltb_lt in H. apply Z.ltb_ge. lia.
Qed.

Definition flip (d : direction) : direction :=
  match d with Clockwise => CounterClockwise | Indeterminate => Indeterminate | CounterClockwise => Clockwise end.

Lemma judge_opp d d' e : opposite d d' -> flt e (fneg e) = false -> judge d' e = flip (judge d e).
Proof.
  intros H P. unfold judge, fgt.
  assert (A : flt d (fneg e) = flt e d').
  { rewrite (flt_same d (fneg d') (fneg e) (fneg e)); [apply flt_neg|exact H|apply same_refl]. }
  assert (B : flt d' (fneg e) = flt e d).
  { rewrite (flt_same d' (fneg d) (fneg e) (fneg e)); [apply flt_neg|apply opposite_sym, H|apply same_refl]. }
  rewrite A, B. destruct (flt e d') eqn:C, (flt e d) eqn:D; try reflexivity.
  exfalso. assert (flt e (fneg e) = true); [|congruence].
  destruct (is_nan e) eqn:Ne; [rewrite flt_nan in C by auto; discriminate|].
  destruct (is_nan d) eqn:Nd; [rewrite flt_nan in D by auto; discriminate|].
  destruct (is_nan d') eqn:Nd'; [rewrite flt_nan in C by auto; discriminate|].
  destruct (fneg_num e Ne) as [Q1 Q2].
  rewrite flt_rank in * by auto. apply Z.ltb_lt in A, B. rewrite Q2 in *. apply Z.ltb_lt in C, D. apply Z.ltb_lt. lia.
Qed.

Lemma MAX_DET_pos : flt MAX_DETERMINANT_ERROR (fneg MAX_DETERMINANT_ERROR) = false.
Proof. vm_compute. reflexivity. Qed.

(* a vector has no area with itself *)
Lemma fsub_diag_zero x y : is_finite x = true -> same x y -> is_zero (fsub x y) = true.
Proof.
  intros F S. assert (F' : is_finite y = true) by (destruct S as [<-|[A B]]; auto; destruct y; auto; discriminate).
  destruct (fsub_result x y F F') as [(Fz & Vz & _)|(s & _ & L & _)].
  - apply zero_dec; auto. rewrite Vz. assert (B2R x = B2R y) as -> by (destruct S as [->|[A B]]; auto; destruct x, y; auto; discriminate).
    rewrite Rminus_eq_0. apply rnd_0.
  - exfalso. assert (B2R x = B2R y) as E by (destruct S as [->|[A B]]; auto; destruct x, y; auto; discriminate).
    rewrite E, Rminus_eq_0, rnd_0, Rabs_R0 in L. pose proof (bpow_gt_0 radix2 1024). lra.
Qed.
Lemma fsub_diag x y : same x y -> is_zero (fsub x y) = true \/ is_nan (fsub x y) = true.
Proof.
  intros S. destruct (is_finite x) eqn:F; [left; apply fsub_diag_zero; auto|].
  right. destruct S as [<-|[A B]]; [destruct x as [[]|[]| |[]]; try discriminate; reflexivity|destruct x; discriminate].
Qed.
Definition nil (x : f64) : Prop := is_zero x = true \/ is_nan x = true.
Lemma nil_mul x y : nil x -> nil (fmul x y).
Proof. unfold nil. intros [H|H]; destruct x; try discriminate; destruct y as [[]|[]| |[]]; auto. Qed.
Lemma nil_add x y : nil x -> nil y -> nil (fadd x y).
Proof. unfold nil. intros [H|H] [K|K]; destruct x as [[]|[]| |[]]; try discriminate; destruct y as [[]|[]| |[]]; try discriminate; auto. Qed.
Lemma nil_judge x e : nil x -> flt f0 e = true -> judge x e = Indeterminate.
Proof.
  intros [H|H] P; unfold judge, fgt.
  - destruct x; try discriminate. destruct e as [[]|[]| |[]]; try discriminate; reflexivity.
  - destruct x; try discriminate. destruct e as [[]|[]| |[]]; try discriminate; reflexivity.
Qed.
Lemma feq_same x y : feq x y = true -> same x y.
Proof.
  intros H. destruct (is_finite x) eqn:F, (is_finite y) eqn:F'.
  - apply same_val; auto. unfold feq in H. rewrite Beqb_correct in H by auto. destruct (Req_bool_spec (B2R x) (B2R y)); auto; discriminate.
  - destruct x as [[]|[]| |[]], y as [[]|[]| |[]]; try discriminate; left; reflexivity.
  - destruct x as [[]|[]| |[]], y as [[]|[]| |[]]; try discriminate; left; reflexivity.
  - destruct x as [[]|[]| |[]], y as [[]|[]| |[]]; try discriminate; left; reflexivity.
Qed.
Lemma veq_same a b : veq a b = true -> vsame a b.
Proof. unfold veq. rewrite !andb_true_iff. intros [[A B] C]. repeat split; apply feq_same; auto. Qed.

Lemma cross_self a b c : veq a b = true -> triage_sign a b c = Indeterminate.
Proof.
  intros H. apply veq_same in H. destruct H as (X & Y & Z). unfold triage_sign. apply nil_judge; [|vm_compute; reflexivity].
  unfold dot, cross. cbn [vx vy vz].
  assert (K : forall p q p' q', same p p' -> same q q' -> nil (fsub (fmul p q') (fmul q p'))).
  { intros p q p' q' Hp Hq. apply fsub_diag. eapply same_trans; [apply fmul_comm|]. apply fmul_same; [apply same_sym|]; auto. }
  repeat apply nil_add; apply nil_mul; apply K; auto.
Qed.
