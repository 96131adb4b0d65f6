(** Soundness of triage_sign and stable_sign with respect to the exact determinant. *)
From Coq Require Import Reals Lra Lia Bool.
From Flocq Require Import Core.
From Verif Require Import F64 F64Facts IntervalSpec F64Arith F64Error S1Proofs VectorModel PredicatesModel F64Neg PredicatesProofs PredicatesError PredicatesFloat.
Open Scope R_scope.

Lemma h_tiny : h <= u * u.
Proof.
  replace (u * u) with (pow2 (-106)); [apply bpow_le; lia|].
  change (pow2 (-106)) with (/ 81129638414606681695789005144064). lra.
Qed.

(** ** Unit vectors *)
Lemma finite_lt x y : flt (fabs x) y = true -> finite y -> finite x.
Proof. intros H F. unfold finite in *. destruct x; auto; destruct y; discriminate. Qed.

Definition ONE := 1 + / 1000000000000.

Lemma EPS2_val : finite EPSILON2 /\ B2R EPSILON2 <= / 10000000000000.
Proof.
  destruct (lit_val 0x1C25C268497682 (-97) ltac:(lia) ltac:(lia)) as [F V]. split; [exact F|].
  unfold EPSILON2. rewrite V. change (bpow radix2 (-97)) with (/ 158456325028528675187087900672). lra.
Qed.

Lemma unit_bound v : is_unit v = true -> fvec v /\ sqn v <= ONE.
Proof.
  unfold is_unit. intros H. destruct EPS2_val as [FE VE]. pose proof (finite_lt _ _ H FE) as Fd.
  destruct (fsub_finite _ _ Fd) as [Fn _]. split; [apply norm2_val; auto|].
  destruct (fabs_val _ Fd) as [Fa Va].
  destruct (flt_R _ _ Fa FE) as [L|]; try discriminate. rewrite Va in L.
  assert (F1 : finite f1) by reflexivity. assert (V1 : B2R f1 = 1).
  { destruct (of_int_val 1 ltac:(lia)) as [_ V]. exact V. }
  pose proof (fsub_result _ _ Fn F1) as R. apply result_finite in R; auto.
  pose proof (rnd_minus_rel (norm2 v) f1) as RR. rewrite <- R, V1 in RR.
  pose proof (norm2_near v Fn) as N.
  assert (S0 : 0 <= sqn v) by (unfold sqn; pose proof (Rle_0_sqr (X v)); pose proof (Rle_0_sqr (Y v)); pose proof (Rle_0_sqr (Z v)); unfold Rsqr in *; lra).
  pose proof h_tiny as HT. pose proof h_pos as HP. unfold ONE.
  apply Rabs_le_inv in N. apply Rabs_lt_inv in L. revert RR. unfold Rabs at 2. destruct (Rcase_abs _); intros RR; apply Rabs_le_inv in RR;
   generalize dependent (B2R (fsub (norm2 v) f1)); intros; generalize dependent (B2R (norm2 v)); intros; generalize dependent (sqn v); intros; lra.
Qed.

Lemma sqn_comp v n : sqn v <= n * n -> 0 <= n -> Rabs (X v) <= n /\ Rabs (Y v) <= n /\ Rabs (Z v) <= n.
Proof.
  unfold sqn. intros H P. pose proof (Rle_0_sqr (X v)). pose proof (Rle_0_sqr (Y v)). pose proof (Rle_0_sqr (Z v)). unfold Rsqr in *.
  repeat split; apply sq_le; auto; rewrite sqr_abs; lra.
Qed.
Lemma unit_small v : is_unit v = true -> small v /\ Rabs (X v) <= 3 / 2 /\ Rabs (Y v) <= 3 / 2 /\ Rabs (Z v) <= 3 / 2.
Proof.
  intros H. destruct (unit_bound v H) as [F N]. destruct (sqn_comp v (3 / 2) ltac:(unfold ONE in N; lra) ltac:(lra)) as (A & B & C).
  split; [split; [exact F|]|auto]. change (pow2 2) with 4. lra.
Qed.

(** ** The computed determinant against the exact one *)
Definition det (a b c : vec) : R :=
  (Y a * Z b - Z a * Y b) * X c + (Z a * X b - X a * Z b) * Y c + (X a * Y b - Y a * X b) * Z c.

Lemma chain_upper a b c m1 m1' m2 m2' m3 m3' p1 p2 p3 t1 t2 t3 s d P N :
  det_chain a b c m1 m1' m2 m2' m3 m3' p1 p2 p3 t1 t2 t3 s d ->
  0 <= P -> 0 <= N <= 2 -> sqn a * sqn b <= P * P -> sqn c <= N * N -> det a b c <= 0 ->
  B2R s + B2R t3 <= (1 + / 1000000000) * (5 / 2 * u * (P * N) + u * (K23 * (P * N))) + 40 * h.
Proof.
  intros ((M1 & M1' & M2 & M2' & M3 & M3') & (Q1 & Q2 & Q3) & (T1 & T2 & T3) & S & D) HP HN Hab Hc Hd.
  eapply (det_upper (X a) (Y a) (Z a) (X b) (Y b) (Z b) (X c) (Y c) (Z c) (B2R m1) (B2R m1') (B2R m2) (B2R m2') (B2R m3) (B2R m3')
    (B2R p1) (B2R p2) (B2R p3) (B2R t1) (B2R t2) (B2R t3) (B2R s) u P N); auto; try lra.
  1-12: match goal with |- Rabs (B2R ?x - _) <= _ => match goal with E : B2R x = rnd _ |- _ => rewrite E; apply rnd_rel end end.
  rewrite S. apply rnd_plus_rel.
Qed.

Lemma feq_val x y : finite x -> finite y -> feq x y = true -> B2R x = B2R y.
Proof. intros Fx Fy. destruct (feq_R x y Fx Fy); auto. discriminate. Qed.

Lemma MAX_DET_val : finite MAX_DETERMINANT_ERROR /\ B2R MAX_DETERMINANT_ERROR >= 365479 / 100000 * u.
Proof.
  assert (E : feq MAX_DETERMINANT_ERROR (lit 0x1d3d07c84b5dcc (-104)) = true) by (vm_compute; reflexivity).
  assert (F : finite MAX_DETERMINANT_ERROR) by (vm_compute; reflexivity).
  destruct (lit_val 0x1d3d07c84b5dcc (-104) ltac:(lia) ltac:(lia)) as [F' V]. split; [exact F|].
  rewrite (feq_val _ _ F F' E), V.
  change (bpow radix2 (-104)) with (/ 20282409603651670423947251286016). lra.
Qed.

Lemma det_swap a b c : det b a c = - det a b c.
Proof. unfold det. ring. Qed.

Lemma triage_ccw a b c : is_unit a = true -> is_unit b = true -> is_unit c = true ->
  triage_sign a b c = CounterClockwise -> 0 < det a b c.
Proof.
  intros Ua Ub Uc H. apply Rnot_le_lt. intros D.
  destruct (unit_small a Ua) as [Sa _]. destruct (unit_small b Ub) as [Sb _]. destruct (unit_small c Uc) as [Sc _].
  destruct (dot_cross_val a b c Sa Sb Sc) as (F & m1 & m1' & m2 & m2' & m3 & m3' & p1 & p2 & p3 & t1 & t2 & t3 & s & CH).
  destruct (unit_bound a Ua) as [_ Na]. destruct (unit_bound b Ub) as [_ Nb]. destruct (unit_bound c Uc) as [_ Nc].
  assert (Z0 : forall v, 0 <= sqn v) by (intros v; unfold sqn; pose proof (Rle_0_sqr (X v)); pose proof (Rle_0_sqr (Y v)); pose proof (Rle_0_sqr (Z v)); unfold Rsqr in *; lra).
  pose proof (chain_upper _ _ _ _ _ _ _ _ _ _ _ _ _ _ _ _ _ ONE ONE CH ltac:(unfold ONE; lra) ltac:(unfold ONE; lra)
    ltac:(apply Rmult_le_compat; auto) ltac:(eapply Rle_trans; [exact Nc|]; unfold ONE; lra) D) as B.
  destruct MAX_DET_val as [FM VM].
  assert (L : B2R (dot (cross a b) c) <= B2R MAX_DETERMINANT_ERROR).
  { destruct CH as (_ & _ & _ & _ & ->). rewrite <- (rnd_fix MAX_DETERMINANT_ERROR). apply rnd_le. eapply Rle_trans; [exact B|].
    eapply Rle_trans; [|apply Rge_le, VM]. pose proof h_tiny. unfold K23, ONE. generalize dependent h. intros. lra. }
  unfold triage_sign, judge, fgt in H. destruct (flt_R MAX_DETERMINANT_ERROR (dot (cross a b) c) FM F); [lra|].
  destruct (flt (dot (cross a b) c) _); discriminate H.
Qed.

Lemma triage_cw a b c : is_unit a = true -> is_unit b = true -> is_unit c = true ->
  triage_sign a b c = Clockwise -> det a b c < 0.
Proof.
  intros Ua Ub Uc H. pose proof (triage_ccw b a c Ub Ua Uc) as T. rewrite det_swap in T.
  enough (triage_sign b a c = CounterClockwise) by (specialize (T H0); lra).
  unfold triage_sign in *. rewrite (judge_opp _ _ _ (dot_cross_swap a b c) MAX_DET_pos), H. reflexivity.
Qed.
