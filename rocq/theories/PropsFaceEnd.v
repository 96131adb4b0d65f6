(** C148: dividing an edge at the faces of the cube ends after at most five turns. *)
From Coq Require Import ZArith Reals Lra Lia Psatz Bool List.
From Flocq Require Import Core.
From Verif Require Import Base F64 F64Facts F64Arith F64Error F64Neg IntervalSpec R1Model R1Proofs S1Proofs VectorModel StuvModel StuvError PredicatesFloat PointModel ClipModel ClipProofs PropsClip FaceSegModel PropsFaceSeg FaceTurn.
Import ListNotations BinNums.
Open Scope R_scope.

Definition marks_of (x y z : R) : marks :=
  Marks (Rcompare x 0) (Rcompare y 0) (Rcompare z 0) (Rcompare (Rabs x) (Rabs y + Rabs z)) (Rcompare (Rabs y) (Rabs x + Rabs z)) (Rcompare (Rabs z) (Rabs x + Rabs y)).
Definition vmarks (n : vec) : marks := marks_of (B2R (vx n)) (B2R (vy n)) (B2R (vz n)).

Lemma cmp_opp x : Rcompare (- x) 0 = CompOpp (Rcompare x 0).
Proof. destruct (Rcompare_spec x 0); cbn; [apply Rcompare_Gt|apply Rcompare_Eq|apply Rcompare_Lt]; lra. Qed.
Lemma is_eq_cmp x : is_eq (Rcompare x 0) = is_eq (Rcompare (Rabs x) 0).
Proof. unfold Rabs. destruct Rcase_abs; [rewrite cmp_opp; destruct (Rcompare x 0); reflexivity|reflexivity]. Qed.
Lemma fits1_abs s s' s'' c c' c'' : fits1 s c c' c'' s' s'' = fits1 (if is_eq s then Eq else Gt) c c' c'' (if is_eq s' then Eq else Gt) (if is_eq s'' then Eq else Gt).
Proof. destruct s, s', s''; reflexivity. Qed.
Lemma fits1_R p q r : 0 <= p -> 0 <= q -> 0 <= r -> ~ (p = 0 /\ q = 0 /\ r = 0) ->
  fits1 (if is_eq (Rcompare p 0) then Eq else Gt) (Rcompare p (q + r)) (Rcompare q (p + r)) (Rcompare r (p + q)) (if is_eq (Rcompare q 0) then Eq else Gt) (if is_eq (Rcompare r 0) then Eq else Gt) = true.
Proof.
  intros P Q R N. destruct (Rcompare_spec p (q + r)); destruct (Rcompare_spec q (p + r)); destruct (Rcompare_spec r (p + q)); try (exfalso; lra); destruct (Rcompare_spec p 0); try (exfalso; lra); destruct (Rcompare_spec q 0); try (exfalso; lra); destruct (Rcompare_spec r 0); try (exfalso; lra); reflexivity.
Qed.
Lemma marks_consistent x y z : ~ (x = 0 /\ y = 0 /\ z = 0) -> consistent (marks_of x y z) = true.
Proof.
  intros N. assert (Z0 : forall t, Rabs t = 0 -> t = 0) by (intros t T; destruct (Req_dec t 0) as [|H]; [assumption|]; pose proof (Rabs_pos_lt t H); lra).
  pose proof (Rabs_pos x) as X. pose proof (Rabs_pos y) as Y. pose proof (Rabs_pos z) as W. assert (M : ~ (Rabs x = 0 /\ Rabs y = 0 /\ Rabs z = 0)) by (intros (A & B & C); apply N; auto).
  unfold consistent, marks_of. cbn [sx sy sz cx cy cz]. rewrite !(fits1_abs (Rcompare _ 0) (Rcompare _ 0) (Rcompare _ 0)), (is_eq_cmp x), (is_eq_cmp y), (is_eq_cmp z). rewrite !andb_true_iff. repeat split.
  - apply fits1_R; auto.
  - rewrite (Rplus_comm (Rabs x) (Rabs y)). apply fits1_R; auto. tauto.
  - rewrite (Rplus_comm (Rabs y) (Rabs z)), (Rplus_comm (Rabs x) (Rabs z)). apply fits1_R; auto. tauto.
Qed.
Lemma frame_marks f n m : is_face f -> fvec n -> face_xyz_to_uvw f n = Some m -> vmarks m = in_marks f (vmarks n).
Proof.
  intros F (F1 & F2 & F3) E. destruct (fneg_val _ F1) as [N1 V1]. destruct (fneg_val _ F2) as [N2 V2]. destruct (fneg_val _ F3) as [N3 V3].
  unfold vmarks, marks_of. each_face F; cbn in E; injection E as <-; cbn [in_marks vx vy vz sx sy sz cx cy cz]; rewrite ?V1, ?V2, ?V3, ?Rabs_Ropp, ?cmp_opp; f_equal; f_equal; ring.
Qed.
Lemma lt_mark x y : is_lt (Rcompare x y) = true <-> x < y.
Proof. destruct (Rcompare_spec x y); cbn; split; intros; try discriminate; try lra; reflexivity. Qed.
Lemma gt_mark x y : is_gt (Rcompare x y) = true <-> y < x.
Proof. destruct (Rcompare_spec x y); cbn; split; intros; try discriminate; try lra; reflexivity. Qed.
Lemma bool_eq (a b : bool) : (a = true <-> b = true) -> a = b.
Proof. destruct a, b; intros [A B]; auto; symmetry; auto. Qed.

Lemma zero3_spec x y z : zero3 (marks_of x y z) = true <-> x + y + z = 0.
Proof.
  unfold zero3, marks_of. cbn [sx sy sz cx cy cz]. destruct (Rcompare_spec x 0); destruct (Rcompare_spec y 0); destruct (Rcompare_spec z 0); cbn [opposed];
  rewrite ?(Rabs_left x), ?(Rabs_left y), ?(Rabs_left z), ?(Rabs_pos_eq x), ?(Rabs_pos_eq y), ?(Rabs_pos_eq z) by lra;
  rewrite ?andb_true_r, ?andb_false_r, ?orb_false_r, ?orb_false_l; 
  repeat match goal with |- context [is_eq (Rcompare ?a ?b)] => destruct (Rcompare_spec a b) end; cbn; split; intros; try discriminate; try reflexivity; try lra.
Qed.
Lemma axis_spec n : fvec n -> ~ (B2R (vx n) = 0 /\ B2R (vy n) = 0 /\ B2R (vz n) = 0) -> Rabs (B2R (vz n)) <= Rabs (B2R (vx n)) + Rabs (B2R (vy n)) ->
  exit_axis n = (if axis_v (vmarks n) then AxisV else AxisU) /\ (if axis_v (vmarks n) then B2R (vx n) <> 0 else B2R (vy n) <> 0).
Proof.
  intros Fn NZ M. pose proof Fn as (F1 & F2 & F3). pose proof (opposite_exact n Fn) as OE. unfold exit_axis, axis_v, vmarks, marks_of. cbn [sx sy sz cx cy cz]. destruct (fabs_val _ F1) as [A1 V1]. destruct (fabs_val _ F2) as [A2 V2].
  pose proof (sign_val _ F1) as S1. pose proof (sign_val _ F2) as S2. pose proof (sign_val _ F3) as S3. set (a := B2R (vx n)) in *. set (b := B2R (vy n)) in *. set (c := B2R (vz n)) in *.
  assert (Z0 : forall t, t <> 0 <-> 0 < Rabs t) by (intros t; split; [apply Rabs_pos_lt|intros H ->; rewrite Rabs_R0 in H; lra]). pose proof (Rabs_pos a) as PA. pose proof (Rabs_pos b) as PB. pose proof (Rabs_pos c) as PC.
  assert (NZ' : 0 < Rabs a + Rabs b). { apply Rnot_le_lt. intros L. assert (K : forall t, Rabs t <= 0 -> t = 0) by (intros t T; destruct (Req_dec t 0) as [|H]; [assumption|]; pose proof (Rabs_pos_lt t H); lra). apply NZ. repeat split; apply K; lra. }
  destruct (intersects_opposite_edges n).
  - assert (OP : Rabs c <= Rabs (Rabs a - Rabs b)) by (apply OE; reflexivity). unfold fge. destruct (fle_R _ _ A2 A1) as [L|L]; rewrite V1, V2 in L.
    + rewrite (Rabs_pos_eq (Rabs a - Rabs b)) in OP by lra. destruct (Rcompare_spec (Rabs a) (Rabs b + Rabs c)); try (exfalso; lra); cbn; (split; [reflexivity|apply Z0; lra]).
    + rewrite (Rabs_left (Rabs a - Rabs b)) in OP by lra. destruct (Rcompare_spec (Rabs a) (Rabs b + Rabs c)); try (exfalso; lra). destruct (Rcompare_spec (Rabs b) (Rabs a + Rabs c)); try (exfalso; lra); cbn; (split; [reflexivity|apply Z0; lra]).
  - assert (NO : ~ Rabs c <= Rabs (Rabs a - Rabs b)) by (intros H; apply OE in H; discriminate). assert (L1 : Rabs a < Rabs b + Rabs c) by (revert NO; unfold Rabs at 2; destruct Rcase_abs; intros; lra). assert (L2 : Rabs b < Rabs a + Rabs c) by (revert NO; unfold Rabs at 2; destruct Rcase_abs; intros; lra).
    rewrite (Rcompare_Lt _ _ L1), (Rcompare_Lt _ _ L2). cbn [is_lt negb orb]. assert (a <> 0) by (apply Z0; lra). assert (b <> 0) by (apply Z0; lra). assert (c <> 0) by (apply Z0; lra).
    rewrite (bool_eq (Bsign (vx n)) (is_lt (Rcompare a 0))), (bool_eq (Bsign (vy n)) (is_lt (Rcompare b 0))), (bool_eq (Bsign (vz n)) (is_lt (Rcompare c 0))) by (rewrite lt_mark; auto). split; [reflexivity|]. destruct (negb _); assumption.
Qed.

Lemma across_u f b : is_face f -> uvw_face f 0 (if b : bool then 1 else 0)%Z = Some (across f 0 b).
Proof. intros F. each_face F; destruct b; reflexivity. Qed.
Lemma across_v f b : is_face f -> uvw_face f 1 (if b : bool then 1 else 0)%Z = Some (across f 1 b).
Proof. intros F. each_face F; destruct b; reflexivity. Qed.
Lemma flipx_spec (b : bool) x y z : flipx b (marks_of x y z) = marks_of (if b then x else - x) y z.
Proof. destruct b; [reflexivity|]. unfold flipx, marks_of. cbn [sx sy sz cx cy cz]. rewrite Rabs_Ropp, cmp_opp. reflexivity. Qed.
Lemma flipy_spec (b : bool) x y z : flipy b (marks_of x y z) = marks_of x (if b then y else - y) z.
Proof. destruct b; [reflexivity|]. unfold flipy, marks_of. cbn [sx sy sz cx cy cz]. rewrite Rabs_Ropp, cmp_opp. reflexivity. Qed.

Lemma corner_value w a b c s : finite w -> finite a -> finite b -> finite c -> (B2R w = 1 \/ B2R w = -1) -> B2R b <> 0 -> (s = 1 \/ s = -1) -> B2R w * B2R a + s * B2R b + B2R c = 0 ->
  B2R (fdiv (fsub (fmul (fneg w) a) c) b) = s.
Proof.
  intros Fw Fa Fb Fc W B S E. destruct (fneg_val w Fw) as [Nw Vw]. destruct (unit_mul (fneg w) a Nw Fa) as [F1 V1]; [rewrite Vw; lra|]. rewrite Vw in V1. pose proof (fsub_result _ _ F1 Fc) as R. rewrite V1 in R. destruct (fneg_val b Fb) as [Nb Vb]. destruct f1_val as [FO VO]. destruct (fneg_val f1 FO) as [FM VM].
  assert (X : finite (fsub (fmul (fneg w) a) c) /\ B2R (fsub (fmul (fneg w) a) c) = s * B2R b). { replace (s * B2R b) with (- B2R w * B2R a - B2R c) by lra. destruct S as [-> | ->]; [apply (result_exact _ _ b R)|apply (result_exact _ _ (fneg b) R)]; lra. }
  destruct X as [F2 V2]. pose proof (fdiv_result _ _ F2 Fb B) as D. rewrite V2 in D. replace (s * B2R b / B2R b) with s in D by (field; exact B). destruct S as [-> | ->]; [apply (result_exact _ _ f1 D)|apply (result_exact _ _ (fneg f1) D)]; lra.
Qed.
Lemma corner_test w a b c (ot : bool -> Z) target SE : finite w -> finite a -> finite b -> finite c -> (B2R w = 1 \/ B2R w = -1) -> B2R b <> 0 ->
  let y := fdiv (fsub (fmul (fneg w) a) c) b in finite y ->
  (B2R y = 1 \/ B2R y = -1 -> SE = true <-> B2R w * B2R a + B2R y * B2R b + B2R c = 0) ->
  feq (fabs y) f1 && (ot (fgt y f0) =? target)%Z && SE = true <-> (B2R w * B2R a + B2R b + B2R c = 0 /\ ot true = target) \/ (B2R w * B2R a - B2R b + B2R c = 0 /\ ot false = target).
Proof.
  intros Fw Fa Fb Fc W B y Fy HS. destruct (fabs_val y Fy) as [FA VA]. destruct f1_val as [FO VO]. destruct f0_val as [F0 V0]. rewrite !andb_true_iff, Z.eqb_eq.
  assert (G : forall s, B2R y = s -> (s = 1 -> fgt y f0 = true) /\ (s = -1 -> fgt y f0 = false)). { intros s E. unfold fgt. destruct (flt_R _ _ F0 Fy) as [L|L]; rewrite V0 in L; split; intros; try reflexivity; lra. }
  split.
  - intros ((T1 & T2) & T3). apply (feq_val _ _ FA FO) in T1. rewrite VA, VO in T1. apply unit_cases in T1. pose proof (proj1 (HS T1) T3) as E. destruct T1 as [Y|Y]; destruct (G _ Y) as [G1 G2]; rewrite Y in E; [left|right]; [rewrite G1 in T2 by reflexivity|rewrite G2 in T2 by reflexivity]; split; auto; lra.
  - assert (K : forall s, (s = 1 \/ s = -1) -> B2R w * B2R a + s * B2R b + B2R c = 0 -> B2R y = s) by (intros s S E; exact (corner_value w a b c s Fw Fa Fb Fc W B S E)).
    assert (U : B2R y = 1 \/ B2R y = -1 -> feq (fabs y) f1 = true). { intros Y. destruct (feq_R _ _ FA FO) as [Q|Q]; [reflexivity|]. exfalso. apply Q. rewrite VA, VO. destruct Y as [-> | ->]; [apply Rabs_R1|]. replace (-1) with (- (1)) by lra. rewrite Rabs_Ropp. apply Rabs_R1. }
    intros [[E T]|[E T]].
    + assert (Y : B2R y = 1) by (apply K; [auto|lra]). destruct (G _ Y) as [G1 _]. rewrite G1 by reflexivity. split; [split; [apply U; auto|exact T]|]. apply HS; [auto|]. rewrite Y. lra.
    + assert (Y : B2R y = -1) by (apply K; [auto|lra]). destruct (G _ Y) as [_ G2]. rewrite G2 by reflexivity. split; [split; [apply U; auto|exact T]|]. apply HS; [auto|]. rewrite Y. lra.
Qed.

Lemma turn_spec ab f n target : is_face f -> fvec ab -> ~ (B2R (vx ab) = 0 /\ B2R (vy ab) = 0 /\ B2R (vz ab) = 0) -> meets ab f -> face_xyz_to_uvw f ab = Some n ->
  next_face f (exit_point n (exit_axis n)) (exit_axis n) n target = Some (turn_of (vmarks ab) target f).
Proof.
  intros F FN NZ M E. pose proof (turn ab f n target F FN NZ M E) as T. cbv zeta in T. destruct T as (Fx & Fy & _). destruct (frame_line f ab n F FN E) as (Fn & LP & NZ'). specialize (NZ' NZ).
  assert (L : Rabs (B2R (vz n)) <= Rabs (B2R (vx n)) + Rabs (B2R (vy n))). { apply line_face. destruct M as (x & y & O & P). exists x, y. split; [exact O|]. apply LP in P. exact P. }
  destruct (axis_spec n Fn NZ' L) as [AX NB]. unfold turn_of. rewrite <- (frame_marks f ab n F FN E). destruct Fn as (N1 & N2 & N3). destruct f0_val as [F0 V0]. destruct f1_val as [FO VO]. destruct (fneg_val f1 FO) as [FM VM]. destruct (fneg_val _ N3) as [F3 V3].
  assert (SB : forall t, fgt (if t : bool then f1 else fneg f1) f0 = t) by (intros []; vm_compute; reflexivity).
  rewrite AX in *. destruct (axis_v (vmarks n)); unfold next_face.
  - change (1 - axis_value AxisV)%Z with 0%Z. change (axis_value AxisV) with 1%Z. rewrite across_u, across_v by exact F. cbn [exit_point px py] in *. rewrite SB.
    assert (UP : flt (vx n) f0 = is_lt (sx (vmarks n))). { apply bool_eq. unfold vmarks, marks_of. cbn [sx]. rewrite lt_mark. destruct (flt_R _ _ N1 F0) as [Q|Q]; rewrite V0 in Q; split; intros; try discriminate; try reflexivity; tauto. }
    rewrite UP in *. set (up := is_lt (sx (vmarks n))) in *. set (w := if up then f1 else fneg f1) in *. assert (Fw : finite w) by (unfold w; destruct up; assumption). assert (W : B2R w = 1 \/ B2R w = -1) by (unfold w; destruct up; [left|right]; lra).
    match goal with |- (if ?t then _ else _) = Some (if ?k then _ else _) => replace t with k; [destruct k; reflexivity|] end. symmetry. apply bool_eq.
    etransitivity; [apply (corner_test w (vy n) (vx n) (vz n) (across f 0) target); auto|].
    + intros Y. destruct (unit_mul _ _ Fx N1 Y) as [FA1 VA1]. destruct (unit_mul _ _ Fw N2 W) as [FA2 VA2]. rewrite (C143_sum _ _ _ FA1 FA2 F3), VA1, VA2, V3. split; intros; lra.
    + rewrite orb_true_iff, !andb_true_iff, !Z.eqb_eq. unfold vmarks. rewrite !flipy_spec, !flipx_spec, !zero3_spec. unfold w. destruct up; cbv iota; rewrite ?VM, ?VO; split; (intros [[A B]|[A B]]; [left|right]; (split; [lra|assumption])).
  - change (1 - axis_value AxisU)%Z with 1%Z. change (axis_value AxisU) with 0%Z. rewrite across_u, across_v by exact F. cbn [exit_point px py] in *. rewrite SB.
    assert (UP : fgt (vy n) f0 = is_gt (sy (vmarks n))). { apply bool_eq. unfold vmarks, marks_of. cbn [sy]. rewrite gt_mark. unfold fgt. destruct (flt_R _ _ F0 N2) as [Q|Q]; rewrite V0 in Q; split; intros; try discriminate; try reflexivity; tauto. }
    rewrite UP in *. set (up := is_gt (sy (vmarks n))) in *. set (w := if up then f1 else fneg f1) in *. assert (Fw : finite w) by (unfold w; destruct up; assumption). assert (W : B2R w = 1 \/ B2R w = -1) by (unfold w; destruct up; [left|right]; lra).
    match goal with |- (if ?t then _ else _) = Some (if ?k then _ else _) => replace t with k; [destruct k; reflexivity|] end. symmetry. apply bool_eq. 
    etransitivity; [apply (corner_test w (vx n) (vy n) (vz n) (across f 1) target); auto|].
    + intros Y. destruct (unit_mul _ _ Fw N1 W) as [FA1 VA1]. destruct (unit_mul _ _ Fy N2 Y) as [FA2 VA2]. rewrite (C143_sum _ _ _ FA1 FA2 F3), VA1, VA2, V3. split; intros; lra.
    + rewrite orb_true_iff, !andb_true_iff, !Z.eqb_eq. unfold vmarks. rewrite !flipx_spec, !flipy_spec, !zero3_spec. unfold w. destruct up; cbv iota; rewrite ?VM, ?VO; split; (intros [[A B]|[A B]]; [left|right]; (split; [lra|assumption])).
Qed.

Lemma met_spec n f : is_face f -> fvec n -> meets n f -> met (vmarks n) f = true.
Proof.
  intros F FN (x & y & O & P). destruct (frame_some f n F) as (m & E). destruct (frame_line f n m F FN E) as (_ & LP & _). apply LP in P. assert (L : Rabs (B2R (vz m)) <= Rabs (B2R (vx m)) + Rabs (B2R (vy m))) by (apply line_face; exists x, y; split; [exact O|exact P]).
  unfold met. rewrite <- (frame_marks f n m F FN E). unfold vmarks, marks_of. cbn [cz]. apply negb_true_iff. apply not_true_iff_false. rewrite gt_mark. lra.
Qed.
Lemma in_faces f : is_face f -> In f all_faces.
Proof. intros F. each_face F; cbn; auto 10. Qed.
Lemma loop_ends ab bf bs : fvec ab -> ~ (B2R (vx ab) = 0 /\ B2R (vy ab) = 0 /\ B2R (vz ab) = 0) ->
  forall j k f a, (j <= k)%nat -> is_face f -> meets ab f -> reaches j (vmarks ab) bf f = true -> exists l, face_loop k ab bf bs f a = Some l /\ (length l <= S j)%nat.
Proof.
  intros FN NZ. induction j as [|j IH]; intros k f a J F M R; cbn [reaches] in R; apply orb_prop in R.
  - destruct R as [R|R]; [|discriminate]. destruct k; cbn [face_loop]; rewrite R; eexists; (split; [reflexivity|cbn; lia]).
  - destruct (f =? bf)%Z eqn:Q; [destruct k; cbn [face_loop]; rewrite Q; eexists; (split; [reflexivity|cbn; lia])|]. destruct R as [R|R]; [discriminate|]. destruct k as [|k]; [lia|]. cbn [face_loop]. rewrite Q.
    destruct (frame_some f ab F) as (n & EN). rewrite EN. pose proof (turn ab f n bf F FN NZ M EN) as T. pose proof (turn_spec ab f n bf F FN NZ M EN) as TS. cbv zeta in T. set (e := exit_point n (exit_axis n)) in *. destruct T as (Fx & Fy & _ & g & G1 & G2 & _ & G4 & _). rewrite TS in G1. injection G1 as G1. rewrite TS. rewrite G1 in *.
    destruct (point_xyz f e F Fx Fy) as (q & Q1 & _). rewrite Q1. destruct (frame_some g q G2) as (m & EM). rewrite EM. destruct (IH k g (P2 (vx m) (vy m)) ltac:(lia) G2 G4 R) as (l & L1 & L2). rewrite L1. eexists. split; [reflexivity|cbn; lia].
Qed.

(** If the plane of the computed normal meets the faces where the path starts and ends, five turns of the loop
    are enough, and there are at most six segments. *)
Theorem C148_ends : forall fuel a b af ax ay bf bx b_y f p g q, (5 <= fuel)%nat ->
  xyz_to_face_uv a = Some (af, ax, ay) -> xyz_to_face_uv b = Some (bf, bx, b_y) ->
  let n := point_cross a b in
  move_origin_to_valid_face af a n (P2 ax ay) = Some (f, p) -> move_origin_to_valid_face bf b (vscale n (fneg f1)) (P2 bx b_y) = Some (g, q) ->
  fvec n -> ~ (B2R (vx n) = 0 /\ B2R (vy n) = 0 /\ B2R (vz n) = 0) -> meets n f -> meets n g ->
  exists l, face_segments fuel a b = Some l /\ (1 <= length l <= 6)%nat.
Proof.
  intros fuel a b af ax ay bf bx b_y f p g q FU EA EB n MA MB FN NZ M M'. unfold face_segments. rewrite EA, EB. destruct (af =? bf)%Z; [eexists; split; [reflexivity|cbn; lia]|]. cbv zeta. fold n. rewrite MA, MB.
  apply uv_face in EA, EB. apply move_range in MA; [|rewrite EA; apply face_range]. apply move_range in MB; [|rewrite EB; apply face_range]. destruct MA as [F _]. destruct MB as [G _].
  pose proof (reaches_5 (vmarks n) f g (marks_consistent _ _ _ NZ) (in_faces f F) (in_faces g G) (met_spec n f F FN M) (met_spec n g G FN M')) as R.
  destruct (loop_ends n g q FN NZ 5 fuel f p FU F M R) as (l & L1 & L2). exists l. split; [exact L1|]. destruct (loop_head _ _ _ _ _ _ _ L1) as (s & r & -> & _). cbn [length] in *. lia.
Qed.
Print Assumptions C148_ends.

(* from (1, 0, 0) to (-1, 1, 1/2): the path from face 0 to face 3; the plane meets both *)
Example C148_example : let a := Vec f1 f0 f0 in let b := Vec (of_int (-1)) f1 fhalf in let n := point_cross a b in
  face a = 0%Z /\ face b = 3%Z /\ fvec n /\ feq (vz n) f0 = false /\
  option_map fst (match xyz_to_face_uv a with Some (f, u, v) => move_origin_to_valid_face f a n (P2 u v) | None => None end) = Some 0%Z /\
  option_map fst (match xyz_to_face_uv b with Some (f, u, v) => move_origin_to_valid_face f b (vscale n (fneg f1)) (P2 u v) | None => None end) = Some 3%Z /\
  intersects_face (match face_xyz_to_uvw 0 n with Some m => m | None => a end) = true /\ intersects_face (match face_xyz_to_uvw 3 n with Some m => m | None => a end) = true.
Proof. vm_compute. repeat split. Qed.
