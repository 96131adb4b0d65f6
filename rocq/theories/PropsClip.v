(** C143: lines against the faces of the cube, decided exactly.  C144: interpolation.
    C145: clipping plane edges to rectangles. *)
From Coq Require Import ZArith Reals Lra Lia Psatz Bool List Classical.
From Flocq Require Import Core.
From Verif Require Import Base F64 F64Facts F64Arith F64Error F64Neg IntervalSpec R1Model R1Proofs S1Proofs VectorModel StuvError PredicatesError PredicatesFloat CapSpec CapModel ClipModel ClipProofs LinProofs.
Import ListNotations.
Open Scope R_scope.

(** The line with the normal [n] in the plane of a face (the points (x, y, 1)), and the face. *)
Definition on_line (n : vec) (x y : R) : Prop := B2R (vx n) * x + B2R (vy n) * y + B2R (vz n) = 0.
Definition on_face (x y : R) : Prop := -1 <= x <= 1 /\ -1 <= y <= 1.
(** Following the line counterclockwise around [n] from (x, y) leaves the face at once. *)
Definition leaving (n : vec) (x y : R) : Prop := forall t, 0 < t -> ~ on_face (x + t * B2R (vy n)) (y - t * B2R (vx n)).

Lemma line_face (a b c : R) : (exists x y, on_face x y /\ a * x + b * y + c = 0) <-> Rabs c <= Rabs a + Rabs b.
Proof.
  split.
  - intros (x & y & [X Y] & E). assert (A : Rabs (a * x) <= Rabs a * 1) by (rewrite Rabs_mult; apply Rmult_le_compat_l; [apply Rabs_pos|apply Rabs_le; lra]). assert (B : Rabs (b * y) <= Rabs b * 1) by (rewrite Rabs_mult; apply Rmult_le_compat_l; [apply Rabs_pos|apply Rabs_le; lra]). replace c with (- (a * x + b * y)) by lra. rewrite Rabs_Ropp. pose proof (Rabs_triang (a * x) (b * y)). lra.
  - intros L. set (s := Rabs a + Rabs b) in *. destruct (Req_dec s 0) as [Z|Z].
    + exists 0, 0. split; [unfold on_face; lra|]. assert (c = 0) by (destruct (Req_dec c 0); [assumption|]; pose proof (Rabs_pos_lt c); lra). lra.
    + assert (S : 0 < s) by (unfold s in *; pose proof (Rabs_pos a); pose proof (Rabs_pos b); lra). set (k := c / s). assert (K : -1 <= k <= 1) by (apply Rabs_le_inv in L; unfold k; split; [apply Rmult_le_reg_r with s|apply Rmult_le_reg_r with s]; try lra; unfold Rdiv; rewrite Rmult_assoc, Rinv_l by lra; lra).
      assert (CK : c = k * s) by (unfold k; field; lra). exists (if Rle_dec 0 a then - k else k), (if Rle_dec 0 b then - k else k). split; [unfold on_face; repeat destruct Rle_dec; lra|]. rewrite CK. unfold s, Rabs. repeat destruct Rle_dec; repeat destruct Rcase_abs; try lra; ring_simplify; lra.
Qed.
Lemma side_meet (a b c : R) : (exists y, -1 <= y <= 1 /\ a * 1 + b * y + c = 0) /\ (exists y, -1 <= y <= 1 /\ a * -1 + b * y + c = 0) <-> Rabs a + Rabs c <= Rabs b.
Proof.
  split.
  - intros [(y & Y & E) (y' & Y' & E')]. assert (A : Rabs (b * y) <= Rabs b * 1) by (rewrite Rabs_mult; apply Rmult_le_compat_l; [apply Rabs_pos|apply Rabs_le; lra]). assert (A' : Rabs (b * y') <= Rabs b * 1) by (rewrite Rabs_mult; apply Rmult_le_compat_l; [apply Rabs_pos|apply Rabs_le; lra]). apply Rabs_le_inv in A, A'. unfold Rabs at 1 2. repeat destruct Rcase_abs; lra.
  - intros L. destruct (Req_dec b 0) as [->|B].
    + rewrite Rabs_R0 in L. assert (a = 0) by (destruct (Req_dec a 0); [assumption|]; pose proof (Rabs_pos_lt a); pose proof (Rabs_pos c); lra). assert (c = 0) by (destruct (Req_dec c 0); [assumption|]; pose proof (Rabs_pos_lt c); pose proof (Rabs_pos a); lra). subst. split; exists 0; lra.
    + assert (K : forall s, Rabs s <= Rabs b -> exists y, -1 <= y <= 1 /\ b * y = s). { intros s S. exists (s / b). split; [|field; exact B]. apply Rabs_le_inv. unfold Rdiv. rewrite Rabs_mult, Rabs_inv. apply Rmult_le_reg_r with (Rabs b); [apply Rabs_pos_lt, B|]. rewrite Rmult_assoc, Rinv_l by (pose proof (Rabs_pos_lt b B); lra). lra. }
      destruct (K (- a - c)) as (y & Y & E); [apply Rabs_le; pose proof (Rle_abs a); pose proof (Rle_abs c); pose proof (Rle_abs (- a)); pose proof (Rle_abs (- c)); rewrite Rabs_Ropp in *; lra|]. destruct (K (a - c)) as (y' & Y' & E'); [apply Rabs_le; pose proof (Rle_abs a); pose proof (Rle_abs c); pose proof (Rle_abs (- a)); pose proof (Rle_abs (- c)); rewrite Rabs_Ropp in *; lra|].
      split; [exists y|exists y']; (split; [assumption|lra]).
Qed.

Lemma sub_abs x y : finite x -> finite y -> finite (fsub (fabs x) (fabs y)) /\ B2R (fsub (fabs x) (fabs y)) = rnd (Rabs (B2R x) - Rabs (B2R y)).
Proof.
  intros Fx Fy. destruct (fabs_val x Fx) as [Ax Vx]. destruct (fabs_val y Fy) as [Ay Vy]. pose proof (fsub_result _ _ Ax Ay) as R. rewrite Vx, Vy in R. pose proof (Rabs_pos (B2R x)). pose proof (Rabs_pos (B2R y)).
  destruct (Rle_lt_dec (Rabs (B2R x)) (Rabs (B2R y))) as [L|L]; [apply (result_le _ _ y R)|apply (result_le _ _ x R)]; apply Rabs_le; lra.
Qed.

Lemma face_exact n : fvec n -> intersects_face n = true <-> Rabs (B2R (vz n)) <= Rabs (B2R (vx n)) + Rabs (B2R (vy n)).
Proof.
  intros (F1 & F2 & F3). unfold intersects_face, fge. destruct (fabs_val _ F1) as [A1 V1]. destruct (fabs_val _ F2) as [A2 V2]. destruct (sub_abs _ _ F3 F1) as [S1 W1]. destruct (sub_abs _ _ F3 F2) as [S2 W2].
  rewrite <- (sum_ge (Rabs (B2R (vx n))) (Rabs (B2R (vy n))) (Rabs (B2R (vz n)))) by (try apply fmt_abs, fmt_B2R; apply Rabs_pos). rewrite <- W1, <- W2, <- V1, <- V2, andb_true_iff.
  destruct (fle_R _ _ S1 A2); destruct (fle_R _ _ S2 A1); split; intros [X Y]; try discriminate; try contradiction; split; auto.
Qed.
Lemma opposite_exact n : fvec n -> intersects_opposite_edges n = true <-> Rabs (B2R (vz n)) <= Rabs (Rabs (B2R (vx n)) - Rabs (B2R (vy n))).
Proof.
  intros (F1 & F2 & F3). set (a := B2R (vx n)) in *. set (b := B2R (vy n)) in *. set (c := B2R (vz n)) in *.
  unfold intersects_opposite_edges, fge, fne. destruct (fabs_val _ F1) as [A1 V1]. destruct (fabs_val _ F2) as [A2 V2]. destruct (fabs_val _ F3) as [A3 V3]. destruct (sub_abs _ _ F1 F2) as [S1 W1]. destruct (fabs_val _ S1) as [S2 W2]. destruct (sub_abs _ _ F1 F3) as [S3 W3]. destruct (sub_abs _ _ F2 F3) as [S4 W4]. rewrite W1 in W2. rewrite rnd_abs_eq in W2. fold a in V1, W2, W3. fold b in V2, W2, W4. fold c in V3, W3, W4.
  set (p := Rabs a) in *. set (q := Rabs b) in *. set (r := Rabs c) in *. assert (P0 : 0 <= p) by apply Rabs_pos. assert (Q0 : 0 <= q) by apply Rabs_pos. assert (R0 : 0 <= r) by apply Rabs_pos. assert (Fp : fmt p) by apply fmt_abs, fmt_B2R. assert (Fq : fmt q) by apply fmt_abs, fmt_B2R. assert (Fr : fmt r) by apply fmt_abs, fmt_B2R.
  destruct (feq_R _ _ S2 A3) as [E|E]; cbn [negb]; rewrite W2, V3 in E.
  - destruct (fle_R _ _ A2 A1) as [L|L]; rewrite V1, V2 in L.
    + rewrite Rabs_pos_eq in * by lra. destruct (fle_R _ _ A2 S3) as [M|M]; rewrite V2, W3 in M; split; intros H; try discriminate; auto.
      * apply Rnot_lt_le. intros N. assert (X : rnd (p - r) = q). { apply Rle_antisym; [|exact M]. rewrite <- (rnd_fmt q Fq). apply rnd_le. lra. } pose proof (sum_eq q r p Fq Fr Fp Q0 R0 P0 E X). lra.
      * exfalso. apply M. rewrite <- (rnd_fmt q Fq) at 1. apply rnd_le. lra.
    + rewrite Rabs_left in * by lra. replace (- (p - q)) with (q - p) in * by ring. destruct (fle_R _ _ A1 S4) as [M|M]; rewrite V1, W4 in M; split; intros H; try discriminate; auto.
      * apply Rnot_lt_le. intros N. assert (X : rnd (q - r) = p). { apply Rle_antisym; [|exact M]. rewrite <- (rnd_fmt p Fp). apply rnd_le. lra. } pose proof (sum_eq p r q Fp Fr Fq P0 R0 Q0 E X). lra.
      * exfalso. apply M. rewrite <- (rnd_fmt p Fp) at 1. apply rnd_le. lra.
  - destruct (fle_R _ _ A3 S2) as [M|M]; rewrite V3, W2 in M; split; intros H; try discriminate; auto.
    + apply Rnot_lt_le. intros N. apply E, Rle_antisym; [|exact M]. rewrite <- (rnd_fmt r Fr). apply rnd_le. lra.
    + exfalso. apply M. rewrite <- (rnd_fmt r Fr) at 1. apply rnd_le. lra.
Qed.

(** The tests are exact: intersects_face tells whether the line meets the face,
    intersects_opposite_edges whether it meets two opposite edges of the face. *)
Theorem C143_face : forall n, fvec n -> intersects_face n = true <-> exists x y, on_face x y /\ on_line n x y.
Proof. intros n F. unfold on_line. rewrite line_face. apply face_exact, F. Qed.
Print Assumptions C143_face.
Theorem C143_opposite : forall n, fvec n -> intersects_opposite_edges n = true <->
  ((exists y, -1 <= y <= 1 /\ on_line n 1 y) /\ (exists y, -1 <= y <= 1 /\ on_line n (-1) y)) \/ ((exists x, -1 <= x <= 1 /\ on_line n x 1) /\ (exists x, -1 <= x <= 1 /\ on_line n x (-1))).
Proof.
  intros n (F1 & F2 & F3). set (a := B2R (vx n)) in *. set (b := B2R (vy n)) in *. set (c := B2R (vz n)) in *.
  assert (SPEC : ((exists y, -1 <= y <= 1 /\ on_line n 1 y) /\ (exists y, -1 <= y <= 1 /\ on_line n (-1) y)) \/ ((exists x, -1 <= x <= 1 /\ on_line n x 1) /\ (exists x, -1 <= x <= 1 /\ on_line n x (-1))) <-> Rabs c <= Rabs (Rabs a - Rabs b)).
  { unfold on_line. fold a b c. rewrite (side_meet a b c). pose proof (side_meet b a c) as SM.
    assert (E : ((exists x, -1 <= x <= 1 /\ a * x + b * 1 + c = 0) /\ (exists x, -1 <= x <= 1 /\ a * x + b * -1 + c = 0)) <-> Rabs b + Rabs c <= Rabs a). { rewrite <- SM. split; intros [(x & X & E) (x' & X' & E')]; (split; [exists x|exists x']); (split; [assumption|lra]). }
    rewrite E. pose proof (Rabs_pos c). unfold Rabs at 8. destruct Rcase_abs; lra. }
  rewrite SPEC. apply opposite_exact. repeat split; assumption.
Qed.
Print Assumptions C143_opposite.

Lemma feq_result z r w : result z r -> finite w -> feq z w = true <-> rnd r = B2R w.
Proof.
  intros R Fw. pose proof (B2R_max w) as M. destruct R as [(F & V & _)|(s & -> & H & _)].
  - rewrite <- V. destruct (feq_R z w F Fw); split; intros; try discriminate; try contradiction; auto.
  - split; [destruct w; try discriminate Fw; destruct s; discriminate|]. intros E. rewrite E in H. lra.
Qed.
Lemma feq_result' z r w : result z r -> finite w -> feq w z = true <-> rnd r = B2R w.
Proof.
  intros R Fw. pose proof (B2R_max w) as M. destruct R as [(F & V & _)|(s & -> & H & _)].
  - rewrite <- V. destruct (feq_R w z Fw F); split; intros; try discriminate; try contradiction; auto.
  - split; [destruct w; try discriminate Fw; destruct s; discriminate|]. intros E. rewrite E in H. lra.
Qed.
Theorem C143_sum : forall u v w, finite u -> finite v -> finite w -> sum_equal u v w = true <-> B2R u + B2R v = B2R w.
Proof.
  intros x y z Fx Fy Fz. unfold sum_equal. rewrite !andb_true_iff, (feq_result _ _ z (fadd_result x y Fx Fy) Fz), (feq_result' _ _ x (fsub_result z y Fz Fy) Fx), (feq_result' _ _ y (fsub_result z x Fz Fx) Fy).
  pose proof (fmt_B2R x) as Gx. pose proof (fmt_B2R y) as Gy. pose proof (fmt_B2R z) as Gz. set (a := B2R x) in *. set (b := B2R y) in *. set (c := B2R z) in *. clearbody a b c. pose proof (fmt_opp _ Gx) as Hx. pose proof (fmt_opp _ Gy) as Hy. pose proof (fmt_opp _ Gz) as Hz. split.
  - intros ((E1 & E2) & E3). assert (N1 : rnd (- a - b) = - c) by (replace (- a - b) with (- (a + b)) by ring; rewrite rnd_opp; lra). assert (N2 : rnd (b - c) = - a) by (replace (b - c) with (- (c - b)) by ring; rewrite rnd_opp; lra). assert (N3 : rnd (a - c) = - b) by (replace (a - c) with (- (c - a)) by ring; rewrite rnd_opp; lra).
    assert (SG : forall p q, 0 <= p -> 0 <= q -> 0 <= rnd (p + q)) by (intros p q P Q; rewrite <- rnd_0; apply rnd_le; lra).
    destruct (Rle_lt_dec 0 a) as [A|A]; destruct (Rle_lt_dec 0 b) as [B|B].
    + pose proof (SG a b A B). symmetry. apply sum_eq; auto; lra.
    + destruct (Rle_lt_dec 0 c) as [C|C].
      * pose proof (sum_eq (- b) c a Hy Gz Gx ltac:(lra) C A ltac:(replace (a - - b) with (a + b) by ring; exact E1) N3). lra.
      * pose proof (sum_eq a (- c) (- b) Gx Hz Hy A ltac:(lra) ltac:(lra) ltac:(replace (- b - a) with (- a - b) by ring; exact N1) ltac:(replace (- b - - c) with (c - b) by ring; exact E2)). lra.
    + destruct (Rle_lt_dec 0 c) as [C|C].
      * pose proof (sum_eq (- a) c b Hx Gz Gy ltac:(lra) C B ltac:(replace (b - - a) with (a + b) by ring; exact E1) N2). lra.
      * pose proof (sum_eq b (- c) (- a) Gy Hz Hx B ltac:(lra) ltac:(lra) N1 ltac:(replace (- a - - c) with (c - a) by ring; exact E3)). lra.
    + pose proof (SG (- a) (- b) ltac:(lra) ltac:(lra)) as S. replace (- a + - b) with (- a - b) in S by ring. pose proof (sum_eq (- a) (- b) (- c) Hx Hy Hz ltac:(lra) ltac:(lra) ltac:(lra) ltac:(replace (- c - - a) with (a - c) by ring; exact N3) ltac:(replace (- c - - b) with (b - c) by ring; exact N2)). lra.
  - intros E. rewrite E. replace (c - b) with a by lra. replace (c - a) with b by lra. rewrite !rnd_fmt by assumption. auto.
Qed.
Print Assumptions C143_sum.

Lemma sign_val x : finite x -> B2R x <> 0 -> Bsign x = true <-> B2R x < 0.
Proof.
  intros F N. destruct x as [s|s| |s m e b]; try discriminate F; [elim N; reflexivity|]. cbn [Bsign B2R]. destruct s; cbn [cond_Zopp].
  - split; [intros _; apply F2R_lt_0; reflexivity|auto].
  - split; [discriminate|]. intros H. pose proof (F2R_gt_0 radix2 (Float radix2 (Z.pos m) e) eq_refl). lra.
Qed.
Lemma on_edge (s a c b : f64) : finite s -> finite a -> finite c -> finite b -> (B2R s = 1 \/ B2R s = -1) -> B2R b <> 0 -> Rabs (- B2R s * B2R a - B2R c) <= Rabs (B2R b) ->
  let q := fdiv (fsub (fmul (fneg s) a) c) b in let y := (- B2R s * B2R a - B2R c) / B2R b in finite q /\ -1 <= B2R q <= 1 /\ -1 <= y <= 1 /\ Rabs (B2R q - y) <= 1 / 2 ^ 51.
Proof.
  intros Fs Fa Fc Fb S B L q y. destruct (fneg_val s Fs) as [Fn Vn].
  assert (FM : finite (fmul (fneg s) a) /\ B2R (fmul (fneg s) a) = - B2R s * B2R a). { pose proof (fmul_result _ _ Fn Fa) as R. rewrite Vn in R. assert (E : fmt (- B2R s * B2R a)) by (destruct S as [-> | ->]; [replace (- (1) * B2R a) with (- B2R a) by ring; apply fmt_opp, fmt_B2R|replace (- -1 * B2R a) with (B2R a) by ring; apply fmt_B2R]). rewrite <- (rnd_fmt _ E). apply (result_le _ _ a R). rewrite Rabs_mult. assert (S1 : Rabs (- B2R s) = 1) by (destruct S as [E1|E1]; rewrite E1; [rewrite Rabs_left|rewrite Rabs_pos_eq]; lra). rewrite S1. lra. }
  destruct FM as [FM VM]. pose proof (fsub_result _ _ FM Fc) as R. rewrite VM in R. destruct (result_le _ _ b R L) as [FN VN]. set (num := - B2R s * B2R a - B2R c) in *.
  assert (B0 : 0 < Rabs (B2R b)) by (apply Rabs_pos_lt, B). assert (DV : forall x, Rabs x <= Rabs (B2R b) -> Rabs (x / B2R b) <= 1). { intros x X. unfold Rdiv. rewrite Rabs_mult, Rabs_inv. apply Rmult_le_reg_r with (Rabs (B2R b)); [exact B0|]. rewrite Rmult_assoc, Rinv_l by lra. lra. }
  assert (NB : Rabs (rnd num) <= Rabs (B2R b)). { rewrite rnd_abs_eq. rewrite <- (rnd_fmt (Rabs (B2R b))) by (apply fmt_abs, fmt_B2R). apply rnd_le, L. }
  pose proof (fdiv_result _ _ FN Fb B) as RD. rewrite VN in RD. pose proof (DV _ NB) as D1. pose proof (DV _ L) as D2. fold y in D2. destruct f1_val as [F1 V1]. destruct (result_le _ _ f1 RD) as [FQ VQ]; [rewrite V1, Rabs_R1; exact D1|]. fold q in FQ, VQ.
  split; [exact FQ|]. assert (Q1 : Rabs (B2R q) <= 1). { rewrite VQ, rnd_abs_eq, <- V1, <- (rnd_fix f1). apply rnd_le. rewrite V1. exact D1. } split; [apply Rabs_le_inv, Q1|]. split; [apply Rabs_le_inv, D2|].
  pose proof (PredicatesError.rnd_rel (rnd num / B2R b)) as RR. rewrite <- VQ in RR. assert (MR : Rabs (rnd num - num) <= u * Rabs num). { unfold num. rewrite <- VM. apply minus_rel; apply fmt_B2R. }
  assert (DD : Rabs (rnd num / B2R b - y) <= u). { replace (rnd num / B2R b - y) with ((rnd num - num) / B2R b) by (unfold y; field; exact B). unfold Rdiv. rewrite Rabs_mult, Rabs_inv. apply Rmult_le_reg_r with (Rabs (B2R b)); [exact B0|]. rewrite Rmult_assoc, Rinv_l by lra. assert (u * Rabs num <= u * Rabs (B2R b)) by (apply Rmult_le_compat_l; lra). lra. }
  pose proof h_small as HT. assert (u * Rabs (rnd num / B2R b) <= u * 1) by (apply Rmult_le_compat_l; lra). apply Rabs_le_inv in RR, DD. apply Rabs_le. lra.
Qed.
(** The line leaves the face at a true point next to the computed one, which is on the edge of
    the face that exit_axis names: u = 1 or u = -1 for the first axis, v = 1 or v = -1 for the
    second.  The computed point is on the face. *)
Theorem C143_exit : forall n, fvec n -> ~ (B2R (vx n) = 0 /\ B2R (vy n) = 0 /\ B2R (vz n) = 0) -> (exists x y, on_face x y /\ on_line n x y) ->
  let p := exit_point n (exit_axis n) in
  finite (px p) /\ finite (py p) /\ on_face (B2R (px p)) (B2R (py p)) /\
  exists x y, on_face x y /\ on_line n x y /\ leaving n x y /\ match exit_axis n with
    | AxisU => Rabs x = 1 /\ B2R (px p) = x /\ Rabs (B2R (py p) - y) <= 1 / 2 ^ 51
    | AxisV => Rabs y = 1 /\ B2R (py p) = y /\ Rabs (B2R (px p) - x) <= 1 / 2 ^ 51
    end.
Proof.
  intros n Fn NZ LF. pose proof Fn as (F1 & F2 & F3). unfold on_line in LF. rewrite line_face in LF. pose proof (opposite_exact n Fn) as OE. unfold on_line, leaving, on_face in *. set (a := B2R (vx n)) in *. set (b := B2R (vy n)) in *. set (c := B2R (vz n)) in *. destruct f0_val as [F0 V0]. destruct StuvError.f1_val as [FO VO]. destruct (fneg_val f1 FO) as [FM VM].
  assert (AX : match exit_axis n with AxisU => b <> 0 /\ Rabs (- (if Rlt_dec 0 b then 1 else -1) * a - c) <= Rabs b | AxisV => a <> 0 /\ Rabs (- (if Rlt_dec a 0 then 1 else -1) * b - c) <= Rabs a end).
  { unfold exit_axis. destruct (intersects_opposite_edges n) eqn:EO.
    - assert (OP : Rabs c <= Rabs (Rabs a - Rabs b)) by (apply OE; reflexivity). unfold fge. destruct (fabs_val _ F1) as [A1 V1]. destruct (fabs_val _ F2) as [A2 V2]. destruct (fle_R _ _ A2 A1) as [L|L]; rewrite V1, V2 in L; fold a b in L.
      + rewrite (Rabs_pos_eq (Rabs a - Rabs b)) in OP by lra. assert (a <> 0). { intros Z. apply NZ. rewrite Z, Rabs_R0 in *. pose proof (Rabs_pos b). pose proof (Rabs_pos c). assert (K : forall k, Rabs k <= 0 -> k = 0) by (intros k Hk; destruct (Req_dec k 0) as [?|Nk]; [assumption|pose proof (Rabs_pos_lt k Nk); lra]). split; [reflexivity|]. split; apply K; lra. } split; [assumption|]. apply Rabs_le. pose proof (Rle_abs b). pose proof (Rle_abs c). pose proof (Rle_abs (- b)). pose proof (Rle_abs (- c)). rewrite Rabs_Ropp in *. destruct Rlt_dec; lra.
      + rewrite (Rabs_left (Rabs a - Rabs b)) in OP by lra. assert (b <> 0) by (intros Z; rewrite Z, Rabs_R0 in L; pose proof (Rabs_pos a); lra). split; [assumption|]. apply Rabs_le. pose proof (Rle_abs a). pose proof (Rle_abs c). pose proof (Rle_abs (- a)). pose proof (Rle_abs (- c)). rewrite Rabs_Ropp in *. destruct Rlt_dec; lra.
    - assert (OP : ~ Rabs c <= Rabs (Rabs a - Rabs b)) by (intros H; apply OE in H; congruence). assert (O1 : Rabs a - Rabs b < Rabs c) by (pose proof (Rle_abs (Rabs a - Rabs b)); lra). assert (O2 : Rabs b - Rabs a < Rabs c) by (pose proof (Rle_abs (- (Rabs a - Rabs b))); rewrite Rabs_Ropp in *; lra).
      assert (a <> 0) by (intros Z; rewrite Z, Rabs_R0 in *; lra). assert (b <> 0) by (intros Z; rewrite Z, Rabs_R0 in *; lra). assert (c <> 0) by (intros Z; rewrite Z, Rabs_R0 in *; lra).
      pose proof (sign_val _ F1 ltac:(assumption)) as S1. pose proof (sign_val _ F2 ltac:(assumption)) as S2. pose proof (sign_val _ F3 ltac:(assumption)) as S3. fold a in S1. fold b in S2. fold c in S3. clear OE EO OP NZ.
      destruct (Bsign (vx n)); destruct (Bsign (vy n)); destruct (Bsign (vz n)); cbn [xorb negb]; (split; [assumption|]);
        (assert (A : a < 0 \/ 0 < a) by lra); (assert (B : b < 0 \/ 0 < b) by lra); (assert (C : c < 0 \/ 0 < c) by lra);
        destruct A as [A|A]; destruct B as [B|B]; destruct C as [C|C]; try (exfalso; first [apply S1 in A; discriminate|apply S2 in B; discriminate|apply S3 in C; discriminate|assert (a < 0) by (apply S1; reflexivity); lra|assert (b < 0) by (apply S2; reflexivity); lra|assert (c < 0) by (apply S3; reflexivity); lra]);
        (destruct Rlt_dec; [|try lra]); apply Rabs_le; revert O1 O2 LF; rewrite ?(Rabs_left a), ?(Rabs_left b), ?(Rabs_left c), ?(Rabs_pos_eq a), ?(Rabs_pos_eq b), ?(Rabs_pos_eq c) by lra; lra. }
  destruct (exit_axis n); destruct AX as [NB AX]; cbn [exit_point px py].
  - set (s := if fgt (vy n) f0 then f1 else fneg f1). assert (SV : finite s /\ B2R s = if Rlt_dec 0 b then 1 else -1). { unfold s, fgt. destruct (flt_R f0 (vy n) F0 F2) as [L|L]; rewrite V0 in L; fold b in L; destruct Rlt_dec; try lra; split; auto. rewrite VM, VO. ring. } destruct SV as [FS VS].
    destruct (on_edge s (vx n) (vz n) (vy n) FS F1 F3 F2) as (FQ & BQ & BY & EQ); [rewrite VS; destruct Rlt_dec; lra|exact NB|rewrite VS; exact AX|]. cbv zeta in *. set (q := fdiv _ _) in *. rewrite VS in *. fold a b c in BY, EQ.
    split; [exact FS|]. split; [exact FQ|]. split; [split; [destruct Rlt_dec; lra|exact BQ]|]. exists (if Rlt_dec 0 b then 1 else -1), ((- (if Rlt_dec 0 b then 1 else -1) * a - c) / b). split; [split; [destruct Rlt_dec; lra|exact BY]|]. split; [field; exact NB|]. split; [|split; [destruct Rlt_dec; [apply Rabs_R1|rewrite Rabs_left; lra]|split; [reflexivity|exact EQ]]].
    intros t T [X _]. destruct Rlt_dec as [L|L]; [pose proof (Rmult_lt_0_compat t b T L); lra|]. assert (0 < t * - b) by (apply Rmult_lt_0_compat; lra). lra.
  - set (s := if flt (vx n) f0 then f1 else fneg f1). assert (SV : finite s /\ B2R s = if Rlt_dec a 0 then 1 else -1). { unfold s. destruct (flt_R (vx n) f0 F1 F0) as [L|L]; rewrite V0 in L; fold a in L; destruct Rlt_dec; try lra; split; auto. rewrite VM, VO. ring. } destruct SV as [FS VS].
    destruct (on_edge s (vy n) (vz n) (vx n) FS F2 F3 F1) as (FQ & BQ & BY & EQ); [rewrite VS; destruct Rlt_dec; lra|exact NB|rewrite VS; exact AX|]. cbv zeta in *. set (q := fdiv _ _) in *. rewrite VS in *. fold a b c in BY, EQ.
    split; [exact FQ|]. split; [exact FS|]. split; [split; [exact BQ|destruct Rlt_dec; lra]|]. exists ((- (if Rlt_dec a 0 then 1 else -1) * b - c) / a), (if Rlt_dec a 0 then 1 else -1). split; [split; [exact BY|destruct Rlt_dec; lra]|]. split; [field; exact NB|]. split; [|split; [destruct Rlt_dec; [apply Rabs_R1|rewrite Rabs_left; lra]|split; [reflexivity|exact EQ]]].
    intros t T [_ X]. destruct Rlt_dec as [L|L]; [assert (0 < t * - a) by (apply Rmult_lt_0_compat; lra); lra|]. assert (0 < t * a) by (apply Rmult_lt_0_compat; lra). lra.
Qed.
Print Assumptions C143_exit.

(* a line with coefficients 1, -2 and 1/2 meets the hypotheses: it crosses opposite edges *)
Example C143_example : let n := Vec f1 (of_int (-2)) fhalf in fvec n /\ ~ (B2R (vx n) = 0 /\ B2R (vy n) = 0 /\ B2R (vz n) = 0) /\ (exists x y, on_face x y /\ on_line n x y) /\
  intersects_face n = true /\ intersects_opposite_edges n = true /\ intersects_opposite_edges (Vec f1 (of_int (-2)) (of_int 2)) = false /\ intersects_face (Vec f1 (of_int (-2)) (of_int 4)) = false /\
  exit_axis n = AxisU /\ exit_axis (Vec f1 (of_int (-2)) (of_int 2)) = AxisU /\ exit_axis (Vec f1 (of_int 2) (of_int 2)) = AxisV.
Proof.
  intros n. destruct StuvError.f1_val as [F1 V1]. destruct StuvError.fhalf_val as [FH VH]. destruct (of_int_val (-2) ltac:(vm_compute; discriminate)) as [F2 V2]. split; [repeat split; cbn; assumption|]. split; [unfold n; cbn [vx vy vz]; rewrite V1; lra|]. split.
  - exists (-1 / 2), 0. unfold on_face, on_line, n. cbn [vx vy vz]. rewrite V1, V2, VH. lra.
  - vm_compute. repeat split.
Qed.

(** C144 *)
(** Coordinates of the plane of a face, with room for padding. *)
Definition plain (x : f64) : Prop := finite x /\ Rabs (B2R x) <= 1 + / 2 ^ 20.
(** Equal, or not so close that products of differences underflow. *)
Definition apart (a b : f64) : Prop := B2R a = B2R b \/ / 2 ^ 400 <= Rabs (B2R b - B2R a).
Definition between (a b x : R) : Prop := Rmin a b <= x <= Rmax a b.
(** The linear function which is a1 at a and b1 at b. *)
Definition line_at (x a b a1 b1 : R) : R := a1 + (b1 - a1) * ((x - a) / (b - a)).

Lemma plain_M x : plain x -> finite x /\ Rabs (B2R x) <= 1 + / 1048576.
Proof. intros [F M]. split; [exact F|]. replace 1048576 with (2 ^ 20) by ring. exact M. Qed.
Lemma gap_pow : bpow radix2 (-400) = / 2 ^ 400.
Proof. rewrite bpow_opp with (e := 400%Z). f_equal. rewrite <- (IZR_Zpower radix2 400) by lia. change (Zpower radix2 400) with (2 ^ Z.of_nat 400)%Z. rewrite <- pow_IZR. reflexivity. Qed.
Lemma apart_spread a b : apart a b -> spread (B2R a) (B2R b).
Proof. intros [E|E]; [left; exact E|right; rewrite gap_pow; exact E]. Qed.
Lemma between_M (x a b : f64) : plain a -> plain b -> between (B2R a) (B2R b) (B2R x) -> Rabs (B2R x) <= 1 + / 1048576.
Proof. intros A B H. apply plain_M in A, B. destruct A as [_ A]. destruct B as [_ B]. apply Rabs_le_inv in A, B. revert H. unfold between, Rmin, Rmax. destruct Rle_dec; intros H; apply Rabs_le; lra. Qed.

Theorem C144_ends : forall (x a b a1 b1 : f64), plain a -> plain b -> plain a1 -> plain b1 -> finite x -> apart a b ->
  (B2R x = B2R a -> finite (interpolate_1d x a b a1 b1) /\ B2R (interpolate_1d x a b a1 b1) = B2R a1) /\
  (B2R x = B2R b -> B2R a <> B2R b -> finite (interpolate_1d x a b a1 b1) /\ B2R (interpolate_1d x a b a1 b1) = B2R b1).
Proof.
  intros x a b a1 b1 A B A1 B1 Fx S. apply apart_spread in S. apply plain_M in A as [FA MA]. apply plain_M in B as [FB MB]. apply plain_M in A1 as [F1 M1]. apply plain_M in B1 as [F2 M2]. split.
  - intros E. destruct (interp_val x a b a1 b1 Fx FA FB F1 F2 M1 M2 MA MB ltac:(rewrite E; exact MA) S) as [F V]. split; [exact F|]. rewrite V. destruct Req_EM_T; [reflexivity|]. rewrite E. apply lin_a, fmt_B2R.
  - intros E N. destruct (interp_val x a b a1 b1 Fx FA FB F1 F2 M1 M2 MA MB ltac:(rewrite E; exact MB) S) as [F V]. split; [exact F|]. rewrite V. destruct Req_EM_T; [contradiction|]. rewrite E. destruct S; [contradiction|]. apply lin_b; [assumption|apply fmt_B2R].
Qed.
Print Assumptions C144_ends.
Theorem C144_between : forall (x a b a1 b1 : f64), plain a -> plain b -> plain a1 -> plain b1 -> finite x -> apart a b -> apart a1 b1 -> between (B2R a) (B2R b) (B2R x) ->
  finite (interpolate_1d x a b a1 b1) /\ between (B2R a1) (B2R b1) (B2R (interpolate_1d x a b a1 b1)).
Proof.
  intros x a b a1 b1 A B A1 B1 Fx S S1 H. pose proof (between_M x a b A B H) as MX. apply apart_spread in S, S1. apply plain_M in A as [FA MA]. apply plain_M in B as [FB MB]. apply plain_M in A1 as [F1 M1]. apply plain_M in B1 as [F2 M2].
  destruct (interp_val x a b a1 b1 Fx FA FB F1 F2 M1 M2 MA MB MX S) as [F V]. split; [exact F|]. rewrite V. destruct Req_EM_T as [E|N]; [unfold between; split; [apply Rmin_l|apply Rmax_l]|]. destruct S as [S|S]; [contradiction|]. apply lin_ok; auto using fmt_B2R. apply hull_t; auto.
Qed.
Print Assumptions C144_between.
Theorem C144_accuracy : forall (x a b a1 b1 : f64), plain a -> plain b -> plain a1 -> plain b1 -> finite x -> apart a b -> apart a1 b1 -> B2R a <> B2R b -> between (B2R a) (B2R b) (B2R x) ->
  Rabs (B2R (interpolate_1d x a b a1 b1) - line_at (B2R x) (B2R a) (B2R b) (B2R a1) (B2R b1)) <= / 2 ^ 50.
Proof.
  intros x a b a1 b1 A B A1 B1 Fx S S1 N H. pose proof (between_M x a b A B H) as MX. apply apart_spread in S, S1. apply plain_M in A as [FA MA]. apply plain_M in B as [FB MB]. apply plain_M in A1 as [F1 M1]. apply plain_M in B1 as [F2 M2].
  destruct (interp_val x a b a1 b1 Fx FA FB F1 F2 M1 M2 MA MB MX S) as [F V]. rewrite V. destruct Req_EM_T as [E|_]; [contradiction|]. destruct S as [S|S]; [contradiction|]. replace (/ 2 ^ 50) with (8 * u) by (simpl; field). apply lin_ok; auto using fmt_B2R. apply hull_t; auto.
Qed.
Print Assumptions C144_accuracy.
Lemma apart_dec_1 a b : Rabs (B2R b - B2R a) >= 1 -> apart a b.
Proof. intros H. right. rewrite <- gap_pow. pose proof (bpow_le radix2 (-400) 0 ltac:(lia)) as L. change (bpow radix2 0) with 1 in L. lra. Qed.
Example C144_example : plain f0 /\ plain f1 /\ plain (fneg f1) /\ apart f0 f1 /\ apart (fneg f1) f1 /\ between (B2R f0) (B2R f1) (B2R fhalf) /\
  feq (interpolate_1d fhalf f0 f1 (fneg f1) f1) f0 = true /\ feq (interpolate_1d f1 f0 f1 (fneg f1) f1) f1 = true.
Proof.
  destruct f0_val as [F0 V0]. destruct StuvError.f1_val as [F1 V1]. destruct StuvError.fhalf_val as [FH VH]. destruct (fneg_val f1 F1) as [FN VN]. unfold plain. rewrite !VN, V0, V1. assert (P : 0 < / 2 ^ 20) by (apply Rinv_0_lt_compat; simpl; lra).
  split; [split; [assumption|rewrite Rabs_R0; lra]|]. split; [split; [assumption|rewrite Rabs_R1; lra]|]. split; [split; [assumption|rewrite Rabs_left; lra]|]. split; [apply apart_dec_1; rewrite V0, V1, Rabs_pos_eq; lra|]. split; [apply apart_dec_1; rewrite VN, V1, Rabs_pos_eq; lra|]. split; [unfold between; rewrite VH, Rmin_left, Rmax_right; lra|]. vm_compute. split; reflexivity.
Qed.
(** Without the hypothesis on differences the result can be far off: half way from 0 to 2^-1073
    the function from 0 to 1/2 is computed as 0. *)
Theorem C144_small_refuted : exists x a b a1 b1 : f64, plain a /\ plain b /\ plain a1 /\ plain b1 /\ finite x /\ B2R a <> B2R b /\ between (B2R a) (B2R b) (B2R x) /\
  Rabs (B2R (interpolate_1d x a b a1 b1) - line_at (B2R x) (B2R a) (B2R b) (B2R a1) (B2R b1)) = / 4.
Proof.
  set (x := @B754_finite 53 1024 false 1 (-1074) eq_refl : f64). set (b := @B754_finite 53 1024 false 2 (-1074) eq_refl : f64). exists x, f0, b, f0, fhalf.
  destruct f0_val as [F0 V0]. destruct StuvError.fhalf_val as [FH VH]. assert (P : 0 < / 2 ^ 20) by (apply Rinv_0_lt_compat; simpl; lra). assert (VX : B2R x = h) by (unfold x, h; cbn [B2R cond_Zopp]; unfold F2R; cbn [Fnum Fexp]; lra). assert (VB : B2R b = 2 * h) by (unfold b, h; cbn [B2R cond_Zopp]; unfold F2R; cbn [Fnum Fexp]; lra). pose proof h_small. pose proof h_pos.
  assert (FI : finite (interpolate_1d x f0 b f0 fhalf)) by (vm_compute; reflexivity). assert (I : B2R (interpolate_1d x f0 b f0 fhalf) = B2R f0) by (assert (Q : feq (interpolate_1d x f0 b f0 fhalf) f0 = true) by (vm_compute; reflexivity); destruct (feq_R (interpolate_1d x f0 b f0 fhalf) f0 FI F0) as [E|E]; [exact E|discriminate Q]). rewrite I. unfold plain, between, line_at. rewrite VX, VB, V0, VH. split; [split; [assumption|rewrite Rabs_R0; lra]|]. split; [split; [reflexivity|rewrite Rabs_pos_eq; lra]|]. split; [split; [assumption|rewrite Rabs_R0; lra]|]. split; [split; [assumption|rewrite Rabs_pos_eq; lra]|]. split; [reflexivity|]. split; [lra|]. split; [rewrite Rmin_left, Rmax_right; lra|].
  replace (0 - (0 + (/ 2 - 0) * ((h - 0) / (2 * h - 0)))) with (- / 4) by (field; lra). rewrite Rabs_Ropp, Rabs_pos_eq; lra.
Qed.
Print Assumptions C144_small_refuted.
