(** C146: edges of the plane against rectangles. *)
From Coq Require Import ZArith Reals Lra Lia Psatz Bool List.
From Flocq Require Import Core.
From Verif Require Import Base F64 F64Facts F64Arith F64Error IntervalSpec R1Model R1Proofs S1Proofs StuvError PredicatesError ClipModel ClipProofs LinProofs ClipReal ClipBridge PropsClip PropsClipEdge.
Import ListNotations.
Open Scope R_scope.

(** A rectangle that is not empty, with coordinates of at most 1 + 2^-20. *)
Definition plain_rect (r : r2) : Prop := plain (lo1 (rx r)) /\ plain (hi1 (rx r)) /\ plain (lo1 (ry r)) /\ plain (hi1 (ry r)) /\ B2R (lo1 (rx r)) <= B2R (hi1 (rx r)) /\ B2R (lo1 (ry r)) <= B2R (hi1 (ry r)).
(** In the rectangle, or within [d] of it in both coordinates. *)
Definition near_rect (d : R) (r : r2) (x y : R) : Prop := B2R (lo1 (rx r)) - d <= x <= B2R (hi1 (rx r)) + d /\ B2R (lo1 (ry r)) - d <= y <= B2R (hi1 (ry r)) + d.

Section Rising.
Variables a0 dx a1 dy l0 h0 l1 h1 : R.
Hypothesis X : 0 <= dx. Hypothesis Y : 0 <= dy. Hypothesis R0 : l0 <= h0. Hypothesis R1 : l1 <= h1.
Hypothesis B0 : a0 <= h0. Hypothesis B0' : l0 <= a0 + dx. Hypothesis B1 : a1 <= h1. Hypothesis B1' : l1 <= a1 + dy.
Hypothesis MX : dy * (l0 - a0) <= dx * (h1 - a1). Hypothesis MN : dx * (l1 - a1) <= dy * (h0 - a0).
Lemma rising : exists s, 0 <= s <= 1 /\ l0 <= a0 + s * dx <= h0 /\ l1 <= a1 + s * dy <= h1.
Proof.
  assert (P : exists p, p <= 1 /\ l0 - a0 <= p * dx /\ p * dx <= h0 - a0 /\ (0 <= p -> p * dy <= h1 - a1)).
  { destruct X as [X'|X']; [|exists 0; rewrite <- X' in *; repeat split; lra]. exists ((l0 - a0) / dx). assert (E : (l0 - a0) / dx * dx = l0 - a0) by (field; lra). split; [apply Rmult_le_reg_r with dx; lra|]. rewrite E. split; [lra|]. split; [lra|]. intros _. apply Rmult_le_reg_r with dx; [lra|]. replace ((l0 - a0) / dx * dy * dx) with (dy * (l0 - a0)) by (field; lra). lra. }
  assert (Q : exists p, p <= 1 /\ l1 - a1 <= p * dy /\ p * dy <= h1 - a1 /\ (0 <= p -> p * dx <= h0 - a0)).
  { destruct Y as [Y'|Y']; [|exists 0; rewrite <- Y' in *; repeat split; lra]. exists ((l1 - a1) / dy). assert (E : (l1 - a1) / dy * dy = l1 - a1) by (field; lra). split; [apply Rmult_le_reg_r with dy; lra|]. rewrite E. split; [lra|]. split; [lra|]. intros _. apply Rmult_le_reg_r with dy; [lra|]. replace ((l1 - a1) / dy * dx * dy) with (dx * (l1 - a1)) by (field; lra). lra. }
  destruct P as (p & P1 & P2 & P3 & P4). destruct Q as (q & Q1 & Q2 & Q3 & Q4). assert (MP : forall s t k, 0 <= k -> s <= t -> s * k <= t * k) by (intros; apply Rmult_le_compat_r; assumption).
  destruct (Rle_lt_dec p 0) as [Pz|Pz]; destruct (Rle_lt_dec q 0) as [Qz|Qz].
  - exists 0. pose proof (MP p 0 dx X Pz). pose proof (MP q 0 dy Y Qz). lra.
  - exists q. pose proof (MP p q dx X ltac:(lra)). specialize (Q4 ltac:(lra)). lra.
  - exists p. pose proof (MP q p dy Y ltac:(lra)). specialize (P4 ltac:(lra)). lra.
  - specialize (P4 ltac:(lra)). specialize (Q4 ltac:(lra)). destruct (Rle_lt_dec p q) as [L|L]; [exists q; pose proof (MP p q dx X L)|exists p; pose proof (MP q p dy Y ltac:(lra))]; lra.
Qed.
End Rising.
(* the line through a, with the normal (n0, n1), between the corners of the rectangle *)
Lemma straddle a0 b0 a1 b1 l0 h0 l1 h1 : l0 <= h0 -> l1 <= h1 -> Rmin a0 b0 <= h0 -> l0 <= Rmax a0 b0 -> Rmin a1 b1 <= h1 -> l1 <= Rmax a1 b1 ->
  let n0 := a1 - b1 in let n1 := b0 - a0 in
  0 <= n0 * ((if Rle_dec 0 n0 then h0 else l0) - a0) + n1 * ((if Rle_dec 0 n1 then h1 else l1) - a1) ->
  n0 * ((if Rle_dec 0 n0 then l0 else h0) - a0) + n1 * ((if Rle_dec 0 n1 then l1 else h1) - a1) <= 0 ->
  exists s, 0 <= s <= 1 /\ l0 <= a0 + s * (b0 - a0) <= h0 /\ l1 <= a1 + s * (b1 - a1) <= h1.
Proof.
  intros R0 R1 B0 B0' B1 B1' n0 n1. unfold n0, n1, Rmin, Rmax in *. intros MX MN. repeat destruct Rle_dec; try lra.
  all: first [destruct (rising a0 (b0 - a0) (- a1) (a1 - b1) l0 h0 (- h1) (- l1)) as (s & S & P & Q); [lra..|]; exists s; split; [exact S|split; lra]
    |destruct (rising a0 (b0 - a0) a1 (b1 - a1) l0 h0 l1 h1) as (s & S & P & Q); [lra..|]; exists s; split; [exact S|split; lra]
    |destruct (rising (- a0) (a0 - b0) (- a1) (a1 - b1) (- h0) (- l0) (- h1) (- l1)) as (s & S & P & Q); [lra..|]; exists s; split; [exact S|split; lra]
    |destruct (rising (- a0) (a0 - b0) a1 (b1 - a1) (- h0) (- l0) l1 h1) as (s & S & P & Q); [lra..|]; exists s; split; [exact S|split; lra]].
Qed.

Lemma term_err n N w W : Rabs (n - N) <= u * Rabs N -> Rabs (w - W) <= u * Rabs W -> Rabs W <= 21 / 10 -> Rabs (rnd (n * w) - N * W) <= 7 * u * Rabs N + h.
Proof.
  intros A B C. destruct (factor _ _ A) as (e1 & E1 & ->). destruct (factor _ _ B) as (e2 & E2 & ->). destruct (factor_rnd (N * (1 + e1) * (W * (1 + e2)))) as (e3 & t & E3 & T & ->).
  assert (M1 : Rabs ((1 + e1) - 1) <= u) by (replace (1 + e1 - 1) with e1 by ring; exact E1). pose proof (grow _ _ u ltac:(lra) M1 E2) as M2. pose proof (grow _ _ (u + 101 / 100 * u) ltac:(lra) M2 E3) as M3.
  replace (N * (1 + e1) * (W * (1 + e2)) * (1 + e3) + t - N * W) with (N * (W * ((1 + e1) * (1 + e2) * (1 + e3) - 1)) + t) by ring. eapply Rle_trans; [apply Rabs_triang|]. apply Rplus_le_compat; [|exact T]. rewrite !Rabs_mult, (Rmult_comm (7 * u)). apply Rmult_le_compat_l; [apply Rabs_pos|]. eapply Rle_trans; [apply Rmult_le_compat; [apply Rabs_pos|apply Rabs_pos|exact C|exact M3]|]. lra.
Qed.
Lemma rnd_is_fmt x : fmt (rnd x). Proof. apply generic_format_round; [apply FLT_exp_valid; reflexivity|apply valid_rnd_N]. Qed.
Lemma dot_err n0 N0 w0 W0 n1 N1 w1 W1 : Rabs (n0 - N0) <= u * Rabs N0 -> Rabs (w0 - W0) <= u * Rabs W0 -> Rabs W0 <= 21 / 10 -> Rabs (n1 - N1) <= u * Rabs N1 -> Rabs (w1 - W1) <= u * Rabs W1 -> Rabs W1 <= 21 / 10 -> far_gap <= Rabs N0 + Rabs N1 ->
  Rabs (rnd (rnd (n0 * w0) + rnd (n1 * w1)) - (N0 * W0 + N1 * W1)) <= 16 * u * (Rabs N0 + Rabs N1).
Proof.
  intros A B C A' B' C' G. pose proof (term_err _ _ _ _ A B C) as T0. pose proof (term_err _ _ _ _ A' B' C') as T1. pose proof (plus_rel _ _ (rnd_is_fmt (n0 * w0)) (rnd_is_fmt (n1 * w1))) as P. set (p := rnd (n0 * w0)) in *. set (q := rnd (n1 * w1)) in *.
  assert (Z0 : Rabs (N0 * W0) <= 21 / 10 * Rabs N0) by (rewrite Rabs_mult, Rmult_comm; apply Rmult_le_compat_r; [apply Rabs_pos|exact C]). assert (Z1 : Rabs (N1 * W1) <= 21 / 10 * Rabs N1) by (rewrite Rabs_mult, Rmult_comm; apply Rmult_le_compat_r; [apply Rabs_pos|exact C']).
  assert (HS : h <= / 1267650600228229401496703205376 * far_gap). { unfold h. change (/ 1267650600228229401496703205376) with (bpow radix2 (-100)). rewrite <- bpow_plus. apply bpow_le. lia. } pose proof (Rabs_pos N0). pose proof (Rabs_pos N1).
  assert (PQ : Rabs (p + q) <= 3 * (Rabs N0 + Rabs N1)) by (apply Rabs_le_inv in T0, T1, Z0, Z1; apply Rabs_le; lra). apply Rabs_le_inv in T0, T1, P. apply Rabs_le. lra.
Qed.
Lemma plain_sub (x y : f64) : plain x -> plain y -> finite (fsub x y) /\ B2R (fsub x y) = rnd (B2R x - B2R y) /\ Rabs (B2R (fsub x y)) <= bpow radix2 2 /\ Rabs (B2R (fsub x y) - (B2R x - B2R y)) <= u * Rabs (B2R x - B2R y) /\ Rabs (B2R x - B2R y) <= 21 / 10.
Proof.
  intros X Y. apply plain_M in X as [FX MX]. apply plain_M in Y as [FY MY]. apply Rabs_le_inv in MX, MY. assert (M : Rabs (B2R x - B2R y) <= 21 / 10) by (apply Rabs_le; lra). destruct (result_bpow _ _ 2 (fsub_result x y FX FY) ltac:(lia)) as (F & V & B); [change (bpow radix2 2) with 4; lra|]. split; [exact F|]. split; [exact V|]. rewrite V. split; [exact B|]. split; [apply minus_rel; apply fmt_B2R|exact M].
Qed.
Definition normal0 (a b : pt2) : R := B2R (py a) - B2R (py b).
Definition normal1 (a b : pt2) : R := B2R (px b) - B2R (px a).
Lemma edge_dot a b v : plain_edge a b -> plain (px v) -> plain (py v) -> let d := pt2_dot (pt2_ortho (pt2_sub b a)) (pt2_sub v a) in
  finite d /\ Rabs (B2R d - (normal0 a b * (B2R (px v) - B2R (px a)) + normal1 a b * (B2R (py v) - B2R (py a)))) <= 16 * u * (Rabs (normal0 a b) + Rabs (normal1 a b)).
Proof.
  intros (A0 & A1 & B0 & B1 & S0 & S1) V0 V1 d. unfold d, pt2_dot, pt2_ortho, pt2_sub. cbn [px py].
  destruct (plain_sub _ _ B1 A1) as (F0 & R0 & G0 & E0 & _). destruct (plain_sub _ _ B0 A0) as (F1 & R1 & G1 & E1 & _). destruct (plain_sub _ _ V0 A0) as (F2 & R2 & G2 & E2 & M2). destruct (plain_sub _ _ V1 A1) as (F3 & R3 & G3 & E3 & M3). destruct (fneg_val _ F0) as [FN VN].
  set (n0 := fneg (fsub (py b) (py a))) in *. set (n1 := fsub (px b) (px a)) in *. set (w0 := fsub (px v) (px a)) in *. set (w1 := fsub (py v) (py a)) in *.
  assert (GN : Rabs (B2R n0) <= bpow radix2 2) by (rewrite VN, Rabs_Ropp; exact G0).
  assert (PR : forall x y : f64, finite x -> finite y -> Rabs (B2R x) <= bpow radix2 2 -> Rabs (B2R y) <= bpow radix2 2 -> finite (fmul x y) /\ B2R (fmul x y) = rnd (B2R x * B2R y) /\ Rabs (rnd (B2R x * B2R y)) <= bpow radix2 4).
  { intros x y Fx Fy X Y. apply (result_bpow _ _ 4 (fmul_result x y Fx Fy) ltac:(lia)). rewrite Rabs_mult. replace (bpow radix2 4) with (bpow radix2 2 * bpow radix2 2) by (rewrite <- bpow_plus; reflexivity). apply Rmult_le_compat; auto using Rabs_pos. }
  destruct (PR n0 w0 FN F2 GN G2) as (FP & VP & BP). destruct (PR n1 w1 F1 F3 G1 G3) as (FQ & VQ & BQ). rewrite <- VP in BP. rewrite <- VQ in BQ.
  destruct (result_bpow _ _ 5 (fadd_result _ _ FP FQ) ltac:(lia)) as (FD & VD & _); [eapply Rle_trans; [apply Rabs_triang|]; change (bpow radix2 5) with 32; change (bpow radix2 4) with 16 in BP, BQ; lra|]. split; [exact FD|]. rewrite VD, VP, VQ.
  assert (EN : Rabs (B2R n0 - normal0 a b) <= u * Rabs (normal0 a b)). { unfold normal0. rewrite VN. rewrite <- (Rabs_Ropp (B2R (py a) - B2R (py b))), <- Rabs_Ropp. replace (- (B2R (py a) - B2R (py b))) with (B2R (py b) - B2R (py a)) by ring. replace (- (- B2R (fsub (py b) (py a)) - (B2R (py a) - B2R (py b)))) with (B2R (fsub (py b) (py a)) - (B2R (py b) - B2R (py a))) by ring. exact E0. }
  fold (normal1 a b) in E1. assert (Z : forall x y, Rabs (x - y) <= u * Rabs y -> y = 0 -> x = 0) by (intros x y H ->; rewrite Rabs_R0 in H; destruct (Req_dec (x - 0) 0) as [K|K]; [lra|pose proof (Rabs_pos_lt _ K); lra]).
  destruct (Req_dec (normal0 a b) 0) as [N0|N0]; destruct (Req_dec (normal1 a b) 0) as [N1|N1].
  - rewrite (Z _ _ EN N0), (Z _ _ E1 N1), N0, N1, !Rmult_0_l, rnd_0, Rplus_0_r, rnd_0, Rminus_diag_eq, Rabs_R0 by reflexivity. lra.
  - apply dot_err; auto. apply apart_spread in S0 as [S0|S0]; [unfold normal1 in N1; lra|]. pose proof (Rabs_pos (normal0 a b)). unfold normal1. lra.
  - apply dot_err; auto. apply apart_spread in S1 as [S1|S1]; [unfold normal0 in N0; lra|]. pose proof (Rabs_pos (normal1 a b)). unfold normal0. rewrite (Rabs_minus_sym (B2R (py a))). lra.
  - apply dot_err; auto. apply apart_spread in S1 as [S1|S1]; [unfold normal0 in N0; lra|]. pose proof (Rabs_pos (normal1 a b)). unfold normal0. rewrite (Rabs_minus_sym (B2R (py a))). lra.
Qed.
Lemma sign_rel x y : Rabs (x - y) <= u * Rabs y -> 0 <= x <-> 0 <= y.
Proof. intros H. destruct (Rle_lt_dec 0 y) as [C|C]; [rewrite (Rabs_pos_eq y) in H by lra|rewrite (Rabs_left y) in H by lra]; apply Rabs_le_inv in H; split; intros; lra. Qed.
Lemma normal_sign a b : plain_edge a b -> let n := pt2_ortho (pt2_sub b a) in (fge (px n) f0 = if Rle_dec 0 (normal0 a b) then true else false) /\ (fge (py n) f0 = if Rle_dec 0 (normal1 a b) then true else false).
Proof.
  intros (A0 & A1 & B0 & B1 & _ & _) n. unfold n, pt2_ortho, pt2_sub, fge. cbn [px py]. destruct (plain_sub _ _ B1 A1) as (F0 & R0 & _ & E0 & _). destruct (plain_sub _ _ B0 A0) as (F1 & R1 & _ & E1 & _). destruct (fneg_val _ F0) as [FN VN]. destruct f0_val as [FZ VZ]. split.
  - assert (E : Rabs (B2R (fneg (fsub (py b) (py a))) - normal0 a b) <= u * Rabs (normal0 a b)). { unfold normal0. rewrite VN. rewrite <- (Rabs_Ropp (B2R (py a) - B2R (py b))), <- Rabs_Ropp. replace (- (B2R (py a) - B2R (py b))) with (B2R (py b) - B2R (py a)) by ring. replace (- (- B2R (fsub (py b) (py a)) - (B2R (py a) - B2R (py b)))) with (B2R (fsub (py b) (py a)) - (B2R (py b) - B2R (py a))) by ring. exact E0. }
    apply sign_rel in E. destruct (fle_R f0 _ FZ FN) as [L|L]; rewrite VZ in L; destruct Rle_dec; tauto.
  - apply sign_rel in E1. destruct (fle_R f0 _ FZ F1) as [L|L]; rewrite VZ in L; destruct Rle_dec; unfold normal1 in *; tauto.
Qed.
Lemma meet_vals i o l h l' h' : vals i l h -> vals o l' h' -> l <= h -> l' <= h' -> r1_intersects i o = true <-> l <= h' /\ l' <= h.
Proof.
  intros (FL & FH & VL & VH) (FL' & FH' & VL' & VH') A B. unfold r1_intersects. destruct (fle_R _ _ FL FL') as [C|C]; rewrite VL, VL' in C; rewrite andb_true_iff.
  - destruct (fle_R _ _ FL' FH) as [D|D]; destruct (fle_R _ _ FL' FH') as [E|E]; rewrite ?VL', ?VH, ?VH' in *; split; intros [? ?]; try discriminate; split; auto; lra.
  - destruct (fle_R _ _ FL FH') as [D|D]; destruct (fle_R _ _ FL FH) as [E|E]; rewrite ?VL, ?VH, ?VH' in *; split; intros [? ?]; try discriminate; split; auto; lra.
Qed.
(* the test, on real numbers: corners of the rectangle on both sides of the line *)
Lemma test_spec a b r : plain_edge a b -> plain_rect r ->
  let A0 := B2R (px a) in let A1 := B2R (py a) in let n0 := normal0 a b in let n1 := normal1 a b in let L0 := B2R (lo1 (rx r)) in let H0 := B2R (hi1 (rx r)) in let L1 := B2R (lo1 (ry r)) in let H1 := B2R (hi1 (ry r)) in
  exists mx mn, Rabs (mx - (n0 * ((if Rle_dec 0 n0 then H0 else L0) - A0) + n1 * ((if Rle_dec 0 n1 then H1 else L1) - A1))) <= 16 * u * (Rabs n0 + Rabs n1) /\
    Rabs (mn - (n0 * ((if Rle_dec 0 n0 then L0 else H0) - A0) + n1 * ((if Rle_dec 0 n1 then L1 else H1) - A1))) <= 16 * u * (Rabs n0 + Rabs n1) /\
    (edge_intersects_rect a b r = true <-> (L0 <= Rmax A0 (B2R (px b)) /\ Rmin A0 (B2R (px b)) <= H0) /\ (L1 <= Rmax A1 (B2R (py b)) /\ Rmin A1 (B2R (py b)) <= H1) /\ 0 <= mx /\ mn <= 0).
Proof.
  intros P (PL0 & PH0 & PL1 & PH1 & R0 & R1). cbv zeta. destruct (normal_sign a b P) as [S0 S1]. pose proof P as ((FA0 & _) & (FA1 & _) & (FB0 & _) & (FB1 & _) & _). destruct (clip_box a b FA0 FA1 FB0 FB1) as [VX VY]. cbv zeta in *. destruct f0_val as [FZ VZ].
  assert (MM : forall x y, Rmin x y <= Rmax x y) by (intros x y; apply Rle_trans with x; [apply Rmin_l|apply Rmax_l]).
  assert (I0 := meet_vals (rx r) _ _ _ _ _ (conj (proj1 PL0) (conj (proj1 PH0) (conj eq_refl eq_refl))) VX R0 (MM _ _)). assert (I1 := meet_vals (ry r) _ _ _ _ _ (conj (proj1 PL1) (conj (proj1 PH1) (conj eq_refl eq_refl))) VY R1 (MM _ _)).
  unfold edge_intersects_rect. rewrite S0, S1. set (i := if (if Rle_dec 0 (normal0 a b) then true else false) then 1%Z else 0%Z). set (j := if (if Rle_dec 0 (normal1 a b) then true else false) then 1%Z else 0%Z). set (v := r2_vertex_ij r i j). set (w := r2_vertex_ij r (1 - i) (1 - j)).
  assert (PV : plain (px v) /\ plain (py v) /\ plain (px w) /\ plain (py w)) by (unfold v, w, i, j; repeat destruct Rle_dec; cbn; auto). destruct PV as (PV0 & PV1 & PW0 & PW1).
  destruct (edge_dot a b v P PV0 PV1) as [FD ED]. destruct (edge_dot a b w P PW0 PW1) as [FE EE]. cbv zeta in *. exists (B2R (pt2_dot (pt2_ortho (pt2_sub b a)) (pt2_sub v a))), (B2R (pt2_dot (pt2_ortho (pt2_sub b a)) (pt2_sub w a))).
  split; [revert ED; unfold v, i, j; repeat destruct Rle_dec; cbn; auto|]. split; [revert EE; unfold w, i, j; repeat destruct Rle_dec; cbn; auto|].
  unfold r2_intersects. destruct (r1_intersects (rx r) (rx (r2_from_points [a; b]))); destruct (r1_intersects (ry r) (ry (r2_from_points [a; b]))); cbn [andb negb]; try (split; [discriminate|]; intros (K0 & K1 & _); first [apply I0 in K0; discriminate|apply I1 in K1; discriminate]).
  unfold fge. rewrite andb_true_iff. destruct (fle_R f0 _ FZ FD) as [D|D]; destruct (fle_R _ f0 FE FZ) as [E|E]; rewrite VZ in D, E; split; intros H; try (destruct H; discriminate); try tauto.
Qed.
(** Edges that are reported to meet the rectangle have a point within 2^-49 of it. *)
Theorem C146_hit : forall a b r, plain_edge a b -> plain_rect r -> edge_intersects_rect a b r = true -> exists x y, on_edge a b x y /\ near_rect (/ 2 ^ 49) r x y.
Proof.
  intros a b r P Q T. pose proof (test_spec a b r P Q) as TT. cbv zeta in TT. destruct TT as (mx & mn & EM & EN & TS). apply TS in T. destruct T as ((X1 & X2) & (Y1 & Y2) & TM & TN). destruct Q as (_ & _ & _ & _ & R0 & R1). replace (/ 2 ^ 49) with (16 * u) by (simpl; field). unfold near_rect. apply Rabs_le_inv in EM, EN.
  destruct (straddle (B2R (px a)) (B2R (px b)) (B2R (py a)) (B2R (py b)) (B2R (lo1 (rx r)) - 16 * u) (B2R (hi1 (rx r)) + 16 * u) (B2R (lo1 (ry r)) - 16 * u) (B2R (hi1 (ry r)) + 16 * u)) as (s & S & PX & PY); try lra.
  - fold (normal0 a b) (normal1 a b). revert EM. unfold Rabs. repeat destruct Rle_dec; repeat destruct Rcase_abs; intros; lra.
  - fold (normal0 a b) (normal1 a b). revert EN. unfold Rabs. repeat destruct Rle_dec; repeat destruct Rcase_abs; intros; lra.
  - eexists; eexists. split; [exists s; split; [exact S|split; reflexivity]|]. auto.
Qed.
Print Assumptions C146_hit.
(** Edges with a point that is more than 2^-49 inside of it are reported. *)
Theorem C146_deep : forall a b r, plain_edge a b -> plain_rect r -> (exists x y, on_edge a b x y /\ deep (/ 2 ^ 49) r x y) -> edge_intersects_rect a b r = true.
Proof.
  intros a b r P Q (x & y & (s & S & X & Y) & D). pose proof (test_spec a b r P Q) as TT. cbv zeta in TT. destruct TT as (mx & mn & EM & EN & TS). apply TS. clear TS. unfold deep in D. replace (/ 2 ^ 49) with (16 * u) in D by (simpl; field). pose proof (xs_hull (the_prob a b r) s S) as HX. pose proof (ys_hull (the_prob a b r) s S) as HY. unfold xs, m0, M0 in HX. unfold ys, m1, M1 in HY. cbn in HX, HY. rewrite <- X in HX. rewrite <- Y in HY. split; [lra|]. split; [lra|].
  assert (OL : normal0 a b * (x - B2R (px a)) + normal1 a b * (y - B2R (py a)) = 0) by (rewrite X, Y; unfold normal0, normal1; ring). set (n0 := normal0 a b) in *. set (n1 := normal1 a b) in *. clearbody n0 n1.
  assert (PO : forall k t, 0 <= k -> 16 * u <= t -> 16 * u * k <= k * t) by (intros k t K T; rewrite (Rmult_comm (16 * u)); apply Rmult_le_compat_l; assumption). apply Rabs_le_inv in EM, EN. destruct D as [D0 D1].
  split.
  - revert EM. unfold Rabs. destruct (Rle_dec 0 n0) as [K|K]; destruct (Rle_dec 0 n1) as [J|J]; repeat destruct Rcase_abs; intros EM; try lra.
    + pose proof (PO n0 (B2R (hi1 (rx r)) - x) K ltac:(lra)). pose proof (PO n1 (B2R (hi1 (ry r)) - y) J ltac:(lra)). lra.
    + pose proof (PO n0 (B2R (hi1 (rx r)) - x) K ltac:(lra)). pose proof (PO (- n1) (y - B2R (lo1 (ry r))) ltac:(lra) ltac:(lra)). lra.
    + pose proof (PO (- n0) (x - B2R (lo1 (rx r))) ltac:(lra) ltac:(lra)). pose proof (PO n1 (B2R (hi1 (ry r)) - y) J ltac:(lra)). lra.
    + pose proof (PO (- n0) (x - B2R (lo1 (rx r))) ltac:(lra) ltac:(lra)). pose proof (PO (- n1) (y - B2R (lo1 (ry r))) ltac:(lra) ltac:(lra)). lra.
  - revert EN. unfold Rabs. destruct (Rle_dec 0 n0) as [K|K]; destruct (Rle_dec 0 n1) as [J|J]; repeat destruct Rcase_abs; intros EN; try lra.
    + pose proof (PO n0 (x - B2R (lo1 (rx r))) K ltac:(lra)). pose proof (PO n1 (y - B2R (lo1 (ry r))) J ltac:(lra)). lra.
    + pose proof (PO n0 (x - B2R (lo1 (rx r))) K ltac:(lra)). pose proof (PO (- n1) (B2R (hi1 (ry r)) - y) ltac:(lra) ltac:(lra)). lra.
    + pose proof (PO (- n0) (B2R (hi1 (rx r)) - x) ltac:(lra) ltac:(lra)). pose proof (PO n1 (y - B2R (lo1 (ry r))) J ltac:(lra)). lra.
    + pose proof (PO (- n0) (B2R (hi1 (rx r)) - x) ltac:(lra) ltac:(lra)). pose proof (PO (- n1) (B2R (hi1 (ry r)) - y) ltac:(lra) ltac:(lra)). lra.
Qed.
Print Assumptions C146_deep.
(* the diagonal from (-1, 1) to (1, -1) crosses [0, 1] x [-1/2, 1] and passes [1/2, 1] x [1/2, 1] *)
Example C146_example : let a := P2 (fneg f1) f1 in let b := P2 f1 (fneg f1) in let c := R2 (R1 f0 f1) (R1 (fneg fhalf) f1) in let d := R2 (R1 fhalf f1) (R1 fhalf f1) in
  plain_edge a b /\ plain_rect c /\ plain_rect d /\ (exists x y, on_edge a b x y /\ deep (/ 2 ^ 49) c x y) /\ edge_intersects_rect a b c = true /\ edge_intersects_rect a b d = false.
Proof.
  intros a b c d. destruct C145_example as (PE & _). destruct C144_example as (P0 & P1 & _). destruct f0_val as [F0 V0]. destruct StuvError.f1_val as [F1 V1]. destruct StuvError.fhalf_val as [FH VH]. destruct (fneg_val fhalf FH) as [FN VN]. destruct (fneg_val f1 F1) as [_ VM]. assert (PW : 0 < / 2 ^ 20) by (apply Rinv_0_lt_compat; simpl; lra).
  assert (PH : plain fhalf) by (split; [exact FH|rewrite VH, Rabs_pos_eq; lra]). assert (PN : plain (fneg fhalf)) by (split; [exact FN|rewrite VN, VH, Rabs_left; lra]).
  split; [exact PE|]. split; [repeat (split; [assumption|]); cbn [rx ry lo1 hi1 c]; rewrite V0, V1, VN, VH; lra|]. split; [repeat (split; [assumption|]); cbn [rx ry lo1 hi1 d]; rewrite V1, VH; lra|]. split; [|split; vm_compute; reflexivity].
  exists (/ 4), (- / 4). split; [exists (5 / 8); unfold a, b; cbn [px py]; rewrite VM, V1; lra|]. unfold deep, c. cbn [rx ry lo1 hi1]. rewrite V0, V1, VN, VH. assert (/ 2 ^ 49 <= / 8) by (apply Rinv_le_contravar; simpl; lra). lra.
Qed.
