(** The computed bounds of clipping are those of ClipReal.v. *)
From Coq Require Import ZArith Reals Lra Lia Psatz Bool List.
From Flocq Require Import Core.
From Verif Require Import Base F64 F64Facts F64Arith F64Error IntervalSpec R1Model R1Proofs S1Proofs StuvError PredicatesError ClipModel ClipProofs LinProofs ClipReal.
Import ListNotations.
Open Scope R_scope.

Definition vals (b : r1) (l h : R) : Prop := finite (lo1 b) /\ finite (hi1 b) /\ B2R (lo1 b) = l /\ B2R (hi1 b) = h.
Lemma vals_add (x y : f64) : finite x -> finite y -> vals (r1_add (r1_from_point x) y) (Rmin (B2R x) (B2R y)) (Rmax (B2R x) (B2R y)).
Proof.
  intros Fx Fy. unfold r1_add, r1_from_point, r1_is_empty, fgt. cbn [lo1 hi1]. destruct (flt_R x x Fx Fx) as [L|_]; [lra|]. destruct (flt_R y x Fy Fx) as [L|L]; [|destruct (flt_R x y Fx Fy) as [K|K]]; unfold vals; cbn [lo1 hi1]; repeat split; try assumption; unfold Rmin, Rmax; destruct Rle_dec; lra.
Qed.
Lemma clip_box a b : finite (px a) -> finite (py a) -> finite (px b) -> finite (py b) -> let r := r2_from_points [a; b] in vals (rx r) (Rmin (B2R (px a)) (B2R (px b))) (Rmax (B2R (px a)) (B2R (px b))) /\ vals (ry r) (Rmin (B2R (py a)) (B2R (py b))) (Rmax (B2R (py a)) (B2R (py b))).
Proof. intros A B C D r. split; apply vals_add; assumption. Qed.

Section Bridge.
Variables a0 b0 a1 b1 : f64.
Hypothesis Fa0 : finite a0. Hypothesis Fb0 : finite b0. Hypothesis Fa1 : finite a1. Hypothesis Fb1 : finite b1.
Hypothesis Ma0 : Rabs (B2R a0) <= Mx. Hypothesis Mb0 : Rabs (B2R b0) <= Mx. Hypothesis Ma1 : Rabs (B2R a1) <= Mx. Hypothesis Mb1 : Rabs (B2R b1) <= Mx.
Hypothesis S0 : spread (B2R a0) (B2R b0).
Let A0 := B2R a0. Let B0 := B2R b0. Let A1 := B2R a1. Let B1 := B2R b1.
Lemma interp_lin (c : f64) l h : finite c -> Rmin A0 B0 <= l -> h <= Rmax A0 B0 -> l <= B2R c <= h -> l < h -> finite (interpolate_1d c a0 b0 a1 b1) /\ B2R (interpolate_1d c a0 b0 a1 b1) = lin (B2R c) A0 B0 A1 B1.
Proof.
  intros Fc L H C N. assert (MC : Rabs (B2R c) <= Mx). { apply Rabs_le_inv in Ma0, Mb0. change (B2R a0) with A0 in Ma0. change (B2R b0) with B0 in Mb0. revert L H. unfold Rmin, Rmax. destruct Rle_dec; intros; apply Rabs_le; lra. }
  destruct (interp_val c a0 b0 a1 b1 Fc Fa0 Fb0 Fa1 Fb1 Ma1 Mb1 Ma0 Mb0 MC S0) as [F V]. split; [exact F|]. rewrite V. destruct Req_EM_T as [E|_]; [|reflexivity]. exfalso. change (A0 = B0) in E. revert L H. rewrite E. unfold Rmin, Rmax. destruct Rle_dec; lra.
Qed.
Variables (n0 n1 clip : r1) (l0 h0 l1 h1 : R).
Hypothesis V0 : vals n0 l0 h0. Hypothesis V1 : vals n1 l1 h1.
Hypothesis H0 : Rmin A0 B0 <= l0. Hypothesis H0' : h0 <= Rmax A0 B0.
Lemma below_pos : finite (lo1 clip) -> let r := clip_below a0 b0 n0 a1 b1 n1 false clip in
  match rb A0 B0 A1 B1 (B2R (lo1 clip)) l0 h0 l1 h1 with Some (k0, k1) => vals (fst (fst r)) k0 h0 /\ vals (snd (fst r)) k1 h1 /\ snd r = true | None => snd r = false end.
Proof.
  intros Fc r. unfold r, clip_below, rb. destruct V0 as (FL0 & FH0 & VL0 & VH0). destruct V1 as (FL1 & FH1 & VL1 & VH1).
  destruct (flt_R _ _ FL0 Fc) as [L|L]; rewrite VL0 in L; destruct Rlt_dec as [L'|L']; try lra; [|cbn; repeat split; assumption].
  destruct (flt_R _ _ FH0 Fc) as [K|K]; rewrite VH0 in K; destruct Rlt_dec as [K'|K']; try lra; [reflexivity|].
  destruct (interp_lin (lo1 clip) l0 h0 Fc H0 H0' ltac:(lra) ltac:(lra)) as [FI VI]. unfold update_endpoint. cbn [negb]. cbv zeta.
  destruct (flt_R _ _ FH1 FI) as [J|J]; rewrite VI, VH1 in J; destruct Rlt_dec as [J'|J']; try lra; [reflexivity|].
  destruct (flt_R _ _ FL1 FI) as [Q|Q]; rewrite VI, VL1 in Q; destruct Rlt_dec as [Q'|Q']; try lra; cbn; repeat split; assumption.
Qed.
Lemma below_neg : finite (lo1 clip) -> let r := clip_below a0 b0 n0 a1 b1 n1 true clip in
  match rb A0 B0 (- A1) (- B1) (B2R (lo1 clip)) l0 h0 (- h1) (- l1) with Some (k0, k1) => vals (fst (fst r)) k0 h0 /\ vals (snd (fst r)) l1 (- k1) /\ snd r = true | None => snd r = false end.
Proof.
  intros Fc r. unfold r, clip_below, rb. destruct V0 as (FL0 & FH0 & VL0 & VH0). destruct V1 as (FL1 & FH1 & VL1 & VH1). rewrite lin_opp.
  destruct (flt_R _ _ FL0 Fc) as [L|L]; rewrite VL0 in L; destruct Rlt_dec as [L'|L']; try lra; [|cbn; rewrite Ropp_involutive; repeat split; assumption].
  destruct (flt_R _ _ FH0 Fc) as [K|K]; rewrite VH0 in K; destruct Rlt_dec as [K'|K']; try lra; [reflexivity|].
  destruct (interp_lin (lo1 clip) l0 h0 Fc H0 H0' ltac:(lra) ltac:(lra)) as [FI VI]. unfold update_endpoint, fgt. cbn [negb]. cbv zeta.
  destruct (flt_R _ _ FI FL1) as [J|J]; rewrite VI, VL1 in J; destruct Rlt_dec as [J'|J']; try lra; [reflexivity|].
  destruct (flt_R _ _ FI FH1) as [Q|Q]; rewrite VI, VH1 in Q; destruct Rlt_dec as [Q'|Q']; try lra; cbn; rewrite Ropp_involutive; repeat split; assumption.
Qed.
Lemma above_pos : finite (hi1 clip) -> let r := clip_above a0 b0 n0 a1 b1 n1 false clip in
  match rb (- A0) (- B0) (- A1) (- B1) (- B2R (hi1 clip)) (- h0) (- l0) (- h1) (- l1) with Some (k0, k1) => vals (fst (fst r)) l0 (- k0) /\ vals (snd (fst r)) l1 (- k1) /\ snd r = true | None => snd r = false end.
Proof.
  intros Fc r. unfold r, clip_above, rb, fgt. destruct V0 as (FL0 & FH0 & VL0 & VH0). destruct V1 as (FL1 & FH1 & VL1 & VH1). rewrite lin_neg, lin_opp.
  destruct (flt_R _ _ Fc FH0) as [L|L]; rewrite VH0 in L; destruct Rlt_dec as [L'|L']; try lra; [|cbn; rewrite !Ropp_involutive; repeat split; assumption].
  destruct (flt_R _ _ Fc FL0) as [K|K]; rewrite VL0 in K; destruct Rlt_dec as [K'|K']; try lra; [reflexivity|].
  destruct (interp_lin (hi1 clip) l0 h0 Fc H0 H0' ltac:(lra) ltac:(lra)) as [FI VI]. unfold update_endpoint, fgt. cbn [negb]. cbv zeta.
  destruct (flt_R _ _ FI FL1) as [J|J]; rewrite VI, VL1 in J; destruct Rlt_dec as [J'|J']; try lra; [reflexivity|].
  destruct (flt_R _ _ FI FH1) as [Q|Q]; rewrite VI, VH1 in Q; destruct Rlt_dec as [Q'|Q']; try lra; cbn; rewrite !Ropp_involutive; repeat split; assumption.
Qed.
Lemma above_neg : finite (hi1 clip) -> let r := clip_above a0 b0 n0 a1 b1 n1 true clip in
  match rb (- A0) (- B0) A1 B1 (- B2R (hi1 clip)) (- h0) (- l0) l1 h1 with Some (k0, k1) => vals (fst (fst r)) l0 (- k0) /\ vals (snd (fst r)) k1 h1 /\ snd r = true | None => snd r = false end.
Proof.
  intros Fc r. unfold r, clip_above, rb, fgt. destruct V0 as (FL0 & FH0 & VL0 & VH0). destruct V1 as (FL1 & FH1 & VL1 & VH1). rewrite lin_neg.
  destruct (flt_R _ _ Fc FH0) as [L|L]; rewrite VH0 in L; destruct Rlt_dec as [L'|L']; try lra; [|cbn; rewrite !Ropp_involutive; repeat split; assumption].
  destruct (flt_R _ _ Fc FL0) as [K|K]; rewrite VL0 in K; destruct Rlt_dec as [K'|K']; try lra; [reflexivity|].
  destruct (interp_lin (hi1 clip) l0 h0 Fc H0 H0' ltac:(lra) ltac:(lra)) as [FI VI]. unfold update_endpoint, fgt. cbn [negb]. cbv zeta.
  destruct (flt_R _ _ FH1 FI) as [J|J]; rewrite VI, VH1 in J; destruct Rlt_dec as [J'|J']; try lra; [reflexivity|].
  destruct (flt_R _ _ FL1 FI) as [Q|Q]; rewrite VI, VL1 in Q; destruct Rlt_dec as [Q'|Q']; try lra; cbn; rewrite !Ropp_involutive; repeat split; assumption.
Qed.
End Bridge.

Definition the_prob (a b : pt2) (c : r2) : prob := Prob (B2R (px a)) (B2R (px b)) (B2R (py a)) (B2R (py b)) (B2R (lo1 (rx c))) (B2R (hi1 (rx c))) (B2R (lo1 (ry c))) (B2R (hi1 (ry c))).
Record fits (a b : pt2) (c : r2) : Prop := Fits {
  f_a : (finite (px a) /\ Rabs (B2R (px a)) <= Mx) /\ (finite (py a) /\ Rabs (B2R (py a)) <= Mx);
  f_b : (finite (px b) /\ Rabs (B2R (px b)) <= Mx) /\ (finite (py b) /\ Rabs (B2R (py b)) <= Mx);
  f_x : spread (B2R (px a)) (B2R (px b)); f_y : spread (B2R (py a)) (B2R (py b));
  f_c : finite (lo1 (rx c)) /\ finite (hi1 (rx c)) /\ finite (lo1 (ry c)) /\ finite (hi1 (ry c)) }.
Lemma negp2 p : negp (negp p) = p. Proof. destruct p. unfold negp. cbn. rewrite !Ropp_involutive. reflexivity. Qed.
Lemma low1_high p l0 l1 : low1 p l0 l1 -> high1 (negp p) (- l0) (- l1). Proof. unfold high1. rewrite negp2, !Ropp_involutive. auto. Qed.
Lemma low_high p l0 l1 : low p l0 l1 -> high (negp p) (- l0) (- l1). Proof. unfold high. rewrite negp2, !Ropp_involutive. auto. Qed.
Lemma xs_neg p s : xs (negp p) s = - xs p s. Proof. unfold xs. cbn. ring. Qed.
Lemma ys_neg p s : ys (negp p) s = - ys p s. Proof. unfold ys. cbn. ring. Qed.
Lemma inner_neg p : inner p -> inner (negp p).
Proof. intros (s & S & X & Y). exists s. split; [exact S|]. rewrite xs_neg, ys_neg. cbn. lra. Qed.
Lemma start_low p : low1 p (m0 p) (m1 p). Proof. left. auto. Qed.
Lemma start_high p : high1 p (M0 p) (M1 p). Proof. left. rewrite m0_neg, m1_neg. auto. Qed.

(* the bound r has its lower left and upper right corner as in ClipReal.v, possibly mirrored *)
Definition clipped p (r : r2) (sy : bool) : Prop := exists l0 h0 l1 h1, vals (rx r) l0 h0 /\ (if sy then vals (ry r) (- h1) (- l1) else vals (ry r) l1 h1) /\
  low p l0 l1 /\ high p h0 h1 /\ cl0 p <= l0 <= h0 /\ h0 <= ch0 p /\ cl1 p <= l1 <= h1 /\ h1 <= ch1 p.

Lemma clip_pos a b c : fits a b c -> xorb (fgt (px a) (px b)) (fgt (py a) (py b)) = false -> good (the_prob a b c) ->
  match clip_edge_bound a b c (r2_from_points [a; b]) with (r, true) => clipped (the_prob a b c) r false | (_, false) => ~ inner (the_prob a b c) end.
Proof.
  intros [[[FA0 MA0] [FA1 MA1]] [[FB0 MB0] [FB1 MB1]] SX SY (FC0 & FC1 & FC2 & FC3)] NEG G. set (p := the_prob a b c) in *. pose proof (good_neg p G) as GN.
  destruct (clip_box a b FA0 FA1 FB0 FB1) as [VX VY]. cbv zeta in VX, VY. unfold clip_edge_bound. rewrite NEG. set (box := r2_from_points [a; b]) in *. change (vals (rx box) (m0 p) (M0 p)) in VX. change (vals (ry box) (m1 p) (M1 p)) in VY. clearbody box. unfold clip_bound_axis.
  (* left side *)
  pose proof (below_pos _ _ _ _ FA0 FB0 FA1 FB1 MA0 MB0 MA1 MB1 SX _ _ (rx c) _ _ _ _ VX VY (Rle_refl _) (Rle_refl _) FC0) as E1. cbv zeta in E1. pose proof (B0_ok p _ _ G (start_high p) (mM0 p) (mM1 p)) as O1. unfold p in O1 at 1 2 3 4 5. cbn [a0 b0 a1 b1 cl0 the_prob] in O1.
  destruct (clip_below (px a) (px b) (rx box) (py a) (py b) (ry box) false (rx c)) as [[x1 y1] ok1]. cbn [fst snd] in E1. destruct (rb _ _ _ _ _ _ _ _ _) as [[k0 k1]|]; [|subst ok1; exact O1]. destruct E1 as (VX1 & VY1 & ->). destruct O1 as (L1 & O10 & O11). pose proof (low_hull p _ _ G (or_introl L1)) as [HL0 HL1].
  (* right side *)
  pose proof (above_pos _ _ _ _ FA0 FB0 FA1 FB1 MA0 MB0 MA1 MB1 SX _ _ (rx c) _ _ _ _ VX1 VY1 (proj1 HL0) (Rle_refl _) FC1) as E2. cbv zeta in E2. pose proof (B0_ok (negp p) _ _ GN (low1_high p _ _ L1)) as O2. rewrite m0_neg, m1_neg in O2. specialize (O2 ltac:(lra) ltac:(lra)). unfold p in O2 at 1 2 3 4 5. cbn [a0 b0 a1 b1 cl0 the_prob negp] in O2. change (Rmax (B2R (px a)) (B2R (px b))) with (M0 p) in E2.
  destruct (clip_above (px a) (px b) x1 (py a) (py b) y1 false (rx c)) as [[x2 y2] ok2]. cbn [fst snd] in E2. destruct (rb _ _ _ _ _ _ _ _ _) as [[j0 j1]|]; [|subst ok2; intros I; apply O2, inner_neg, I]. destruct E2 as (VX2 & VY2 & ->). cbn [negb]. destruct O2 as (L2 & O20 & O21). assert (HI : high1 p (- j0) (- j1)) by (unfold high1; rewrite !Ropp_involutive; exact L2). pose proof (high_hull p _ _ G (or_introl HI)) as [HH0 HH1].
  (* lower side *)
  pose proof (below_pos _ _ _ _ FA1 FB1 FA0 FB0 MA1 MB1 MA0 MB0 SY _ _ (ry c) _ _ _ _ VY2 VX2 (proj1 HL1) (proj2 HH1) FC2) as E3. cbv zeta in E3. pose proof (B1_ok p _ _ _ _ G L1 (or_introl HI) ltac:(lra) ltac:(lra)) as O3. unfold p in O3 at 1 2 3 4 5. cbn [a0 b0 a1 b1 cl1 the_prob] in O3.
  destruct (clip_below (py a) (py b) y2 (px a) (px b) x2 false (ry c)) as [[y3 x3] ok3]. cbn [fst snd] in E3. destruct (rb _ _ _ _ _ _ _ _ _) as [[q1 q0]|]; [|subst ok3; exact O3]. destruct E3 as (VY3 & VX3 & ->). destruct O3 as (L3 & O30 & O31). pose proof (low_hull p _ _ G L3) as [HQ0 HQ1].
  (* upper side *)
  pose proof (above_pos _ _ _ _ FA1 FB1 FA0 FB0 MA1 MB1 MA0 MB0 SY _ _ (ry c) _ _ _ _ VY3 VX3 (proj1 HQ1) (proj2 HH1) FC3) as E4. cbv zeta in E4. pose proof (B1_ok (negp p) _ _ _ _ GN L2 (low_high p _ _ L3) ltac:(lra) ltac:(lra)) as O4. unfold p in O4 at 1 2 3 4 5. cbn [a0 b0 a1 b1 cl1 the_prob negp] in O4. rewrite !Ropp_involutive in E4.
  destruct (clip_above (py a) (py b) y3 (px a) (px b) x3 false (ry c)) as [[y4 x4] ok4]. cbn [fst snd] in E4. destruct (rb _ _ _ _ _ _ _ _ _) as [[r1 r0]|]; [|subst ok4; intros I; apply O4, inner_neg, I]. destruct E4 as (VY4 & VX4 & ->). destruct O4 as (L4 & O40 & O41). cbn [negb].
  exists q0, (- r0), q1, (- r1). cbn [rx ry]. split; [exact VX4|]. split; [exact VY4|]. split; [exact L3|]. split; [unfold high; rewrite !Ropp_involutive; exact L4|]. unfold p in O20, O41. cbn [cl0 cl1 negp the_prob] in O20, O41. unfold p. cbn [cl0 ch0 cl1 ch1 the_prob]. unfold p in O10, O31. cbn [cl0 cl1 the_prob] in O10, O31. cbn [ch0 ch1 the_prob] in O20, O41. repeat split; lra.
Qed.

Lemma m1_flip p : m1 (flip1 p) = - M1 p. Proof. unfold m1, M1. cbn. symmetry. apply Ropp_Rmax. Qed.
Lemma M1_flip p : M1 (flip1 p) = - m1 p. Proof. unfold m1, M1. cbn. symmetry. apply Ropp_Rmin. Qed.
Lemma clip_neg a b c : fits a b c -> xorb (fgt (px a) (px b)) (fgt (py a) (py b)) = true -> good (flip1 (the_prob a b c)) ->
  match clip_edge_bound a b c (r2_from_points [a; b]) with (r, true) => clipped (flip1 (the_prob a b c)) r true | (_, false) => ~ inner (flip1 (the_prob a b c)) end.
Proof.
  intros [[[FA0 MA0] [FA1 MA1]] [[FB0 MB0] [FB1 MB1]] SX SY (FC0 & FC1 & FC2 & FC3)] NEG G. set (o := the_prob a b c) in *. set (p := flip1 o) in *. pose proof (good_neg p G) as GN.
  destruct (clip_box a b FA0 FA1 FB0 FB1) as [VX VY]. cbv zeta in VX, VY. unfold clip_edge_bound. rewrite NEG. set (box := r2_from_points [a; b]) in *. change (vals (rx box) (m0 p) (M0 p)) in VX. change (vals (ry box) (m1 o) (M1 o)) in VY. clearbody box. unfold clip_bound_axis.
  pose proof (m1_flip o) as MF. pose proof (M1_flip o) as MG. fold p in MF, MG.
  (* left side *)
  pose proof (below_neg _ _ _ _ FA0 FB0 FA1 FB1 MA0 MB0 MA1 MB1 SX _ _ (rx c) _ _ _ _ VX VY (Rle_refl _) (Rle_refl _) FC0) as E1. cbv zeta in E1. rewrite <- MF, <- MG in E1. pose proof (B0_ok p _ _ G (start_high p) (mM0 p) (mM1 p)) as O1. unfold p in O1 at 1 2 3 4 5. cbn [a0 b0 a1 b1 cl0 the_prob flip1] in O1. unfold o in O1. cbn [a0 b0 a1 b1 cl0 the_prob flip1] in O1.
  destruct (clip_below (px a) (px b) (rx box) (py a) (py b) (ry box) true (rx c)) as [[x1 y1] ok1]. cbn [fst snd] in E1. destruct (rb _ _ _ _ _ _ _ _ _) as [[k0 k1]|]; [|subst ok1; exact O1]. destruct E1 as (VX1 & VY1 & ->). destruct O1 as (L1 & O10 & O11). pose proof (low_hull p _ _ G (or_introl L1)) as [HL0 HL1].
  (* right side *)
  pose proof (above_neg _ _ _ _ FA0 FB0 FA1 FB1 MA0 MB0 MA1 MB1 SX _ _ (rx c) _ _ _ _ VX1 VY1 (proj1 HL0) (Rle_refl _) FC1) as E2. cbv zeta in E2. pose proof (B0_ok (negp p) _ _ GN (low1_high p _ _ L1)) as O2. rewrite m0_neg, m1_neg in O2. specialize (O2 ltac:(lra) ltac:(lra)). unfold p in O2 at 1 2 3 4 5. cbn [a0 b0 a1 b1 cl0 ch0 the_prob negp flip1] in O2. unfold o in O2. cbn [a0 b0 a1 b1 cl0 ch0 the_prob negp flip1] in O2. change (Rmax (B2R (px a)) (B2R (px b))) with (M0 p) in E2. rewrite !Ropp_involutive in O2. replace (m1 o) with (- M1 p) in E2 by lra.
  destruct (clip_above (px a) (px b) x1 (py a) (py b) y1 true (rx c)) as [[x2 y2] ok2]. cbn [fst snd] in E2. destruct (rb _ _ _ _ _ _ _ _ _) as [[j0 j1]|]; [|subst ok2; intros I; apply O2, inner_neg, I]. destruct E2 as (VX2 & VY2 & ->). cbn [negb]. destruct O2 as (L2 & O20 & O21). assert (HI : high1 p (- j0) (- j1)) by (unfold high1; rewrite !Ropp_involutive; exact L2). pose proof (high_hull p _ _ G (or_introl HI)) as [HH0 HH1].
  (* lower side, the upper side of the mirror image *)
  pose proof (below_neg _ _ _ _ FA1 FB1 FA0 FB0 MA1 MB1 MA0 MB0 SY _ _ (ry c) _ _ _ _ VY2 VX2 ltac:(change (m1 o <= j1); lra) ltac:(change (- k1 <= M1 o); lra) FC2) as E3. cbv zeta in E3. pose proof (B1_ok (negp p) _ _ _ _ GN L2 (or_introl (low1_high p _ _ L1)) ltac:(lra) ltac:(lra)) as O3. unfold p in O3 at 1 2 3 4 5. cbn [a0 b0 a1 b1 cl1 ch1 the_prob negp flip1] in O3. unfold o in O3. cbn [a0 b0 a1 b1 cl1 ch1 the_prob negp flip1] in O3. rewrite !Ropp_involutive in O3. rewrite !Ropp_involutive in E3.
  destruct (clip_below (py a) (py b) y2 (px a) (px b) x2 true (ry c)) as [[y3 x3] ok3]. cbn [fst snd] in E3. destruct (rb _ _ _ _ _ _ _ _ _) as [[q1 q0]|]; [|subst ok3; intros I; apply O3, inner_neg, I]. destruct E3 as (VY3 & VX3 & ->). destruct O3 as (L3 & O30 & O31). assert (HQ : high p (- q0) (- q1)) by (unfold high; rewrite !Ropp_involutive; exact L3). pose proof (high_hull p _ _ G HQ) as [HQ0 HQ1].
  (* upper side *)
  pose proof (above_neg _ _ _ _ FA1 FB1 FA0 FB0 MA1 MB1 MA0 MB0 SY _ _ (ry c) _ _ _ _ VY3 VX3 ltac:(change (m1 o <= q1); lra) ltac:(change (- k1 <= M1 o); lra) FC3) as E4. cbv zeta in E4. pose proof (B1_ok p _ _ _ _ G L1 HQ ltac:(lra) ltac:(lra)) as O4. unfold p in O4 at 1 2 3 4 5. cbn [a0 b0 a1 b1 cl1 the_prob flip1] in O4. unfold o in O4. cbn [a0 b0 a1 b1 cl1 the_prob flip1] in O4. rewrite !Ropp_involutive in E4.
  destruct (clip_above (py a) (py b) y3 (px a) (px b) x3 true (ry c)) as [[y4 x4] ok4]. cbn [fst snd] in E4. destruct (rb _ _ _ _ _ _ _ _ _) as [[r1 r0]|]; [|subst ok4; exact O4]. destruct E4 as (VY4 & VX4 & ->). destruct O4 as (L4 & O40 & O41). cbn [negb].
  exists r0, (- q0), r1, (- q1). cbn [rx ry]. rewrite Ropp_involutive. split; [exact VX4|]. split; [exact VY4|]. split; [exact L4|]. split; [exact HQ|]. clear - O10 O20 O30 O31 O40 O41. unfold p, o in *. cbn [cl0 ch0 cl1 ch1 the_prob flip1 negp] in *. rewrite ?Ropp_involutive in *. repeat split; lra.
Qed.
