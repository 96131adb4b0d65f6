(** C145: clipping edges of the plane of a face to rectangles. *)
From Coq Require Import ZArith Reals Lra Lia Psatz Bool List.
From Flocq Require Import Core.
From Verif Require Import Base F64 F64Facts F64Arith F64Error IntervalSpec R1Model R1Proofs S1Proofs StuvError PredicatesError ClipModel ClipProofs LinProofs ClipReal ClipBridge PropsClip.
Import ListNotations.
Open Scope R_scope.

(** The points of the edge from [a] to [b], and of a rectangle. *)
Definition on_edge (a b : pt2) (x y : R) : Prop := exists s, 0 <= s <= 1 /\ x = B2R (px a) + s * (B2R (px b) - B2R (px a)) /\ y = B2R (py a) + s * (B2R (py b) - B2R (py a)).
Definition in_rect (r : r2) (x y : R) : Prop := B2R (lo1 (rx r)) <= x <= B2R (hi1 (rx r)) /\ B2R (lo1 (ry r)) <= y <= B2R (hi1 (ry r)).
(** Farther than [d] from the outside of the rectangle. *)
Definition deep (d : R) (r : r2) (x y : R) : Prop := B2R (lo1 (rx r)) + d < x < B2R (hi1 (rx r)) - d /\ B2R (lo1 (ry r)) + d < y < B2R (hi1 (ry r)) - d.
(** An end of the clipped edge: in the rectangle, in the bounding box of the edge, next to the edge. *)
Definition good_end (a b : pt2) (c : r2) (x y : R) : Prop := in_rect c x y /\ between (B2R (px a)) (B2R (px b)) x /\ between (B2R (py a)) (B2R (py b)) y /\
  exists x' y', on_edge a b x' y' /\ Rabs (x - x') <= / 2 ^ 50 /\ Rabs (y - y') <= / 2 ^ 50.
(** Coordinates of at most 1 + 2^-20, equal or at least 2^-400 apart. *)
Definition plain_edge (a b : pt2) : Prop := plain (px a) /\ plain (py a) /\ plain (px b) /\ plain (py b) /\ apart (px a) (px b) /\ apart (py a) (py b).
Definition finite_rect (c : r2) : Prop := finite (lo1 (rx c)) /\ finite (hi1 (rx c)) /\ finite (lo1 (ry c)) /\ finite (hi1 (ry c)).

Lemma plain_fits a b c : plain_edge a b -> finite_rect c -> fits a b c.
Proof. intros (A & B & C & D & E & F) H. split; auto using plain_M, apart_spread. Qed.
Lemma e8_pow : e8 = / 2 ^ 50. Proof. simpl. field. Qed.
Definition sgn (sy : bool) (y : R) : R := if sy then - y else y.
Definition both (a b : pt2) (c : r2) (x1 y1 x2 y2 : R) : Prop := good_end a b c x1 y1 /\ good_end a b c x2 y2 /\
  forall x y, on_edge a b x y -> in_rect c x y -> Rmin x1 x2 - / 2 ^ 50 <= x <= Rmax x1 x2 + / 2 ^ 50 /\ Rmin y1 y2 - / 2 ^ 50 <= y <= Rmax y1 y2 + / 2 ^ 50.
Lemma both_sym a b c x1 y1 x2 y2 : both a b c x1 y1 x2 y2 -> both a b c x2 y2 x1 y1.
Proof. intros (A & B & C). split; [exact B|]. split; [exact A|]. intros x y H I. rewrite (Rmin_comm x2), (Rmax_comm x2), (Rmin_comm y2), (Rmax_comm y2). auto. Qed.
Lemma clip_both a b c r (sy : bool) : let p := (if sy then flip1 (the_prob a b c) else the_prob a b c) in good p -> clipped p r sy ->
  exists l0 h0 l1 h1, vals (rx r) l0 h0 /\ (if sy then vals (ry r) (- h1) (- l1) else vals (ry r) l1 h1) /\ l0 <= h0 /\ l1 <= h1 /\ both a b c l0 (sgn sy l1) h0 (sgn sy h1).
Proof.
  intros p G (l0 & h0 & l1 & h1 & VX & VY & L & H & C0 & C1 & C2 & C3). exists l0, h0, l1, h1. split; [exact VX|]. split; [exact VY|]. split; [lra|]. split; [lra|].
  assert (ED : forall s, 0 <= s <= 1 -> on_edge a b (xs p s) (sgn sy (ys p s))) by (intros s S; exists s; split; [exact S|]; unfold p; destruct sy; unfold xs, ys, sgn; cbn; split; ring).
  assert (ED' : forall x y, on_edge a b x y -> exists s, 0 <= s <= 1 /\ x = xs p s /\ y = sgn sy (ys p s)) by (intros x y (s & S & X & Y); exists s; split; [exact S|]; rewrite X, Y; unfold p; destruct sy; unfold xs, ys, sgn; cbn; split; ring).
  pose proof (low_hull p _ _ G L) as [HL0 HL1]. pose proof (high_hull p _ _ G H) as [HH0 HH1].
  assert (BX : forall x, m0 p <= x <= M0 p -> between (B2R (px a)) (B2R (px b)) x) by (intros x X; unfold p in X; destruct sy; exact X).
  assert (BY : forall y, m1 p <= y <= M1 p -> between (B2R (py a)) (B2R (py b)) (sgn sy y)) by (intros y Y; unfold p in Y; destruct sy; [rewrite m1_flip, M1_flip in Y; cbn [sgn]; change (m1 (the_prob a b c) <= - y <= M1 (the_prob a b c)); lra|exact Y]).
  assert (IR : forall x y, cl0 p <= x <= ch0 p -> cl1 p <= y <= ch1 p -> in_rect c x (sgn sy y)) by (intros x y X Y; unfold p in X, Y; unfold in_rect, sgn; destruct sy; cbn in X, Y; split; lra).
  assert (IR' : forall x y, in_rect c x (sgn sy y) -> cl0 p <= x <= ch0 p /\ cl1 p <= y <= ch1 p) by (intros x y; unfold p, in_rect, sgn; destruct sy; cbn; intros [X Y]; split; lra).
  assert (SA : forall x y, Rabs (sgn sy x - sgn sy y) = Rabs (x - y)) by (intros x y; unfold sgn; destruct sy; [replace (- x - - y) with (- (x - y)) by ring; apply Rabs_Ropp|reflexivity]).
  split; [|split].
  - split; [apply IR; lra|]. split; [apply BX, HL0|]. split; [apply BY, HL1|]. rewrite <- e8_pow. destruct (low_near p _ _ G L) as (s & S & X & Y). exists (xs p s), (sgn sy (ys p s)). rewrite SA. auto.
  - split; [apply IR; lra|]. split; [apply BX, HH0|]. split; [apply BY, HH1|]. rewrite <- e8_pow. destruct (low_near (negp p) _ _ (good_neg p G) H) as (s & S & X & Y). rewrite xs_neg in X. rewrite ys_neg in Y. exists (xs p s), (sgn sy (ys p s)). rewrite SA. split; [apply ED, S|]. rewrite <- Rabs_Ropp in X, Y. replace (- (- h0 - - xs p s)) with (h0 - xs p s) in X by ring. replace (- (- h1 - - ys p s)) with (h1 - ys p s) in Y by ring. auto.
  - intros x y E I. rewrite <- e8_pow. destruct (ED' x y E) as (s & S & -> & ->). apply IR' in I as [I0 I1]. pose proof (low_cover p _ _ s G L S (proj1 I0) (proj1 I1)) as [A B]. assert (N0 : cl0 (negp p) <= xs (negp p) s) by (rewrite xs_neg; cbn; lra). assert (N1 : cl1 (negp p) <= ys (negp p) s) by (rewrite ys_neg; cbn; lra). pose proof (low_cover (negp p) _ _ s (good_neg p G) H S N0 N1) as [C D]. rewrite xs_neg in C. rewrite ys_neg in D.
    rewrite (Rmin_left l0 h0), (Rmax_right l0 h0) by lra. split; [lra|]. unfold sgn. destruct sy; [rewrite Rmin_right, Rmax_left by lra|rewrite Rmin_left, Rmax_right by lra]; lra.
Qed.
Definition downward (a b : pt2) : bool := xorb (fgt (px a) (px b)) (fgt (py a) (py b)).
Lemma fits_good a b c : fits a b c -> good (if downward a b then flip1 (the_prob a b c) else the_prob a b c).
Proof.
  intros [[[FA0 MA0] [FA1 MA1]] [[FB0 MB0] [FB1 MB1]] SX SY (FC0 & FC1 & FC2 & FC3)]. unfold downward, fgt.
  assert (P : forall x y, 0 <= x -> 0 <= y -> 0 <= x * y) by (intros; apply Rmult_le_pos; assumption).
  destruct (flt_R _ _ FB0 FA0) as [L|L]; destruct (flt_R _ _ FB1 FA1) as [K|K]; cbn [xorb]; (split; cbn; [repeat split; try apply fmt_opp; apply fmt_B2R|rewrite ?Rabs_Ropp; auto|exact SX|try apply spread_opp; exact SY|]).
  - pose proof (P (B2R (px a) - B2R (px b)) (B2R (py a) - B2R (py b)) ltac:(lra) ltac:(lra)). lra.
  - pose proof (P (B2R (px a) - B2R (px b)) (B2R (py b) - B2R (py a)) ltac:(lra) ltac:(lra)). lra.
  - pose proof (P (B2R (px b) - B2R (px a)) (B2R (py a) - B2R (py b)) ltac:(lra) ltac:(lra)). lra.
  - pose proof (P (B2R (px b) - B2R (px a)) (B2R (py b) - B2R (py a)) ltac:(lra) ltac:(lra)). lra.
Qed.
Lemma bound_spec a b c : fits a b c -> let p := (if downward a b then flip1 (the_prob a b c) else the_prob a b c) in
  match clip_edge_bound a b c (r2_from_points [a; b]) with (r, true) => clipped p r (downward a b) | (_, false) => ~ inner p end.
Proof. intros F p. pose proof (fits_good a b c F) as G. unfold p in *. destruct (downward a b) eqn:E; [apply clip_neg|apply clip_pos]; auto. Qed.

(** If an edge is reported to meet the rectangle: both ends of the result are in the rectangle
    and next to the edge, they are in the order of the edge, and the part of the edge in the
    rectangle is between them. *)
Theorem C145_clipped : forall a b c a' b', plain_edge a b -> finite_rect c -> clip_edge a b c = (a', b', true) ->
  (finite (px a') /\ finite (py a') /\ finite (px b') /\ finite (py b')) /\
  good_end a b c (B2R (px a')) (B2R (py a')) /\ good_end a b c (B2R (px b')) (B2R (py b')) /\
  0 <= (B2R (px b') - B2R (px a')) * (B2R (px b) - B2R (px a)) /\ 0 <= (B2R (py b') - B2R (py a')) * (B2R (py b) - B2R (py a)) /\
  forall x y, on_edge a b x y -> in_rect c x y ->
    Rmin (B2R (px a')) (B2R (px b')) - / 2 ^ 50 <= x <= Rmax (B2R (px a')) (B2R (px b')) + / 2 ^ 50 /\
    Rmin (B2R (py a')) (B2R (py b')) - / 2 ^ 50 <= y <= Rmax (B2R (py a')) (B2R (py b')) + / 2 ^ 50.
Proof.
  intros a b c a' b' P C E. pose proof (plain_fits a b c P C) as F. pose proof (bound_spec a b c F) as B. pose proof (fits_good a b c F) as G. cbv zeta in B. unfold clip_edge in E. destruct (clip_edge_bound a b c (r2_from_points [a; b])) as [r [|]]; [|discriminate E]. cbn [negb] in E.
  destruct (clip_both a b c r (downward a b) G B) as (l0 & h0 & l1 & h1 & (FX0 & FX1 & VX0 & VX1) & VY & L0 & L1 & BO). destruct F as [[[FA0 _] [FA1 _]] [[FB0 _] [FB1 _]] _ _ _]. clear B G.
  assert (Q : forall x y, 0 <= x -> 0 <= y -> 0 <= x * y) by (intros; apply Rmult_le_pos; assumption). unfold downward, fgt in VY, BO. unfold fgt in E. destruct (flt_R _ _ FB0 FA0) as [L|L]; destruct (flt_R _ _ FB1 FA1) as [K|K]; cbn [xorb] in VY, BO; destruct VY as (FY0 & FY1 & VY0 & VY1); injection E as <- <-; cbn; unfold sgn in BO; rewrite VX0, VX1, VY0, VY1.
  - apply both_sym in BO as (A & B & D). split; [auto|]. split; [exact A|]. split; [exact B|]. split; [|split; [|exact D]].
    + pose proof (Q (h0 - l0) (B2R (px a) - B2R (px b)) ltac:(lra) ltac:(lra)). lra.
    + pose proof (Q (h1 - l1) (B2R (py a) - B2R (py b)) ltac:(lra) ltac:(lra)). lra.
  - apply both_sym in BO as (A & B & D). split; [auto|]. split; [exact A|]. split; [exact B|]. split; [|split; [|exact D]].
    + pose proof (Q (h0 - l0) (B2R (px a) - B2R (px b)) ltac:(lra) ltac:(lra)). lra.
    + pose proof (Q (h1 - l1) (B2R (py b) - B2R (py a)) ltac:(lra) ltac:(lra)). lra.
  - destruct BO as (A & B & D). split; [auto|]. split; [exact A|]. split; [exact B|]. split; [|split; [|exact D]].
    + pose proof (Q (h0 - l0) (B2R (px b) - B2R (px a)) ltac:(lra) ltac:(lra)). lra.
    + pose proof (Q (h1 - l1) (B2R (py a) - B2R (py b)) ltac:(lra) ltac:(lra)). lra.
  - destruct BO as (A & B & D). split; [auto|]. split; [exact A|]. split; [exact B|]. split; [|split; [|exact D]].
    + pose proof (Q (h0 - l0) (B2R (px b) - B2R (px a)) ltac:(lra) ltac:(lra)). lra.
    + pose proof (Q (h1 - l1) (B2R (py b) - B2R (py a)) ltac:(lra) ltac:(lra)). lra.
Qed.
Print Assumptions C145_clipped.
(** If it is not, then no point of the edge is more than 2^-48 inside of the rectangle. *)
Theorem C145_missed : forall a b c, plain_edge a b -> finite_rect c -> snd (clip_edge a b c) = false -> forall x y, on_edge a b x y -> ~ deep (/ 2 ^ 48) c x y.
Proof.
  intros a b c P C E x y (s & S & -> & ->) D. pose proof (plain_fits a b c P C) as F. pose proof (bound_spec a b c F) as B. cbv zeta in B. unfold clip_edge in E. destruct (clip_edge_bound a b c (r2_from_points [a; b])) as [r [|]]; [discriminate E|]. apply B. exists s. split; [exact S|]. unfold deep in D. replace (/ 2 ^ 48) with wide in D by (simpl; field). destruct (downward a b); unfold xs, ys; cbn; lra.
Qed.
Print Assumptions C145_missed.
(** clipped_edge_bound is the bounding box of the clipped edge. *)
Theorem C145_bound : forall a b c, plain_edge a b -> finite_rect c -> match clip_edge a b c with
  | (a', b', true) => let r := clipped_edge_bound a b c in B2R (lo1 (rx r)) = Rmin (B2R (px a')) (B2R (px b')) /\ B2R (hi1 (rx r)) = Rmax (B2R (px a')) (B2R (px b')) /\ B2R (lo1 (ry r)) = Rmin (B2R (py a')) (B2R (py b')) /\ B2R (hi1 (ry r)) = Rmax (B2R (py a')) (B2R (py b'))
  | (_, _, false) => clipped_edge_bound a b c = r2_EMPTY end.
Proof.
  intros a b c P C. pose proof (plain_fits a b c P C) as F. pose proof (bound_spec a b c F) as B. pose proof (fits_good a b c F) as G. cbv zeta in B. unfold clip_edge, clipped_edge_bound. destruct (clip_edge_bound a b c (r2_from_points [a; b])) as [r [|]]; [|reflexivity]. cbn [negb].
  destruct (clip_both a b c r (downward a b) G B) as (l0 & h0 & l1 & h1 & (FX0 & FX1 & VX0 & VX1) & VY & L0 & L1 & _). assert (Y : B2R (lo1 (ry r)) <= B2R (hi1 (ry r))) by (destruct (downward a b); destruct VY as (_ & _ & -> & ->); lra). assert (X : B2R (lo1 (rx r)) <= B2R (hi1 (rx r))) by lra.
  destruct (fgt (px a) (px b)); destruct (fgt (py a) (py b)); cbn; rewrite ?(Rmin_left _ _ X), ?(Rmin_left _ _ Y), ?(Rmax_right _ _ X), ?(Rmax_right _ _ Y), ?(Rmin_right _ _ X), ?(Rmin_right _ _ Y), ?(Rmax_left _ _ X), ?(Rmax_left _ _ Y); auto.
Qed.
Print Assumptions C145_bound.
(* the diagonal from (-1, 1) to (1, -1), clipped to [0, 1] x [-1/2, 1] and beside [1/2, 1] x [1/2, 1] *)
Example C145_example : let a := P2 (fneg f1) f1 in let b := P2 f1 (fneg f1) in let c := R2 (R1 f0 f1) (R1 (fneg fhalf) f1) in let d := R2 (R1 fhalf f1) (R1 fhalf f1) in
  plain_edge a b /\ finite_rect c /\ finite_rect d /\ snd (clip_edge a b c) = true /\ snd (clip_edge a b d) = false /\
  let '(a', b', _) := clip_edge a b c in feq (px a') f0 = true /\ feq (py a') f0 = true /\ feq (px b') fhalf = true /\ feq (py b') (fneg fhalf) = true.
Proof.
  intros a b c d. destruct C144_example as (_ & P1 & PM & _ & AP & _). destruct f0_val as [F0 V0]. destruct StuvError.f1_val as [F1 V1]. destruct StuvError.fhalf_val as [FH VH]. destruct (fneg_val fhalf FH) as [FN _].
  split; [unfold plain_edge, a, b; cbn [px py]; repeat (split; [assumption|]); destruct AP as [E|E]; [left; auto|right; rewrite Rabs_minus_sym; exact E]|]. split; [repeat split; assumption|]. split; [repeat split; assumption|]. split; [vm_compute; reflexivity|]. split; [vm_compute; reflexivity|].
  vm_compute. repeat split.
Qed.
