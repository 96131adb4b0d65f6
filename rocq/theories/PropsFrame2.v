(** C133, C134: the frame of a point and regular polygons. *)
From Coq Require Import ZArith Reals Lra Lia Psatz Bool List.
From Flocq Require Import Core.
From Verif Require Import Base Spec F64 F64Facts IntervalSpec F64Arith F64Error F64Neg R1Proofs S1Proofs VectorModel PredicatesFloat PredicatesError PredicatesSound PredicatesProofs NormProofs PropsNorm CapSpec CapModel CapError CapEdgeFloat CapEdgeMain
  AngleModel AngleProofs ExpandProofs CapProofs CircleProofs StuvError ChordProofs PropsCap TrigModel TrigSpec TrigProofs TrigWitness RegionModel RegionSpec PropsRegion PropsCap2 PropsDist CrossProofs PointModel PointSpec PropsPoint Near FrameSpec.
Import ListNotations.
Open Scope R_scope.

(** ** C133: Point::frame, from_frame, to_frame *)
Lemma len1 p : on_sphere p -> len p = 1.
Proof. intros S. unfold len. rewrite (proj1 (sphere_len p) S). apply sqrt_1. Qed.
(* the distance of a vector to its direction *)
Lemma dir_gap v : 0 < sqn v -> len (psub (RV v) (direction v)) = Rabs (len (RV v) - 1).
Proof.
  intros P. rewrite dir_scaled by exact P. assert (L : 0 < len (RV v)) by (rewrite len_RV; apply sqrt_lt_R0, P).
  replace (psub (RV v) (pmul (/ len (RV v)) (RV v))) with (pmul (1 - / len (RV v)) (RV v)) by (apply pos_eq; unfold psub, pmul; cbn [px3 py3 pz3]; ring). rewrite len_mul. rewrite <- (Rabs_pos_eq (len (RV v))) at 2 by lra. rewrite <- Rabs_mult. f_equal. field. lra.
Qed.
Lemma frame_near p : is_unit p = true -> let '(c0, c1, c2) := frame p in
  c2 = p /\ fvec c0 /\ fvec c1 /\ fvec c2 /\
  exists e0 e1, right_handed e0 e1 (direction p) /\ len (psub (RV c0) e0) <= 350 * ulp1 /\ len (psub (RV c1) e1) <= 225 * ulp1 /\ len (psub (RV c2) (direction p)) <= 130 * ulp1.
Proof.
  intros U. unfold frame. destruct (C83_ortho p U) as [U1 D1]. set (c1 := ortho p) in *. clearbody c1. split; [reflexivity|].
  destruct (unit_norm p U) as (FP & SP & HP). destruct (unit_norm c1 U1) as (F1 & S1 & H1). pose proof (unit_sphere _ U) as OP. unfold KR in *. rewrite <- len_RV in *. pose proof (Rabs_le_inv _ _ HP) as HP'. pose proof (Rabs_le_inv _ _ H1) as H1'.
  assert (PP : 0 < sqn p) by (rewrite SP; apply Rmult_lt_0_compat; lra). pose proof (dir_gap p PP) as GP.
  destruct (cross_rel c1 p F1 FP ltac:(lra) ltac:(lra)) as [F0 E0]. split; [exact F0|]. split; [exact F1|]. split; [exact FP|].
  set (e2 := direction p) in *. change (real_dot p c1) with (rdot (RV p) (RV c1)) in D1.
  (* the second axis *)
  set (k := rdot (RV c1) e2). assert (KB : Rabs k <= 11 / 1000000000000000).
  { unfold k, e2. rewrite dir_scaled by exact PP. replace (rdot (RV c1) (pmul (/ len (RV p)) (RV p))) with (rdot (RV p) (RV c1) * / len (RV p)) by (unfold rdot, pmul; cbn [px3 py3 pz3]; ring).
    rewrite Rabs_mult, (Rabs_pos_eq (/ len (RV p))) by (apply Rlt_le, Rinv_0_lt_compat; lra). apply (Rmult_le_reg_r (len (RV p))); [lra|]. rewrite Rmult_assoc, Rinv_l by lra. lra. }
  set (b := psub (RV c1) (pmul k e2)). assert (DB : len (psub (RV c1) b) <= 11 / 1000000000000000).
  { replace (psub (RV c1) b) with (pmul k e2) by (apply pos_eq; unfold b, psub, pmul; cbn [px3 py3 pz3]; ring). rewrite len_mul, (len1 e2 OP). lra. }
  pose proof (len_sub (RV c1) b) as SB. apply Rabs_le_inv in SB. assert (LB : 9 / 10 <= len b <= 11 / 10) by lra.
  set (e1 := pmul (/ len b) b). assert (L1 : len e1 = 1) by (apply len_scaled; lra). assert (Q1 : rdot e1 e1 = 1) by (rewrite <- len_sq, L1; ring). assert (Q2 : rdot e2 e2 = 1) by exact OP.
  assert (Q12 : rdot e1 e2 = 0). { assert (B2 : rdot b e2 = 0) by (transitivity (rdot (RV c1) e2 - k * rdot e2 e2); [unfold b, rdot, psub, pmul; cbn [px3 py3 pz3]; ring|rewrite Q2; unfold k; ring]). transitivity (/ len b * rdot b e2); [unfold e1, rdot, pmul; cbn [px3 py3 pz3]; ring|rewrite B2; ring]. }
  assert (DE1 : len (psub b e1) = Rabs (len b - 1)). { unfold e1. replace (psub b (pmul (/ len b) b)) with (pmul (1 - / len b) b) by (apply pos_eq; unfold psub, pmul; cbn [px3 py3 pz3]; ring). rewrite len_mul. rewrite <- (Rabs_pos_eq (len b)) at 2 by lra. rewrite <- Rabs_mult. f_equal. field. lra. }
  assert (A1 : Rabs (len b - 1) <= 38 / 1000000000000000) by (apply Rabs_le; lra).
  assert (D2 : len (psub (RV c1) e1) <= 50 / 1000000000000000 - 1 / 1000000000000000). { pose proof (len_tri (psub (RV c1) b) (psub b e1)) as T. replace (padd (psub (RV c1) b) (psub b e1)) with (psub (RV c1) e1) in T by (apply pos_eq; unfold psub, padd; cbn [px3 py3 pz3]; ring). lra. }
  exists (rcross e1 e2), e1. split.
  { unfold right_handed. change dot3 with rdot. change cross3 with rcross. rewrite cross_dot, Q1, Q2, Q12. split; [ring|]. split; [reflexivity|]. split; [unfold rdot, rcross; cbn [px3 py3 pz3]; ring|].
    assert (V : rcross (rcross e1 e2) e1 = padd (pmul (rdot e1 e1) e2) (pmul (- rdot e1 e2) e1)) by (apply pos_eq; unfold rdot, rcross, padd, pmul; cbn [px3 py3 pz3]; ring). rewrite V, Q1, Q12. apply pos_eq; unfold padd, pmul; cbn [px3 py3 pz3]; ring. }
  split; [|split; [lra|rewrite GP; lra]].
  pose proof (cross_near (RV c1) (RV p) e1 e2) as CN. rewrite L1, GP in CN. pose proof (len_tri (psub (RV (cross c1 p)) (rcross (RV c1) (RV p))) (psub (rcross (RV c1) (RV p)) (rcross e1 e2))) as T.
  replace (padd (psub (RV (cross c1 p)) (rcross (RV c1) (RV p))) (psub (rcross (RV c1) (RV p)) (rcross e1 e2))) with (psub (RV (cross c1 p)) (rcross e1 e2)) in T by (apply pos_eq; unfold psub, padd; cbn [px3 py3 pz3]; ring).
  assert (M1 : len (psub (RV c1) e1) * len (RV p) <= 49 / 1000000000000000 * (1001 / 1000)) by (apply Rmult_le_compat; try apply len_pos; lra). assert (M2 : len (RV c1) * len (RV p) <= 11 / 10 * (11 / 10)) by (apply Rmult_le_compat; try apply len_pos; lra). pose proof h_tiny. lra.
Qed.
(* a sum of three products *)
Lemma comb_near (a b c x y z : f64) a0 b0 c0 x0 y0 z0 ex W : 
  near a a0 (350 * ulp1) -> near b b0 (350 * ulp1) -> near c c0 (350 * ulp1) -> near x x0 ex -> near y y0 ex -> near z z0 ex ->
  Rabs a0 <= 1 -> Rabs b0 <= 1 -> Rabs c0 <= 1 -> Rabs x0 <= W -> Rabs y0 <= W -> Rabs z0 <= W -> W <= 4 -> 0 <= ex <= 10000 * ulp1 ->
  near (fadd (fadd (fmul a x) (fmul b y)) (fmul c z)) (a0 * x0 + b0 * y0 + c0 * z0) (3 * (350 * ulp1 * (W + ex) + ex) + 20 * ulp1).
Proof.
  intros Na Nb Nc Nx Ny Nz A B C X Y Z WB E. pose proof (Rabs_pos x0) as W0.
  assert (K : (1 + 350 * ulp1) * (W + ex) <= 16) by (apply Rle_trans with (2 * 5); [apply Rmult_le_compat; lra|lra]).
  pose proof (near_mul _ _ _ _ _ _ 1 W Na Nx A X K) as Pa. pose proof (near_mul _ _ _ _ _ _ 1 W Nb Ny B Y K) as Pb. pose proof (near_mul _ _ _ _ _ _ 1 W Nc Nz C Z K) as Pc.
  assert (M : forall s t, Rabs s <= 1 -> Rabs t <= W -> Rabs (s * t) <= 4). { intros s t S T. rewrite Rabs_mult. apply Rle_trans with (1 * 4); [apply Rmult_le_compat; try apply Rabs_pos; lra|lra]. }
  pose proof (Rabs_le_inv _ _ (M _ _ A X)). pose proof (Rabs_le_inv _ _ (M _ _ B Y)). pose proof (Rabs_le_inv _ _ (M _ _ C Z)).
  assert (EB : 350 * ulp1 * (W + ex) + 1 * ex + 4 * ulp1 <= 1 / 10). { assert (350 * ulp1 * (W + ex) <= 350 * ulp1 * 5) by (apply Rmult_le_compat_l; lra). lra. } set (e := 350 * ulp1 * (W + ex) + 1 * ex + 4 * ulp1) in *.
  pose proof (near_add _ _ _ _ _ _ Pa Pb) as Q1. specialize (Q1 ltac:(assert (Rabs (a0 * x0 + b0 * y0) <= 8) by (apply Rabs_le; lra); lra)).
  pose proof (near_add _ _ _ _ _ _ Q1 Pc) as Q2. specialize (Q2 ltac:(assert (Rabs (a0 * x0 + b0 * y0 + c0 * z0) <= 12) by (apply Rabs_le; lra); lra)).
  eapply near_weak; [exact Q2|]. unfold e. lra.
Qed.
(* the coordinates of vectors near points *)
Lemma vec_near v p e : fvec v -> len (psub (RV v) p) <= e -> near (vx v) (px3 p) e /\ near (vy v) (py3 p) e /\ near (vz v) (pz3 p) e.
Proof. intros (F1 & F2 & F3) L. destruct (len_comp (psub (RV v) p)) as (C1 & C2 & C3). cbn [psub RV px3 py3 pz3] in *. repeat split; try assumption; lra. Qed.
Lemma unit_coords p : rdot p p = 1 -> Rabs (px3 p) <= 1 /\ Rabs (py3 p) <= 1 /\ Rabs (pz3 p) <= 1.
Proof. intros E. destruct (len_comp p) as (C1 & C2 & C3). assert (L : len p = 1) by (unfold len; rewrite E; apply sqrt_1). rewrite L in *. auto. Qed.
(* the rows of the matrix are orthonormal as well *)
Lemma rows e0 e1 e2 : right_handed e0 e1 e2 -> rdot e2 e2 = 1 /\ rdot e0 e2 = 0 /\ rdot e1 e2 = 0 /\
  px3 e0 * px3 e0 + px3 e1 * px3 e1 + px3 e2 * px3 e2 = 1 /\ py3 e0 * py3 e0 + py3 e1 * py3 e1 + py3 e2 * py3 e2 = 1 /\ pz3 e0 * pz3 e0 + pz3 e1 * pz3 e1 + pz3 e2 * pz3 e2 = 1 /\
  px3 e0 * py3 e0 + px3 e1 * py3 e1 + px3 e2 * py3 e2 = 0 /\ px3 e0 * pz3 e0 + px3 e1 * pz3 e1 + px3 e2 * pz3 e2 = 0 /\ py3 e0 * pz3 e0 + py3 e1 * pz3 e1 + py3 e2 * pz3 e2 = 0.
Proof.
  intros (A & B & C & ->). change dot3 with rdot in *. change cross3 with rcross. split; [rewrite cross_dot, A, B, C; ring|]. split; [unfold rdot, rcross; cbn [px3 py3 pz3]; ring|]. split; [unfold rdot, rcross; cbn [px3 py3 pz3]; ring|].
  destruct e0 as [a b c], e1 as [d e f]. unfold rdot, rcross in *. cbn [px3 py3 pz3] in *.
  assert (A1 : a * a = 1 - b * b - c * c) by lra. assert (B1 : d * d = 1 - e * e - f * f) by lra. assert (C1 : a * d = - (b * e + c * f)) by lra.
  assert (A2 : b * b = 1 - a * a - c * c) by lra. assert (B2 : e * e = 1 - d * d - f * f) by lra. assert (C2 : b * e = - (a * d + c * f)) by lra.
  assert (A3 : c * c = 1 - a * a - b * b) by lra. assert (B3 : f * f = 1 - d * d - e * e) by lra. assert (C3 : c * f = - (a * d + b * e)) by lra.
  repeat split.
  - transitivity (a * a + d * d + ((b * b + c * c) * (e * e + f * f) - (b * e + c * f) * (b * e + c * f))); [ring|]. replace (b * b + c * c) with (1 - a * a) by lra. replace (e * e + f * f) with (1 - d * d) by lra. replace (b * e + c * f) with (- (a * d)) by lra. ring.
  - transitivity (b * b + e * e + ((a * a + c * c) * (d * d + f * f) - (a * d + c * f) * (a * d + c * f))); [ring|]. replace (a * a + c * c) with (1 - b * b) by lra. replace (d * d + f * f) with (1 - e * e) by lra. replace (a * d + c * f) with (- (b * e)) by lra. ring.
  - transitivity (c * c + f * f + ((a * a + b * b) * (d * d + e * e) - (a * d + b * e) * (a * d + b * e))); [ring|]. replace (a * a + b * b) with (1 - c * c) by lra. replace (d * d + e * e) with (1 - f * f) by lra. replace (a * d + b * e) with (- (c * f)) by lra. ring.
  - transitivity (a * b + d * e + (c * f * (b * d + a * e) - a * b * (f * f) - d * e * (c * c))); [ring|]. rewrite A3, B3, C3. ring.
  - transitivity (a * c + d * f + (b * e * (c * d + a * f) - a * c * (e * e) - d * f * (b * b))); [ring|]. rewrite A2, B2, C2. ring.
  - transitivity (b * c + e * f + (a * d * (c * e + b * f) - b * c * (d * d) - e * f * (a * a))); [ring|]. rewrite A1, B1, C1. ring.
Qed.
(* both products, for columns and points that are themselves off by a little *)
Lemma from_near c0 c1 c2 e0 e1 e2 q q0 ex W : right_handed e0 e1 e2 -> fvec c0 -> fvec c1 -> fvec c2 ->
  len (psub (RV c0) e0) <= 350 * ulp1 -> len (psub (RV c1) e1) <= 350 * ulp1 -> len (psub (RV c2) e2) <= 350 * ulp1 -> close q q0 ex -> within W q0 -> W <= 4 -> 0 <= ex <= 10000 * ulp1 ->
  close (from_frame (c0, c1, c2) q) (in_axes e0 e1 e2 q0) (3 * (350 * ulp1 * (W + ex) + ex) + 20 * ulp1) /\
  close (to_frame (c0, c1, c2) q) (Pos (dot3 q0 e0) (dot3 q0 e1) (dot3 q0 e2)) (3 * (350 * ulp1 * (W + ex) + ex) + 20 * ulp1).
Proof.
  intros RH F0 F1 F2 D0 D1 D2 ((Fx & Fy & Fz) & X1 & X2 & X3) (W1 & W2 & W3) WB E. destruct (rows e0 e1 e2 RH) as (U2 & _). destruct RH as (U0 & U1 & _). change dot3 with rdot in U0, U1.
  destruct (unit_coords e0 U0) as (A1 & A2 & A3). destruct (unit_coords e1 U1) as (B1 & B2 & B3). destruct (unit_coords e2 U2) as (C1 & C2 & C3).
  destruct (vec_near c0 e0 _ F0 D0) as (N01 & N02 & N03). destruct (vec_near c1 e1 _ F1 D1) as (N11 & N12 & N13). destruct (vec_near c2 e2 _ F2 D2) as (N21 & N22 & N23).
  assert (Nx : near (vx q) (px3 q0) ex) by (split; assumption). assert (Ny : near (vy q) (py3 q0) ex) by (split; assumption). assert (Nz : near (vz q) (pz3 q0) ex) by (split; assumption).
  assert (K : forall a b c a0 b0 d0, near a a0 (350 * ulp1) -> near b b0 (350 * ulp1) -> near c d0 (350 * ulp1) -> Rabs a0 <= 1 -> Rabs b0 <= 1 -> Rabs d0 <= 1 ->
    near (fadd (fadd (fmul a (vx q)) (fmul b (vy q))) (fmul c (vz q))) (a0 * px3 q0 + b0 * py3 q0 + d0 * pz3 q0) (3 * (350 * ulp1 * (W + ex) + ex) + 20 * ulp1)) by (intros; eapply comb_near; eassumption).
  split.
  - unfold from_frame, in_axes, close, finite_vec, vadd, vscale. cbn [vx vy vz px3 py3 pz3]. pose proof (K _ _ _ _ _ _ N01 N11 N21 A1 B1 C1) as [G1 E1]. pose proof (K _ _ _ _ _ _ N02 N12 N22 A2 B2 C2) as [G2 E2]. pose proof (K _ _ _ _ _ _ N03 N13 N23 A3 B3 C3) as [G3 E3].
    rewrite (Rmult_comm (px3 q0)), (Rmult_comm (py3 q0)), (Rmult_comm (pz3 q0)), (Rmult_comm (px3 q0)), (Rmult_comm (py3 q0)), (Rmult_comm (pz3 q0)), (Rmult_comm (px3 q0)), (Rmult_comm (py3 q0)), (Rmult_comm (pz3 q0)). auto 10.
  - unfold to_frame, close, finite_vec, dot3. cbn [vx vy vz px3 py3 pz3]. pose proof (K _ _ _ _ _ _ N01 N02 N03 A1 A2 A3) as [G1 E1]. pose proof (K _ _ _ _ _ _ N11 N12 N13 B1 B2 B3) as [G2 E2]. pose proof (K _ _ _ _ _ _ N21 N22 N23 C1 C2 C3) as [G3 E3].
    rewrite !(Rmult_comm (px3 q0)), !(Rmult_comm (py3 q0)), !(Rmult_comm (pz3 q0)). auto 10.
Qed.
Lemma close_self q : finite_vec q -> close q (position q) 0.
Proof. intros F. split; [exact F|]. unfold position. cbn [px3 py3 pz3]. rewrite !Rminus_diag_eq, Rabs_R0 by reflexivity. lra. Qed.
(** The columns are nearly a right-handed orthonormal frame with the point as its third axis;
    from_frame takes coordinates in this frame to the point, and to_frame a point to its
    coordinates. *)
Theorem C133_frame : forall p, is_unit p = true -> let '(c0, c1, c2) := frame p in
  c2 = p /\ exists e0 e1, right_handed e0 e1 (direction p) /\
    apart (position c0) e0 <= 1 / 2 ^ 43 /\ apart (position c1) e1 <= 1 / 2 ^ 44 /\ apart (position c2) (direction p) <= 1 / 2 ^ 44 /\
    forall q, finite_vec q -> within 2 (position q) ->
      close (from_frame (c0, c1, c2) q) (in_axes e0 e1 (direction p) (position q)) (1 / 2 ^ 40) /\
      close (to_frame (c0, c1, c2) q) (Pos (dot3 (position q) e0) (dot3 (position q) e1) (dot3 (position q) (direction p))) (1 / 2 ^ 40).
Proof.
  intros p U. pose proof (frame_near p U) as FN. destruct (frame p) as [[c0 c1] c2]. destruct FN as (E & F0 & F1 & F2 & e0 & e1 & RH & D0 & D1 & D2). split; [exact E|]. exists e0, e1. split; [exact RH|].
  change apart with chd. change position with RV. rewrite !chd_len. split; [lra|]. split; [lra|]. split; [lra|]. intros q FQ W.
  destruct (from_near c0 c1 c2 e0 e1 _ q _ 0 2 RH F0 F1 F2 ltac:(lra) ltac:(lra) ltac:(lra) (close_self q FQ) W ltac:(lra) ltac:(lra)) as [K1 K2].
  assert (WK : forall v r, close v r (3 * (350 * ulp1 * (2 + 0) + 0) + 20 * ulp1) -> close v r (1 / 2 ^ 40)) by (intros v r (F & Q1 & Q2 & Q3); split; [exact F|]; repeat split; lra). auto.
Qed.
Print Assumptions C133_frame.
(** from_frame and to_frame are inverse to each other. *)
Lemma coord_le a b c x y z : a * a + b * b + c * c = 1 -> Rabs x <= 1 -> Rabs y <= 1 -> Rabs z <= 1 -> Rabs (x * a + y * b + z * c) <= 2.
Proof.
  intros U X Y Z. assert (M : forall s, Rabs s <= 1 -> s * s <= 1) by (intros s S; pose proof (sq_abs_le s 1 ltac:(lra) S); lra). pose proof (M x X). pose proof (M y Y). pose proof (M z Z). apply sq_le_abs; [lra|].
  assert (CS : (x * a + y * b + z * c) * (x * a + y * b + z * c) <= (x * x + y * y + z * z) * (a * a + b * b + c * c)). { pose proof (Rle_0_sqr (x * b - y * a)). pose proof (Rle_0_sqr (x * c - z * a)). pose proof (Rle_0_sqr (y * c - z * b)). unfold Rsqr in *. lra. }
  rewrite U in CS. lra.
Qed.
Theorem C133_inverse : forall p q, is_unit p = true -> finite_vec q -> within 1 (position q) ->
  close (to_frame (frame p) (from_frame (frame p) q)) (position q) (1 / 2 ^ 39) /\ close (from_frame (frame p) (to_frame (frame p) q)) (position q) (1 / 2 ^ 39).
Proof.
  intros p q U FQ W. pose proof (frame_near p U) as FN. destruct (frame p) as [[c0 c1] c2]. destruct FN as (E & F0 & F1 & F2 & e0 & e1 & RH & D0 & D1 & D2). set (e2 := direction p) in *. clearbody e2.
  assert (D0' : len (psub (RV c0) e0) <= 350 * ulp1) by lra. assert (D1' : len (psub (RV c1) e1) <= 350 * ulp1) by lra. assert (D2' : len (psub (RV c2) e2) <= 350 * ulp1) by lra.
  destruct (from_near c0 c1 c2 e0 e1 e2 q _ 0 1 RH F0 F1 F2 D0' D1' D2' (close_self q FQ) W ltac:(lra) ltac:(lra)) as [K1 K2].
  destruct (rows e0 e1 e2 RH) as (U2 & O02 & O12 & X0 & Y0 & Z0 & XY & XZ & YZ). pose proof RH as (U0 & U1 & O01 & _). change dot3 with rdot in *. destruct W as (W1 & W2 & W3). set (Q := position q) in *.
  assert (WK : forall v r, close v r (3 * (350 * ulp1 * (2 + (3 * (350 * ulp1 * (1 + 0) + 0) + 20 * ulp1)) + (3 * (350 * ulp1 * (1 + 0) + 0) + 20 * ulp1)) + 20 * ulp1) -> close v r (1 / 2 ^ 39)) by (intros v r (F & V1 & V2 & V3); split; [exact F|]; repeat split; lra).
  assert (IA : within 2 (in_axes e0 e1 e2 Q)) by (unfold in_axes, within; cbn [px3 py3 pz3]; split; [|split]; apply coord_le; assumption).
  assert (IB : within 2 (Pos (rdot Q e0) (rdot Q e1) (rdot Q e2))) by (unfold within, rdot; cbn [px3 py3 pz3]; split; [|split]; apply coord_le; assumption).
  destruct (from_near c0 c1 c2 e0 e1 e2 _ _ _ 2 RH F0 F1 F2 D0' D1' D2' K1 IA ltac:(lra) ltac:(lra)) as [_ L1]. destruct (from_near c0 c1 c2 e0 e1 e2 _ _ _ 2 RH F0 F1 F2 D0' D1' D2' K2 IB ltac:(lra) ltac:(lra)) as [L2 _].
  change dot3 with rdot in *. split; apply WK.
  - replace (Pos (rdot (in_axes e0 e1 e2 Q) e0) (rdot (in_axes e0 e1 e2 Q) e1) (rdot (in_axes e0 e1 e2 Q) e2)) with Q in L1; [exact L1|]. symmetry. apply pos_eq; cbn [px3 py3 pz3].
    + transitivity (px3 Q * rdot e0 e0 + py3 Q * rdot e0 e1 + pz3 Q * rdot e0 e2); [unfold rdot, in_axes; cbn [px3 py3 pz3]; ring|rewrite U0, O01, O02; ring].
    + transitivity (px3 Q * rdot e0 e1 + py3 Q * rdot e1 e1 + pz3 Q * rdot e1 e2); [unfold rdot, in_axes; cbn [px3 py3 pz3]; ring|rewrite U1, O01, O12; ring].
    + transitivity (px3 Q * rdot e0 e2 + py3 Q * rdot e1 e2 + pz3 Q * rdot e2 e2); [unfold rdot, in_axes; cbn [px3 py3 pz3]; ring|rewrite U2, O02, O12; ring].
  - replace (in_axes e0 e1 e2 (Pos (rdot Q e0) (rdot Q e1) (rdot Q e2))) with Q in L2; [exact L2|]. symmetry. unfold in_axes, rdot. apply pos_eq; cbn [px3 py3 pz3].
    + transitivity (px3 Q * (px3 e0 * px3 e0 + px3 e1 * px3 e1 + px3 e2 * px3 e2) + py3 Q * (px3 e0 * py3 e0 + px3 e1 * py3 e1 + px3 e2 * py3 e2) + pz3 Q * (px3 e0 * pz3 e0 + px3 e1 * pz3 e1 + px3 e2 * pz3 e2)); [ring|rewrite X0, XY, XZ; ring].
    + transitivity (px3 Q * (px3 e0 * py3 e0 + px3 e1 * py3 e1 + px3 e2 * py3 e2) + py3 Q * (py3 e0 * py3 e0 + py3 e1 * py3 e1 + py3 e2 * py3 e2) + pz3 Q * (py3 e0 * pz3 e0 + py3 e1 * pz3 e1 + py3 e2 * pz3 e2)); [ring|rewrite Y0, XY, YZ; ring].
    + transitivity (px3 Q * (px3 e0 * pz3 e0 + px3 e1 * pz3 e1 + px3 e2 * pz3 e2) + py3 Q * (py3 e0 * pz3 e0 + py3 e1 * pz3 e1 + py3 e2 * pz3 e2) + pz3 Q * (pz3 e0 * pz3 e0 + pz3 e1 * pz3 e1 + pz3 e2 * pz3 e2)); [ring|rewrite Z0, XZ, YZ; ring].
Qed.
Print Assumptions C133_inverse.
Example C133_hyps : is_unit uy = true /\ finite_vec ux /\ within 1 (position ux).
Proof.
  split; [vm_compute; reflexivity|]. split; [split; [|split]; vm_compute; reflexivity|]. destruct StuvError.f1_val as [_ V]. unfold within, position, ux. cbn [vx vy vz px3 py3 pz3]. rewrite V. change (B2R f0) with 0. rewrite Rabs_R1, Rabs_R0. lra.
Qed.

(** ** C134: regular_points *)
Lemma normal_dir v E e : fvec v -> on_sphere E -> chd (RV v) E <= e -> e <= 1 / 100 -> is_unit (VectorModel.normalize v) = true /\ chd (direction (VectorModel.normalize v)) E <= 2 * e + 36 * u.
Proof.
  intros FX OS CV EB. pose proof h_tiny as HT. destruct (dir_near v E e OS CV ltac:(lra)) as [PV DN].
  pose proof (len_near v E OS) as LV. apply Rabs_le_inv in LV. assert (MV : moderate v).
  { split; [exact FX|]. pose proof (sqrt_sqrt (sqn v) ltac:(lra)) as Q. rewrite <- Q.
    assert (Q1 : pow2 (-900) <= 1 / 4) by (apply Rle_trans with (pow2 (-2)); [apply bpow_le; lia|change (pow2 (-2)) with (/ 4); lra]). assert (Q2 : 4 <= pow2 900) by (apply Rle_trans with (pow2 2); [change (pow2 2) with 4; lra|apply bpow_le; lia]).
    split; [eapply Rle_trans; [exact Q1|]; replace (1 / 4) with (1 / 2 * (1 / 2)) by field; apply Rmult_le_compat; lra|eapply Rle_trans; [|exact Q2]; replace 4 with (2 * 2) by ring; apply Rmult_le_compat; lra]. }
  destruct (normalize_close v MV) as (q & PQ & SQ & _ & N1 & N2 & N3 & UU). split; [exact UU|]. set (x := VectorModel.normalize v) in *.
  assert (QE : q = sqrt (sqn v)) by (rewrite <- SQ; symmetry; apply sqrt_square; lra).
  assert (XD : chd (RV x) (direction v) <= 18 * u).
  { rewrite chd_len. assert (CO : forall w, Rabs w <= q -> Rabs (w / q) <= 1). { intros w W. unfold Rdiv. rewrite Rabs_mult, (Rabs_pos_eq (/ q)) by (apply Rlt_le, Rinv_0_lt_compat; exact PQ). apply (Rmult_le_reg_r q); [exact PQ|]. rewrite Rmult_assoc, Rinv_l by lra. lra. }
    destruct (len_comp (RV v)) as (W1 & W2 & W3). rewrite len_RV, <- QE in W1, W2, W3. cbn [px3 py3 pz3 RV] in W1, W2, W3.
    pose proof (CO _ W1). pose proof (CO _ W2). pose proof (CO _ W3). replace (18 * u) with (2 * (9 * u)) by ring. apply parts_le; [lra| | |]; unfold psub, direction, RV; cbn [px3 py3 pz3]; fold (sqn v); rewrite <- QE; lra. }
  assert (SD : on_sphere (direction v)). { apply sphere_len. rewrite dir_scaled by exact PV. rewrite <- len_sq, len_scaled; [ring|]. rewrite len_RV. apply sqrt_lt_R0. exact PV. }
  destruct (dir_near x (direction v) (18 * u) SD XD ltac:(lra)) as [_ XX].
  pose proof (chd_tri (direction x) (direction v) E) as T. lra.
Qed.
(* the angle of a vertex *)
Lemma step_angle (i n : BinInt.Z) : (0 <= i < n)%Z -> (n <= 2 ^ 53)%Z -> near (fmul (of_int i) (fdiv (fmul f2 PI64) (of_int n))) (2 * PI * IZR i / IZR n) (10 * ulp1).
Proof.
  intros I N. destruct two_pi as [FP VP]. destruct (of_int_val n ltac:(lia)) as [FN VN]. destruct (of_int_val i ltac:(lia)) as [FI VI]. set (t := fmul f2 PI64) in *. clearbody t.
  assert (NP : 1 <= IZR n) by (apply IZR_le; lia). assert (I0 : 0 <= IZR i) by (apply IZR_le; lia). assert (IN : IZR i <= IZR n) by (apply IZR_le; lia). assert (NB : IZR n <= 9007199254740992) by (apply IZR_le; lia). pose proof pi_PI as PP. pose proof PI_tight as PT. pose proof h_pos as HP.
  pose proof (fdiv_result t (of_int n) FP FN) as RD. rewrite VN, VP in RD. specialize (RD ltac:(lra)). assert (QB : 0 <= 2 * pi / IZR n <= 7). { unfold Rdiv. assert (0 < / IZR n <= 1) by (split; [apply Rinv_0_lt_compat; lra|rewrite <- Rinv_1; apply Rinv_le_contravar; lra]). split; [apply Rmult_le_pos; lra|apply Rle_trans with (7 * 1); [apply Rmult_le_compat; lra|lra]]. }
  destruct (result_val _ _ 3 ltac:(lia) RD) as (FS & VS & _); [change (pow2 3) with 8; rewrite Rabs_pos_eq; lra|]. pose proof (PredicatesError.rnd_rel (2 * pi / IZR n)) as RR. rewrite <- VS, (Rabs_pos_eq (2 * pi / IZR n)) in RR by lra. set (s := fdiv t (of_int n)) in *. clearbody s. clear VS RD.
  assert (HT : 9007199254740992 * h <= ulp1). { unfold h. apply Rle_trans with (9007199254740992 * pow2 (-120)); [apply Rmult_le_compat_l; [lra|apply bpow_le; lia]|]. change (pow2 (-120)) with (/ 1329227995784915872903807060280344576). lra. }
  (* the product before rounding *)
  assert (E1 : Rabs (IZR i * B2R s - 2 * PI * IZR i / IZR n) <= 7 * ulp1).
  { replace (IZR i * B2R s - 2 * PI * IZR i / IZR n) with (IZR i * (B2R s - 2 * pi / IZR n) + 2 * (pi - PI) * (IZR i / IZR n)) by (field; lra).
    assert (QI : 0 <= IZR i / IZR n <= 1). { split; [apply Rmult_le_pos; [lra|apply Rlt_le, Rinv_0_lt_compat; lra]|]. apply (Rmult_le_reg_r (IZR n)); [lra|]. unfold Rdiv. rewrite Rmult_assoc, Rinv_l by lra. lra. }
    eapply Rle_trans; [apply Rabs_triang|]. rewrite !Rabs_mult, (Rabs_pos_eq (IZR i)), (Rabs_pos_eq (IZR i / IZR n)), (Rabs_pos_eq 2), (Rabs_left (pi - PI)) by lra.
    assert (T1 : IZR i * Rabs (B2R s - 2 * pi / IZR n) <= u * 7 + ulp1).
    { apply Rle_trans with (IZR i * (u * (2 * pi / IZR n) + h)); [apply Rmult_le_compat_l; lra|]. replace (IZR i * (u * (2 * pi / IZR n) + h)) with (u * (2 * pi * (IZR i / IZR n)) + IZR i * h) by (field; lra).
      assert (2 * pi * (IZR i / IZR n) <= 7 * 1) by (apply Rmult_le_compat; lra). assert (IZR i * h <= 9007199254740992 * h) by (apply Rmult_le_compat_r; lra). lra. }
    assert (T2 : 2 * - (pi - PI) * (IZR i / IZR n) <= 2 * ulp1 * 1) by (apply Rmult_le_compat; lra). lra. }
  assert (AB : Rabs (2 * PI * IZR i / IZR n) <= 7). { assert (QI : 0 <= IZR i / IZR n <= 1). { split; [apply Rmult_le_pos; [lra|apply Rlt_le, Rinv_0_lt_compat; lra]|]. apply (Rmult_le_reg_r (IZR n)); [lra|]. unfold Rdiv. rewrite Rmult_assoc, Rinv_l by lra. lra. }
    replace (2 * PI * IZR i / IZR n) with (2 * PI * (IZR i / IZR n)) by (field; lra). rewrite Rabs_pos_eq by (apply Rmult_le_pos; lra). apply Rle_trans with (7 * 1); [apply Rmult_le_compat; lra|lra]. }
  pose proof (fmul_result _ _ FI FS) as RM. rewrite VI in RM. apply Rabs_le_inv in E1, AB. destruct (half3 _ _ RM) as (F & _ & E2); [apply Rabs_le; lra|]. split; [exact F|]. apply Rabs_le. lra.
Qed.
(** The points lie on the circle of the given angle around the centre, evenly spaced and
    counterclockwise. *)
Theorem C134_regular_points : forall fsin fcos center radius n, accurate8 fsin sin -> accurate8 fcos cos -> is_unit center = true -> finite radius -> Rabs (B2R radius) <= 8 -> (0 <= n <= 2 ^ 53)%Z ->
  let l := regular_points fsin fcos center radius n in
  Z.of_nat (length l) = n /\
  exists e0 e1, right_handed e0 e1 (direction center) /\
    forall i x, nth_error l i = Some x -> is_unit x = true /\ apart (direction x) (on_circle e0 e1 (direction center) (B2R radius) (2 * PI * INR i / IZR n)) <= 1 / 2 ^ 39.
Proof.
  intros fsin fcos c r n AS AC U FR BR N. cbv zeta. unfold regular_points. split; [rewrite map_length, seq_length; lia|].
  assert (ST : forall i, (0 <= i < n)%Z -> near (fmul (of_int i) (fdiv (fmul f2 PI64) (of_int n))) (2 * PI * IZR i / IZR n) (10 * ulp1)) by (intros i I; apply step_angle; lia). set (st := fdiv (fmul f2 PI64) (of_int n)) in *. clearbody st.
  pose proof (frame_near c U) as FN. set (m := frame c) in *. clearbody m. destruct m as [[c0 c1] c2]. destruct FN as (E & F0 & F1 & F2 & e0 & e1 & RH & D0 & D1 & D2). set (e2 := direction c) in *. clearbody e2. exists e0, e1. split; [exact RH|].
  intros i x H. assert (LI : (i < Z.to_nat n)%nat) by (rewrite <- (seq_length (Z.to_nat n) 0), <- (map_length (fun i => regular_point fsin fcos (c0, c1, c2) r st (Z.of_nat i))); apply nth_error_Some; rewrite H; discriminate).
  rewrite nth_error_map, (nth_error_nth' _ 0%nat) in H by (rewrite seq_length; exact LI). rewrite seq_nth in H by exact LI. cbn [option_map Nat.add] in H. injection H as <-.
  pose proof (ST (Z.of_nat i) ltac:(lia)) as NA. rewrite <- INR_IZR_INZ in NA. unfold regular_point. set (t := fmul (of_int (Z.of_nat i)) st) in *. set (T := 2 * PI * INR i / IZR n) in *. clearbody t.
  assert (TB : 0 <= T <= 63 / 10). { assert (NP : 1 <= IZR n) by (apply IZR_le; lia). assert (IN : INR i <= IZR n) by (rewrite INR_IZR_INZ; apply IZR_le; lia). pose proof (pos_INR i) as I0. pose proof PI_tight as PT.
    assert (QI : 0 <= INR i / IZR n <= 1). { split; [apply Rmult_le_pos; [lra|apply Rlt_le, Rinv_0_lt_compat; lra]|]. apply (Rmult_le_reg_r (IZR n)); [lra|]. unfold Rdiv. rewrite Rmult_assoc, Rinv_l by lra. lra. }
    unfold T. replace (2 * PI * INR i / IZR n) with (2 * PI * (INR i / IZR n)) by (field; lra). split; [apply Rmult_le_pos; lra|apply Rle_trans with (63 / 10 * 1); [apply Rmult_le_compat; lra|lra]]. }
  clearbody T. destruct NA as [FT ET]. pose proof (Rabs_le_inv _ _ ET) as ET'.
  destruct (AS r FR BR) as [FS ES]. destruct (AC r FR BR) as [FC EC]. destruct (AS t FT ltac:(apply Rabs_le; lra)) as [FST EST]. destruct (AC t FT ltac:(apply Rabs_le; lra)) as [FCT ECT]. pose proof (sin_lip (B2R t) T) as SL. pose proof (cos_lip (B2R t) T) as CL.
  pose proof (SIN_bound (B2R r)) as B1. pose proof (COS_bound (B2R r)) as B2. pose proof (SIN_bound T) as B3. pose proof (COS_bound T) as B4.
  assert (N1 : near (fsin r) (sin (B2R r)) (4 * ulp1)) by (split; [exact FS|lra]). assert (N2 : near (fcos r) (cos (B2R r)) (4 * ulp1)) by (split; [exact FC|lra]).
  assert (N3 : near (fsin t) (sin T) (14 * ulp1)). { split; [exact FST|]. replace (B2R (fsin t) - sin T) with ((B2R (fsin t) - sin (B2R t)) + (sin (B2R t) - sin T)) by ring. eapply Rle_trans; [apply Rabs_triang|lra]. }
  assert (N4 : near (fcos t) (cos T) (14 * ulp1)). { split; [exact FCT|]. replace (B2R (fcos t) - cos T) with ((B2R (fcos t) - cos (B2R t)) + (cos (B2R t) - cos T)) by ring. eapply Rle_trans; [apply Rabs_triang|lra]. }
  assert (A1 : Rabs (sin (B2R r)) <= 1) by (apply Rabs_le; exact B1). assert (A2 : Rabs (cos (B2R r)) <= 1) by (apply Rabs_le; exact B2). assert (A3 : Rabs (sin T) <= 1) by (apply Rabs_le; exact B3). assert (A4 : Rabs (cos T) <= 1) by (apply Rabs_le; exact B4).
  pose proof (near_weak _ _ _ (23 * ulp1) (near_mul _ _ _ _ _ _ 1 1 N1 N4 A1 A4 ltac:(lra)) ltac:(lra)) as NX. pose proof (near_weak _ _ _ (23 * ulp1) (near_mul _ _ _ _ _ _ 1 1 N1 N3 A1 A3 ltac:(lra)) ltac:(lra)) as NY. pose proof (near_weak _ _ _ (23 * ulp1) N2 ltac:(lra)) as NZ.
  set (q0 := Pos (sin (B2R r) * cos T) (sin (B2R r) * sin T) (cos (B2R r))). set (q := Vec (fmul (fsin r) (fcos t)) (fmul (fsin r) (fsin t)) (fcos r)).
  assert (CQ : close q q0 (23 * ulp1)) by (destruct NX, NY, NZ; unfold close, finite_vec, q, q0; cbn [vx vy vz px3 py3 pz3]; auto 10).
  assert (WQ : within 1 q0). { unfold within, q0. cbn [px3 py3 pz3]. rewrite !Rabs_mult. repeat split; [| |exact A2]; (apply Rle_trans with (1 * 1); [apply Rmult_le_compat; try apply Rabs_pos; assumption|lra]). }
  destruct (from_near c0 c1 c2 e0 e1 e2 q q0 (23 * ulp1) 1 RH F0 F1 F2 ltac:(lra) ltac:(lra) ltac:(lra) CQ WQ ltac:(lra) ltac:(lra)) as [(FV & V1 & V2 & V3) _].
  change (on_circle e0 e1 e2 (B2R r) T) with (in_axes e0 e1 e2 q0). set (P := in_axes e0 e1 e2 q0) in *. set (v := from_frame (c0, c1, c2) q) in *.
  assert (OS : on_sphere P).
  { destruct (rows e0 e1 e2 RH) as (U2 & O02 & O12 & _). pose proof RH as (U0 & U1 & O01 & _). change dot3 with rdot in *. apply sphere_len.
    transitivity (px3 q0 * px3 q0 * rdot e0 e0 + py3 q0 * py3 q0 * rdot e1 e1 + pz3 q0 * pz3 q0 * rdot e2 e2 + 2 * (px3 q0 * py3 q0) * rdot e0 e1 + 2 * (px3 q0 * pz3 q0) * rdot e0 e2 + 2 * (py3 q0 * pz3 q0) * rdot e1 e2); [unfold P, in_axes, rdot; cbn [px3 py3 pz3]; ring|]. rewrite U0, U1, U2, O01, O02, O12. unfold q0. cbn [px3 py3 pz3].
    pose proof (sin2_cos2 (B2R r)) as S1. pose proof (sin2_cos2 T) as S2. unfold Rsqr in S1, S2. transitivity (sin (B2R r) * sin (B2R r) * (sin T * sin T + cos T * cos T) + cos (B2R r) * cos (B2R r)); [ring|]. rewrite S2. lra. }
  assert (CV : chd (RV v) P <= 2300 * ulp1). { rewrite chd_len. replace (2300 * ulp1) with (2 * (1150 * ulp1)) by ring. apply parts_le; [lra| | |]; unfold psub, RV; cbn [px3 py3 pz3]; lra. }
  destruct (normal_dir v P _ FV OS CV ltac:(lra)) as [UX DX]. split; [exact UX|]. change apart with chd. lra.
Qed.
Print Assumptions C134_regular_points.
Example C134_hyps : accurate8 cut_sin sin /\ accurate8 cut_cos cos /\ is_unit uy = true /\ finite fhalf /\ Rabs (B2R fhalf) <= 8 /\ length (regular_points cut_sin cut_cos uy fhalf 5) = 5%nat.
Proof.
  split; [intros x _ _; apply cut_unit, Rabs_le, SIN_bound|]. split; [intros x _ _; apply cut_unit, Rabs_le, COS_bound|]. split; [vm_compute; reflexivity|]. destruct fhalf_val as [F V]. split; [exact F|]. split; [rewrite V, Rabs_pos_eq; lra|]. unfold regular_points. rewrite map_length, seq_length. reflexivity.
Qed.
