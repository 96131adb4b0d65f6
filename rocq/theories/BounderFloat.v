(** The computations of the bounder of a chain of edges against real vectors. *)
From Coq Require Import ZArith Reals Lra Lia Psatz Bool.
From Flocq Require Import Core.
From Verif Require Import Base Spec F64 F64Facts IntervalSpec F64Arith F64Error F64Neg R1Proofs S1Proofs VectorModel PredicatesFloat PredicatesError PredicatesStable PredicatesSound PredicatesProofs NormProofs PropsNorm CapSpec CapModel CapError CapEdgeFloat CapEdgeMain
  AngleModel AngleProofs ExpandProofs CapProofs CircleProofs StuvError ChordProofs PropsCap TrigModel TrigSpec TrigProofs TrigWitness RegionModel RegionSpec PropsRegion PropsCap2 PropsDist CellLattice CrossProofs PointModel PointSpec PropsPoint Near PropsFrame2 SegModel SegProofs SegFloat PropsSeg PropsTrig S1Model R1Model RectModel BoundProofs BoundFace BoundCell PropsBound2 BudgetProofs BounderModel.
Open Scope R_scope.

Lemma edge_cross a b : fvec a -> fvec b -> Rabs (len (RV a) - 1) <= KR -> Rabs (len (RV b) - 1) <= KR ->
  let v := edge_normal a b in let N := pmul 2 (rcross (RV a) (RV b)) in
  fvec v /\ len (psub (RV v) N) <= 10 * u * (len N + 1 / 2 ^ 43) + 64 * h.
Proof.
  intros FA FB HA HB. unfold edge_normal. cbv zeta. unfold KR in *. apply Rabs_le_inv in HA, HB. pose proof h_tiny as HT. pose proof h_pos as HP.
  destruct (sub_rel a b FA FB ltac:(lra) ltac:(lra)) as [FS ES]. destruct (add_rel a b FA FB ltac:(lra) ltac:(lra)) as [FD ED].
  pose proof (len_psub (RV a) (RV b)) as TS. pose proof (len_tri (RV a) (RV b)) as TD.
  set (s := psub (RV a) (RV b)) in *. set (d := padd (RV a) (RV b)) in *. pose proof (len_pos s) as PS. pose proof (len_pos d) as PD.
  pose proof (len_sub (RV (vsub a b)) s) as QS. pose proof (len_sub (RV (vadd a b)) d) as QD. apply Rabs_le_inv in QS, QD.
  assert (LS : len (RV (vsub a b)) <= len s * (1 + 2 * u) + 2 * h) by lra. assert (LD : len (RV (vadd a b)) <= len d * (1 + 2 * u) + 2 * h) by lra.
  destruct (cross_rel _ _ FS FD ltac:(lra) ltac:(lra)) as [FV EV]. split; [exact FV|].
  pose proof (cross_near (RV (vsub a b)) (RV (vadd a b)) s d) as CN.
  assert (EN : rcross s d = pmul 2 (rcross (RV a) (RV b))) by (unfold s, d, rcross, pmul, padd, psub; apply pos_eq; cbn [px3 py3 pz3]; ring).
  rewrite EN in CN. set (N := pmul 2 (rcross (RV a) (RV b))) in *.
  (* the lengths of the sum and the difference *)
  assert (SD : len s * len d <= len N + 1 / 2 ^ 43).
  { assert (Q : (len s * len d) * (len s * len d) <= (len N + 1 / 2 ^ 43) * (len N + 1 / 2 ^ 43)).
    { replace (len s * len d * (len s * len d)) with ((len s * len s) * (len d * len d)) by ring. rewrite !len_sq. pose proof (cross_dot s d) as CD. rewrite EN, <- len_sq in CD.
      assert (DT : rdot s d = len (RV a) * len (RV a) - len (RV b) * len (RV b)) by (rewrite !len_sq; unfold s, d, rdot, padd, psub; cbn [px3 py3 pz3]; ring).
      assert (DB : Rabs (rdot s d) <= 1 / 2 ^ 43). { rewrite DT. replace (len (RV a) * len (RV a) - len (RV b) * len (RV b)) with ((len (RV a) - len (RV b)) * (len (RV a) + len (RV b))) by ring. rewrite Rabs_mult. apply Rle_trans with (54 / 1000000000000000 * (201 / 100)); [|lra]. apply Rmult_le_compat; try apply Rabs_pos; apply Rabs_le; lra. }
      pose proof (sq_abs_le (rdot s d) (1 / 2 ^ 43) ltac:(lra) DB) as DQ. pose proof (len_pos N) as PN. assert (0 <= len N * (1 / 2 ^ 43)) by (apply Rmult_le_pos; lra). lra. }
    apply Rsqr_incr_0_var in Q; [exact Q|]. pose proof (len_pos N). lra. }
  set (SDv := len s * len d) in *. assert (P0 : 0 <= SDv) by (apply Rmult_le_pos; assumption).
  set (S' := len (RV (vsub a b))) in *. set (D' := len (RV (vadd a b))) in *. assert (PS' : 0 <= S') by apply len_pos. assert (PD' : 0 <= D') by apply len_pos.
  assert (M1 : S' * D' <= SDv * (1 + 5 * u) + 10 * h).
  { apply Rle_trans with ((len s * (1 + 2 * u) + 2 * h) * (len d * (1 + 2 * u) + 2 * h)); [apply Rmult_le_compat; assumption|].
    replace ((len s * (1 + 2 * u) + 2 * h) * (len d * (1 + 2 * u) + 2 * h)) with (SDv * ((1 + 2 * u) * (1 + 2 * u)) + 2 * h * ((len s + len d) * (1 + 2 * u) + 2 * h)) by (unfold SDv; ring).
    apply Rplus_le_compat; [apply Rmult_le_compat_l; [exact P0|lra]|]. apply Rle_trans with (2 * h * 5); [apply Rmult_le_compat_l; lra|lra]. }
  assert (M2 : len (psub (RV (vsub a b)) s) * D' <= SDv * (2 * u + 5 * (u * u)) + 10 * h).
  { apply Rle_trans with ((2 * (u * len s + h)) * (len d * (1 + 2 * u) + 2 * h)); [apply Rmult_le_compat; try assumption; apply len_pos|].
    replace ((2 * (u * len s + h)) * (len d * (1 + 2 * u) + 2 * h)) with (SDv * (2 * u + 4 * (u * u)) + h * (4 * (u * len s) + 2 * (len d * (1 + 2 * u)) + 4 * h)) by (unfold SDv; ring).
    apply Rplus_le_compat; [apply Rmult_le_compat_l; [exact P0|lra]|]. apply Rle_trans with (h * 10); [apply Rmult_le_compat_l; lra|lra]. }
  assert (M3 : len s * len (psub (RV (vadd a b)) d) <= SDv * (2 * u) + 10 * h).
  { apply Rle_trans with (len s * (2 * (u * len d + h))); [apply Rmult_le_compat_l; assumption|].
    replace (len s * (2 * (u * len d + h))) with (SDv * (2 * u) + h * (2 * len s)) by (unfold SDv; ring). apply Rplus_le_compat_l. apply Rle_trans with (h * 10); [apply Rmult_le_compat_l; lra|lra]. }
  pose proof (len_tri (psub (RV (cross (vsub a b) (vadd a b))) (rcross (RV (vsub a b)) (RV (vadd a b)))) (psub (rcross (RV (vsub a b)) (RV (vadd a b))) N)) as T.
  replace (padd (psub (RV (cross (vsub a b) (vadd a b))) (rcross (RV (vsub a b)) (RV (vadd a b)))) (psub (rcross (RV (vsub a b)) (RV (vadd a b))) N)) with (psub (RV (cross (vsub a b) (vadd a b))) N) in T by (apply pos_eq; cbn; ring).
  eapply Rle_trans; [exact T|]. assert (u * (S' * D') <= u * (SDv * (1 + 5 * u) + 10 * h)) by (apply Rmult_le_compat_l; lra).
  apply Rle_trans with (5 * (u * (SDv * (1 + 5 * u) + 10 * h)) + 8 * h + (SDv * (2 * u + 5 * (u * u)) + 10 * h + (SDv * (2 * u) + 10 * h))); [lra|].
  apply Rle_trans with (10 * u * SDv + 64 * h); [lra|]. apply Rplus_le_compat_r, Rmult_le_compat_l; lra.
Qed.
Lemma norm_rel v : fvec v -> len (RV v) <= 3 -> finite (norm v) /\ 0 <= B2R (norm v) /\ Rabs (B2R (norm v) - len (RV v)) <= 6 * u * len (RV v) + 3 * TrigProofs.tiny.
Proof.
  intros FV L. destruct (dot_rel v v FV FV L L) as [FD ED]. pose proof (norm2_ge v FD) as P. fold (norm2 v) in *. unfold norm. destruct (fsqrt_val (norm2 v) FD P) as [FS VS]. destruct tiny_small as (T0 & T1 & T2). pose proof h_pos as HP. pose proof h_tiny as HT.
  rewrite <- len_sq in ED. pose proof (len_pos (RV v)) as L0. pose proof (root_near (B2R (norm2 v)) (len (RV v)) (4 * u) TrigProofs.tiny L0 ltac:(lra) ltac:(lra) P ltac:(lra)) as Q.
  pose proof (PredicatesError.rnd_rel (sqrt (B2R (norm2 v)))) as R. rewrite <- VS in R. pose proof (sqrt_pos (B2R (norm2 v))) as S0. rewrite (Rabs_pos_eq (sqrt _)) in R by exact S0. pose proof (Rmult_le_pos u (len (RV v)) ltac:(lra) L0) as UL.
  set (s := sqrt (B2R (norm2 v))) in *. set (l := len (RV v)) in *. split; [exact FS|]. assert (HL : h <= TrigProofs.tiny). { assert (TrigProofs.tiny * TrigProofs.tiny <= TrigProofs.tiny * 1) by (apply Rmult_le_compat_l; lra). lra. }
  split.
  - rewrite VS. apply rnd_nonneg. exact S0.
  - apply Rabs_le_inv in Q. assert (u * s <= u * (l + 4 * u * l + TrigProofs.tiny)) by (apply Rmult_le_compat_l; lra). replace (B2R (fsqrt (norm2 v)) - l) with (B2R (fsqrt (norm2 v)) - s + (s - l)) by ring. eapply Rle_trans; [apply Rabs_triang|].
    assert (Rabs (s - l) <= 4 * u * l + TrigProofs.tiny) by (apply Rabs_le; lra). assert (u * TrigProofs.tiny <= 1 / 100 * TrigProofs.tiny) by (apply Rmult_le_compat_r; lra). assert (u * (u * l) <= 1 / 100 * (u * l)) by (apply Rmult_le_compat_r; lra). lra.
Qed.

(** ** The normal of an edge *)
Lemma limit_val : finite NORM_LIMIT /\ 19 / 10000000000000000 <= B2R NORM_LIMIT <= 2 / 1000000000000000.
Proof.
  destruct (lit_val 0x113c236bd99808 (-101) ltac:(lia) ltac:(lia)) as [F V]. split; [exact F|]. unfold NORM_LIMIT. rewrite V. change (pow2 (-101)) with (/ 2535301200456458802993406410752). lra.
Qed.
Lemma edge_normal_ok a b : is_unit a = true -> is_unit b = true -> let o := angle_between (direction a) (direction b) in let n := edge_normal a b in
  fvec n /\ len (RV n) <= 5 / 2 /\
  (flt (norm n) NORM_LIMIT = true -> sin o <= 1 / 2 ^ 42) /\
  (flt (norm n) NORM_LIMIT = false -> 0 < sin o /\ 18 / 10000000000000000 <= len (RV n) /\ len (psub (pmul (/ len (RV n)) (RV n)) (pmul (/ sin o) (rcross (direction a) (direction b)))) <= 1 / 2 ^ 42).
Proof.
  intros UA UB o n. destruct (len_RV_unit a UA) as (FA & PA & HA & _). destruct (len_RV_unit b UB) as (FB & PB & HB & _). pose proof (unit_sphere a UA) as SA. pose proof (unit_sphere b UB) as SB. destruct (angle_trig _ _ SA SB) as (O & CO & SI). cbv zeta in O, CO, SI. fold o in O, CO, SI.
  pose proof (SIN_bound o) as SBD. assert (S0 : 0 <= sin o) by (rewrite SI; apply sqrt_pos). assert (LC : len (rcross (direction a) (direction b)) = sin o). { rewrite SI. unfold len. rewrite cross_dot, (proj1 (sphere_len _) SA), (proj1 (sphere_len _) SB). f_equal. ring. }
  destruct (edge_cross a b FA FB HA HB) as [FV EV]. cbv zeta in *. fold n in FV, EV. set (N := pmul 2 (rcross (RV a) (RV b))) in *. unfold KR in HA, HB. apply Rabs_le_inv in HA, HB.
  set (k := 2 * (len (RV a) * len (RV b)) * sin o). assert (LL : 999 / 1000 <= len (RV a) * len (RV b) <= 1001 / 1000). { split; [apply Rle_trans with (9999 / 10000 * (9999 / 10000)); [lra|apply Rmult_le_compat; lra]|apply Rle_trans with (10001 / 10000 * (10001 / 10000)); [apply Rmult_le_compat; lra|lra]]. }
  assert (KB : 1998 / 1000 * sin o <= k <= 2002 / 1000 * sin o). { unfold k. split; apply Rmult_le_compat_r; lra. }
  assert (NE : N = pmul (2 * (len (RV a) * len (RV b))) (rcross (direction a) (direction b))). { unfold N. rewrite !dir_scaled by assumption. assert (0 < len (RV a)) by lra. assert (0 < len (RV b)) by lra. apply pos_eq; unfold pmul, rcross; cbn [px3 py3 pz3]; field; lra. }
  assert (LNk : len N = k). { rewrite NE, len_mul, LC, Rabs_pos_eq by lra. reflexivity. } rewrite LNk in EV. pose proof h_tiny as HT. pose proof h_pos as HP.
  pose proof (len_sub (RV n) N) as LS. rewrite LNk in LS. apply Rabs_le_inv in LS. assert (LV : len (RV n) <= 5 / 2) by lra. split; [exact FV|]. split; [exact LV|].
  destruct (norm_rel n FV ltac:(lra)) as (FN & PN & EN). destruct limit_val as [FL VL]. destruct tiny_small as (T0 & T1 & T2). assert (T3 : TrigProofs.tiny <= 1 / 10 ^ 30) by (eapply Rle_trans; [exact T1|lra]). pose proof (len_pos (RV n)) as L0. apply Rabs_le_inv in EN.
  destruct (flt_R (norm n) NORM_LIMIT FN FL) as [C|C]; split; intros HC; try discriminate HC.
  - lra.
  - assert (LN : 18 / 10000000000000000 <= len (RV n)) by lra. assert (SP : 0 < sin o) by lra. split; [exact SP|]. split; [exact LN|].
    pose proof (unit_close (RV n) N ltac:(lra) ltac:(lra)) as UC. rewrite LNk in UC.
    replace (pmul (/ k) N) with (pmul (/ sin o) (rcross (direction a) (direction b))) in UC by (rewrite NE; unfold k; apply pos_eq; unfold pmul; cbn [px3 py3 pz3]; field; lra).
    eapply Rle_trans; [exact UC|]. apply (Rmult_le_reg_r k); [lra|]. unfold Rdiv. rewrite Rmult_assoc, Rinv_l, Rmult_1_r by lra. lra.
Qed.

(** ** On which side of the highest point the ends are *)
Definition zaxis : CapSpec.pos := Pos 0 0 1.
Lemma zaxis_on : on_sphere zaxis. Proof. unfold on_sphere, zaxis. cbn [px3 py3 pz3]. ring. Qed.
Lemma side_ok n x N : fvec n -> 18 / 10000000000000000 <= len (RV n) <= 5 / 2 -> len N = 1 -> len (psub (pmul (/ len (RV n)) (RV n)) N) <= 1 / 2 ^ 42 -> is_unit x = true ->
  let s := dot (cross n (Vec f0 f0 f1)) x in finite s /\ Rabs (B2R s - len (RV n) * rdot (direction x) (rcross N zaxis)) <= len (RV n) * (1 / 2 ^ 41).
Proof.
  intros FN LN L1 EN UX s. destruct (len_RV_unit x UX) as (FX & PX & HX & GX). pose proof (unit_sphere x UX) as SX. pose proof (len1 _ SX) as LX. set (r := len (RV n)) in *. set (d := direction x) in *. unfold KR in *. apply Rabs_le_inv in HX. pose proof h_tiny as HT. pose proof h_pos as HP.
  assert (RZ : RV (Vec f0 f0 f1) = zaxis). { unfold zaxis, RV. cbn [vx vy vz]. rewrite (proj2 f0_val), (proj2 f1_val). reflexivity. }
  assert (FZ : fvec (Vec f0 f0 f1)) by (repeat split; reflexivity). assert (LZ : len zaxis = 1) by (apply len1, zaxis_on).
  destruct (cross_rel n _ FN FZ ltac:(fold r; lra) ltac:(rewrite RZ; lra)) as [FM EM]. rewrite RZ, LZ in EM. fold r in EM. set (m := cross n (Vec f0 f0 f1)) in *. set (W := rcross N zaxis).
  set (C := pmul (/ r) (RV n)) in *. assert (CE : RV n = pmul r C) by (unfold C; apply pos_eq; unfold pmul; cbn [px3 py3 pz3]; field; lra).
  assert (LW : len W <= 1). { unfold W. eapply Rle_trans; [apply len_cross|]. rewrite L1, LZ. lra. }
  assert (E1 : len (psub (rcross (RV n) zaxis) (pmul r W)) <= r * (1 / 2 ^ 42)).
  { replace (psub (rcross (RV n) zaxis) (pmul r W)) with (pmul r (rcross (psub C N) zaxis)) by (rewrite CE; unfold W; apply pos_eq; unfold pmul, psub, rcross; cbn [px3 py3 pz3]; ring). rewrite len_mul, Rabs_pos_eq by lra. apply Rmult_le_compat_l; [lra|]. eapply Rle_trans; [apply len_cross|]. rewrite LZ. lra. }
  assert (E2 : len (psub (RV m) (pmul r W)) <= r * (1 / 2 ^ 42 + 6 * u)).
  { pose proof (len_tri (psub (RV m) (rcross (RV n) zaxis)) (psub (rcross (RV n) zaxis) (pmul r W))) as T. replace (padd (psub (RV m) (rcross (RV n) zaxis)) (psub (rcross (RV n) zaxis) (pmul r W))) with (psub (RV m) (pmul r W)) in T by (apply pos_eq; unfold padd, psub, pmul; cbn [px3 py3 pz3]; ring). lra. }
  assert (LM : len (RV m) <= r * (101 / 100)). { pose proof (len_sub (RV m) (pmul r W)) as Q. rewrite len_mul, (Rabs_pos_eq r) in Q by lra. apply Rabs_le_inv in Q. assert (r * len W <= r * 1) by (apply Rmult_le_compat_l; lra). lra. }
  destruct (dot_rel m x FM FX ltac:(lra) ltac:(lra)) as [FD ED]. fold s in FD, ED. split; [exact FD|].
  pose proof (dot_near (RV m) (RV x) (pmul r W) d) as DN. rewrite len_mul, (Rabs_pos_eq r) in DN by lra.
  assert (B1 : len (psub (RV m) (pmul r W)) * len (RV x) <= r * (1 / 2 ^ 42 + 6 * u) * (1001 / 1000)) by (apply Rmult_le_compat; try apply len_pos; lra).
  assert (B2 : r * len W * len (psub (RV x) d) <= r * 1 * (27 / 1000000000000000)). { apply Rmult_le_compat; [apply Rmult_le_pos; [lra|apply len_pos]|apply len_pos|apply Rmult_le_compat_l; lra|exact GX]. }
  assert (B3 : len (RV m) * len (RV x) <= r * (101 / 100) * (1001 / 1000)) by (apply Rmult_le_compat; try apply len_pos; lra).
  replace (r * rdot d W) with (rdot (pmul r W) d) by (unfold rdot, pmul; cbn [px3 py3 pz3]; ring).
  assert (B4 : u * (len (RV m) * len (RV x)) <= u * (r * (101 / 100) * (1001 / 1000))) by (apply Rmult_le_compat_l; lra).
  replace (B2R s - rdot (pmul r W) d) with (B2R s - rdot (RV m) (RV x) + (rdot (RV m) (RV x) - rdot (pmul r W) d)) by ring. eapply Rle_trans; [apply Rabs_triang|]. clear - ED DN B1 B2 B4 HT HP LN. lra.
Qed.

(** ** The largest latitude of the great circle *)
Lemma axis_dist4 v : fvec v -> Rabs (X v) <= 4 -> Rabs (Y v) <= 4 ->
  let l := fsqrt (fadd (fmul (vx v) (vx v)) (fmul (vy v) (vy v))) in let r := sqrt (X v * X v + Y v * Y v) in
  finite l /\ Bsign l = false /\ 0 <= B2R l /\ Rabs (B2R l - r) <= 5 * u * r + 3 * TrigProofs.tiny.
Proof.
  intros (F1 & F2 & _) B1 B2. cbv zeta. destruct tiny_small as (T0 & T1 & T2). pose proof h_pos as H0. pose proof h_tiny as HT.
  destruct (mul_val _ _ 2 2 F1 F1 B1 B1 ltac:(lia)) as (G1 & E1 & C1). destruct (mul_val _ _ 2 2 F2 F2 B2 B2 ltac:(lia)) as (G2 & E2 & C2).
  destruct (add_val _ _ _ G1 G2 C1 C2 ltac:(lia)) as (G3 & E3 & C3).
  assert (SG : Bsign (fadd (fmul (vx v) (vx v)) (fmul (vy v) (vy v))) = false) by (apply sign_add; auto; apply sign_sq; assumption).
  set (s := fadd _ _) in *.
  pose proof (PredicatesError.rnd_rel (X v * X v)) as R1. pose proof (PredicatesError.rnd_rel (Y v * Y v)) as R2. rewrite <- E1 in R1. rewrite <- E2 in R2.
  pose proof (PredicatesError.rnd_rel (B2R (fmul (vx v) (vx v)) + B2R (fmul (vy v) (vy v)))) as R3. rewrite <- E3 in R3.
  assert (Q1 : 0 <= X v * X v) by nra. assert (Q2 : 0 <= Y v * Y v) by nra. rewrite (Rabs_pos_eq _ Q1) in R1. rewrite (Rabs_pos_eq _ Q2) in R2.
  assert (P1 : 0 <= B2R (fmul (vx v) (vx v))) by (rewrite E1; apply rnd_nonneg, Q1). assert (P2 : 0 <= B2R (fmul (vy v) (vy v))) by (rewrite E2; apply rnd_nonneg, Q2).
  assert (P3 : 0 <= B2R s) by (rewrite E3; apply rnd_nonneg; lra). rewrite (Rabs_pos_eq (B2R (fmul (vx v) (vx v)) + B2R (fmul (vy v) (vy v)))) in R3 by lra.
  set (m := X v * X v + Y v * Y v) in *. assert (M0 : 0 <= m) by (unfold m; lra).
  assert (D : Rabs (B2R s - m) <= 3 * u * m + 8 * h).
  { apply Rabs_le_inv in R1, R2, R3. unfold m in *. apply Rabs_le. lra. }
  destruct (fsqrt_val s G3 P3) as [Fl El]. split; [exact Fl|]. split; [apply sign_sqrt; assumption|]. assert (PL : 0 <= B2R (fsqrt s)) by (rewrite El; apply rnd_nonneg, sqrt_pos). split; [exact PL|].
  pose proof (sqrt_sqrt _ M0) as SM. pose proof (sqrt_sqrt _ P3) as SS. pose proof (sqrt_pos m) as RM. pose proof (sqrt_pos (B2R s)) as RS. set (r := sqrt m) in *. set (q := sqrt (B2R s)) in *.
  assert (K : Rabs (q - r) <= 3 * u * r + TrigProofs.tiny). { apply sqrt_step; try lra. rewrite SM, SS. lra. }
  pose proof (PredicatesError.rnd_rel q) as RQ. rewrite <- El, (Rabs_pos_eq q) in RQ by lra. assert (h <= TrigProofs.tiny) by (apply bpow_le; lia). apply Rabs_le_inv in K, RQ. apply Rabs_le. lra.
Qed.
(* the distance from the axis of nearby vectors *)
Lemma axis_lip p q : Rabs (sqrt (px3 p * px3 p + py3 p * py3 p) - sqrt (px3 q * px3 q + py3 q * py3 q)) <= len (psub p q).
Proof.
  assert (E : forall w, sqrt (px3 w * px3 w + py3 w * py3 w) = len (Pos (px3 w) (py3 w) 0)) by (intros w; unfold len, rdot; cbn [px3 py3 pz3]; f_equal; ring). rewrite !E. eapply Rle_trans; [apply len_sub|]. unfold len. apply sqrt_le_1_alt. unfold rdot, psub. cbn [px3 py3 pz3].
  pose proof (Rle_0_sqr (pz3 p - pz3 q)) as S. unfold Rsqr in S. lra.
Qed.
Lemma max_lat_ok fatan2 n N : accurate_atan2 fatan2 -> upper_atan2 fatan2 -> fvec n -> 18 / 10000000000000000 <= len (RV n) <= 5 / 2 -> len N = 1 -> len (psub (pmul (/ len (RV n)) (RV n)) N) <= 1 / 2 ^ 42 ->
  let k := sqrt (px3 N * px3 N + py3 N * py3 N) in let m := edge_max_lat fatan2 n in
  finite m /\ 1 / 2 ^ 51 <= B2R m <= pi / 2 /\ 0 <= k <= 1 /\ asin k - 65 / 64 / 2 ^ 40 <= B2R m.
Proof.
  intros AT UT FN LN L1 EN k m. destruct (len_comp (RV n)) as (C1 & C2 & C3). pose proof FN as (F1 & F2 & F3). destruct (axis_dist4 n FN ltac:(cbn [px3 RV] in C1; lra) ltac:(cbn [py3 RV] in C2; lra)) as (FL & SL & PL & EL).
  unfold m, edge_max_lat. clear m. set (l := fsqrt _) in *. set (g := sqrt (X n * X n + Y n * Y n)) in *. set (r := len (RV n)) in *. destruct tiny_small as (T0 & T1 & T2). pose proof PI_tight as PT. pose proof pi_PI as PP. pose proof pi_bounds as PB.
  assert (T3 : 3 * TrigProofs.tiny <= r * u). { apply Rle_trans with (3 * (u * u)); [lra|]. replace (3 * (u * u)) with ((3 * u) * u) by ring. apply Rmult_le_compat_r; lra. }
  (* the direction of the normal *)
  set (C := pmul (/ r) (RV n)) in *. assert (CX : px3 C = X n / r) by (unfold C, pmul, RV; cbn [px3]; field; lra). assert (CY : py3 C = Y n / r) by (unfold C, pmul, RV; cbn [py3]; field; lra). assert (CZ : pz3 C = Z n / r) by (unfold C, pmul, RV; cbn [pz3]; field; lra).
  pose proof (axis_lip C N) as AL. fold k in AL. assert (GC : sqrt (px3 C * px3 C + py3 C * py3 C) = g / r). { rewrite CX, CY. replace (X n / r * (X n / r) + Y n / r * (Y n / r)) with ((X n * X n + Y n * Y n) / (r * r)) by (field; lra). rewrite sqrt_div_alt by (apply Rmult_lt_0_compat; lra). rewrite sqrt_square by lra. reflexivity. } rewrite GC in AL.
  assert (K0 : 0 <= k) by apply sqrt_pos. pose proof (len_sq N) as NN. rewrite L1 in NN. unfold rdot in NN. assert (KK : k * k = px3 N * px3 N + py3 N * py3 N) by (apply sqrt_sqrt; pose proof (Rle_0_sqr (px3 N)); pose proof (Rle_0_sqr (py3 N)); unfold Rsqr in *; lra).
  assert (K1 : k <= 1). { apply BudgetProofs.sq_le; [lra|]. pose proof (Rle_0_sqr (pz3 N)) as S. unfold Rsqr in S. lra. }
  set (M := asin k). assert (M0 : 0 <= M <= PI / 2). { unfold M. split; [rewrite <- asin_0; apply asin_mono; lra|apply asin_bound]. } assert (SM : sin M = k) by (apply sin_asin; lra). assert (CM0 : 0 <= cos M) by (apply cos_ge_0; lra).
  assert (CM : cos M = Rabs (pz3 N)). { rewrite <- (sqrt_square (cos M)) by exact CM0. rewrite <- (sqrt_square (Rabs (pz3 N))) by apply Rabs_pos. f_equal. rewrite sqr_abs. pose proof (sin2_cos2 M) as Q. unfold Rsqr in Q. rewrite SM in Q. lra. }
  assert (ZC : Rabs (Rabs (Z n) / r - cos M) <= 1 / 2 ^ 42). { rewrite CM. replace (Rabs (Z n) / r) with (Rabs (pz3 C)) by (rewrite CZ; unfold Rdiv; rewrite Rabs_mult, (Rabs_pos_eq (/ r)) by (apply Rlt_le, Rinv_0_lt_compat; lra); reflexivity). eapply Rle_trans; [apply Rabs_triang_inv2|]. destruct (len_comp (psub C N)) as (_ & _ & Q). cbn [pz3 psub] in Q. lra. }
  assert (G0 : 0 <= g) by apply sqrt_pos. assert (GR : g <= r). { unfold g, r, len. apply sqrt_le_1_alt. unfold rdot, RV. cbn [px3 py3 pz3]. pose proof (Rle_0_sqr (Z n)) as S. unfold Rsqr in S. lra. }
  assert (LG : Rabs (B2R l - g) <= 6 * u * r). { assert (5 * u * g <= 5 * u * r) by (apply Rmult_le_compat_l; lra). lra. } clear EL.
  assert (LK : Rabs (B2R l - r * k) <= r * (1 / 2 ^ 42 + 6 * u)). { assert (Rabs (g - r * k) <= r * (1 / 2 ^ 42)). { replace (g - r * k) with (r * (g / r - k)) by (field; lra). rewrite Rabs_mult, (Rabs_pos_eq r) by lra. apply Rmult_le_compat_l; lra. } replace (B2R l - r * k) with (B2R l - g + (g - r * k)) by ring. eapply Rle_trans; [apply Rabs_triang|]. lra. }
  assert (ZK : Rabs (Rabs (Z n) - r * cos M) <= r * (1 / 2 ^ 42)). { replace (Rabs (Z n) - r * cos M) with (r * (Rabs (Z n) / r - cos M)) by (field; lra). rewrite Rabs_mult, (Rabs_pos_eq r) by lra. apply Rmult_le_compat_l; lra. }
  (* the computed angle *)
  destruct (fabs_val (vz n) F3) as [FA VA]. destruct (AT l (fabs (vz n)) FL FA) as (Fo & _ & Ho). pose proof (UT l (fabs (vz n)) FL FA SL) as U0. rewrite VA in Ho. set (w := fatan2 l (fabs (vz n))) in *. set (y := B2R l) in *. set (x := Rabs (Z n)) in *. assert (X0 : 0 <= x) by apply Rabs_pos.
  set (d := sqrt (x * x + y * y)). assert (DD : d * d = x * x + y * y) by (apply sqrt_sqrt; pose proof (Rle_0_sqr x); pose proof (Rle_0_sqr y); unfold Rsqr in *; lra). assert (D0 : 0 <= d) by apply sqrt_pos.
  assert (RR : r * r = g * g + x * x). { unfold r. rewrite len_sq. unfold g. rewrite sqrt_sqrt by (pose proof (Rle_0_sqr (X n)); pose proof (Rle_0_sqr (Y n)); unfold Rsqr in *; lra). unfold x. rewrite sqr_abs. unfold rdot, RV. cbn [px3 py3 pz3]. ring. }
  assert (DR : 9999 / 10000 * r <= d).
  { apply BudgetProofs.sq_le; [exact D0|]. rewrite DD. apply Rabs_le_inv in LG. destruct (Rle_dec g (1 / 1000 * r)) as [GS|GS].
    - assert (g * g <= (1 / 1000 * r) * (1 / 1000 * r)) by (apply Rmult_le_compat; lra). pose proof (Rle_0_sqr y) as Y0. unfold Rsqr in Y0. pose proof (Rle_0_sqr r) as R0. unfold Rsqr in R0. lra.
    - assert (L2 : 99999 / 100000 * g <= y) by lra. assert ((99999 / 100000 * g) * (99999 / 100000 * g) <= y * y) by (apply Rmult_le_compat; lra). pose proof (Rle_0_sqr g) as G2. pose proof (Rle_0_sqr x) as X2. unfold Rsqr in *. lra. }
  assert (DP : 0 < d) by lra. assert (NZ : y <> 0 \/ x <> 0). { destruct (Req_dec y 0) as [Ey|Ey]; [right|left; exact Ey]. intros Ex. rewrite Ey, Ex in DD. assert (0 < d * d) by (apply Rmult_lt_0_compat; exact DP). lra. }
  destruct (Ho NZ) as (_ & t & (TB & TX & TY) & TE). fold d in TX, TY.
  assert (ST : 0 <= sin t). { apply (Rmult_le_reg_l d); [exact DP|]. rewrite Rmult_0_r, <- TY. exact PL. } assert (CT : 0 <= cos t). { apply (Rmult_le_reg_l d); [exact DP|]. rewrite Rmult_0_r, <- TX. exact X0. }
  pose proof (cos_abs_lt t TB CT) as TA. apply Rabs_le_inv in TA. assert (T00 : 0 <= t). { apply Rnot_lt_le. intros TN. assert (sin t < 0) by (rewrite <- (Ropp_involutive t), sin_neg; pose proof (sin_gt_0 (- t) ltac:(lra) ltac:(lra)); lra). lra. }
  assert (SD : d * sin (t - M) = (y - r * k) * cos M - (x - r * cos M) * k). { rewrite sin_minus, SM, TX, TY at 1. fold d. replace (d * (sin t * cos M - cos t * k)) with ((d * sin t) * cos M - (d * cos t) * k) by ring. rewrite <- TX, <- TY. ring. }
  assert (SB : Rabs (sin (t - M)) <= 129 / 128 / 2 ^ 41).
  { apply (Rmult_le_reg_l d); [exact DP|]. rewrite <- (Rabs_pos_eq d) at 1 by exact D0. rewrite <- Rabs_mult, SD. pose proof (COS_bound M) as CB.
    assert (A1 : Rabs ((y - r * k) * cos M) <= r * (1 / 2 ^ 42 + 6 * u) * 1) by (rewrite Rabs_mult; apply Rmult_le_compat; try apply Rabs_pos; [exact LK|rewrite Rabs_pos_eq; lra]).
    assert (A2 : Rabs ((x - r * cos M) * k) <= r * (1 / 2 ^ 42) * 1) by (rewrite Rabs_mult; apply Rmult_le_compat; try apply Rabs_pos; [exact ZK|rewrite Rabs_pos_eq; lra]).
    unfold Rminus at 1. eapply Rle_trans; [apply Rabs_triang|]. rewrite Rabs_Ropp. lra. }
  pose proof (sin_small (t - M) _ ltac:(apply Rabs_le; lra) SB) as TM. apply Rabs_le_inv in TM, TE.
  (* the margin *)
  set (e := fmul (lit 3 0) DBL_EPSILON). assert (FE : finite e) by (vm_compute; reflexivity). assert (VE : B2R e = 3 / 2 ^ 52). { destruct (lit_val 3 (-52) ltac:(lia) ltac:(lia)) as [Fl Vl]. rewrite (feq_B2R e (lit 3 (-52)) FE Fl ltac:(vm_compute; reflexivity)), Vl. change (pow2 (-52)) with (/ 4503599627370496). lra. }
  clearbody e. assert (NW : near w (B2R w) 0) by (apply near_val; exact Fo). assert (NE : near e (3 / 2 ^ 52) 0) by (rewrite <- VE; apply near_val; exact FE).
  assert (WB : 0 <= B2R w <= 2) by lra. pose proof (near_add _ _ _ _ _ _ NW NE ltac:(rewrite Rabs_pos_eq; lra)) as [FS ES]. apply Rabs_le_inv in ES.
  assert (SL' : 3 / 2 ^ 52 <= B2R (fadd w e)). { pose proof (fadd_result _ _ Fo FE) as R. destruct (half4 _ _ R) as (_ & V & _); [rewrite VE; apply Rabs_le; lra|]. rewrite V. replace (3 / 2 ^ 52) with (rnd (B2R e)) by (rewrite (rnd_fix e), VE; reflexivity). apply rnd_le. lra. }
  destruct FRAC_PI_2_val as [FF VF]. destruct (fmin_R (fadd w e) FRAC_PI_2 FS FF) as [FM VM]. split; [exact FM|]. rewrite VM, VF. split; [split; [apply Rmin_glb; lra|apply Rmin_r]|]. split; [lra|]. apply Rmin_glb; fold M; lra.
Qed.

(** ** How far the latitude can rise *)
Lemma asin_rise x y e s : -1 <= x <= 1 -> -1 <= y <= 1 -> y <= x + e -> 0 <= s -> 8 * e <= s * s -> asin y <= asin x + s.
Proof.
  intros X0 Y0 L S E. pose proof PI_tight as PT. set (a := asin y). set (b := asin x). pose proof (asin_bound y) as AB. pose proof (asin_bound x) as BB. fold a in AB. fold b in BB.
  destruct (Rle_dec a b) as [C|C]; [lra|]. assert (SX : sin b = x) by (apply sin_asin; lra). assert (SY : sin a = y) by (apply sin_asin; lra).
  assert (E2 : y - x = 2 * cos ((a + b) / 2) * sin ((a - b) / 2)) by (rewrite <- SX, <- SY; apply form4). set (d := a - b) in *. assert (D0 : 0 < d) by (unfold d; lra).
  assert (S2 : d / 4 <= sin (d / 2)) by (pose proof (sin_half (d / 2) ltac:(unfold d in *; lra)); lra).
  assert (CS : sin (d / 2) <= cos ((a + b) / 2)). { rewrite <- cos_shift. assert (CA : cos ((a + b) / 2) = cos (Rabs ((a + b) / 2))) by (unfold Rabs; destruct Rcase_abs; [rewrite cos_neg; reflexivity|reflexivity]). rewrite CA. assert (0 <= Rabs ((a + b) / 2) <= PI / 2 - d / 2) by (split; [apply Rabs_pos|apply Rabs_le; unfold d; lra]). apply cos_decr_1; unfold d in *; lra. }
  assert (d / 4 * (d / 4) <= cos ((a + b) / 2) * sin (d / 2)) by (apply Rmult_le_compat; lra). assert (d * d <= s * s) by lra. pose proof (BudgetProofs.sq_le d s S ltac:(lra)). unfold d in *. lra.
Qed.
Lemma chord_near a b : is_unit a = true -> is_unit b = true -> let o := angle_between (direction a) (direction b) in near (norm (vsub a b)) (2 * sin (o / 2)) (1 / 2 ^ 43).
Proof.
  intros UA UB o. destruct (len_RV_unit a UA) as (FA & PA & HA & GA). destruct (len_RV_unit b UB) as (FB & PB & HB & GB). pose proof (unit_sphere a UA) as SA. pose proof (unit_sphere b UB) as SB. destruct (angle_trig _ _ SA SB) as (O & CO & SI). cbv zeta in O, CO, SI. fold o in O, CO, SI.
  unfold KR in *. apply Rabs_le_inv in HA, HB. destruct (sub_rel a b FA FB ltac:(lra) ltac:(lra)) as [FS ES]. pose proof h_tiny as HT. pose proof h_pos as HP. pose proof PI_tight as PT.
  assert (CL : len (psub (direction a) (direction b)) = 2 * sin (o / 2)).
  { assert (S0 : 0 <= sin (o / 2)) by (apply sin_ge_0; lra). rewrite <- (sqrt_square (2 * sin (o / 2))) by lra. rewrite <- chd_len. unfold chd. f_equal. rewrite dist2_dot by assumption. rewrite <- CO. pose proof (cos_half o) as CH. lra. }
  assert (D : Rabs (len (psub (RV a) (RV b)) - 2 * sin (o / 2)) <= 54 / 1000000000000000).
  { rewrite <- CL. eapply Rle_trans; [apply len_sub|]. replace (psub (psub (RV a) (RV b)) (psub (direction a) (direction b))) with (psub (psub (RV a) (direction a)) (psub (RV b) (direction b))) by (apply pos_eq; unfold psub; cbn [px3 py3 pz3]; ring). eapply Rle_trans; [apply len_psub|]. lra. }
  pose proof (SIN_bound (o / 2)) as SBD. apply Rabs_le_inv in D. pose proof (len_sub (RV (vsub a b)) (psub (RV a) (RV b))) as LS. apply Rabs_le_inv in LS. set (L := len (psub (RV a) (RV b))) in *. set (L' := len (RV (vsub a b))) in *.
  destruct (norm_rel (vsub a b) FS ltac:(fold L'; lra)) as (FN & PN & EN). fold L' in EN. destruct tiny_small as (T0 & T1 & T2). split; [exact FN|]. apply Rabs_le_inv in EN. apply Rabs_le. lra.
Qed.
Lemma max_delta_ok fsin fasin a b m k l : accurate_sin fsin -> accurate_asin fasin -> is_unit a = true -> is_unit b = true ->
  let o := angle_between (direction a) (direction b) in
  finite m -> 1 / 2 ^ 51 <= B2R m <= pi / 2 -> 0 <= k <= 1 -> asin k - 65 / 64 / 2 ^ 40 <= B2R m -> finite l -> 0 <= B2R l <= 4 ->
  let d := edge_max_delta fsin fasin a b m l in finite d /\ Rabs (B2R d) <= 4 /\ asin (k * sin (o / 2)) - B2R l / 2 - 17 / 16 / 2 ^ 18 <= B2R d.
Proof.
  intros AS AA UA UB o Fm Rm K Km Fl Rl d. destruct (chord_near a b UA UB) as [FN EN]. fold o in EN. pose proof (unit_sphere a UA) as SA. pose proof (unit_sphere b UB) as SB. destruct (angle_trig _ _ SA SB) as (O & CO & SI). cbv zeta in O, CO, SI. fold o in O, CO, SI. clear CO SI.
  pose proof PI_tight as PT. pose proof pi_PI as PP. pose proof pi_bounds as PB. unfold d, edge_max_delta. clear d. set (c := norm (vsub a b)) in *. assert (PC : 0 <= B2R c). { unfold c in *. destruct (len_RV_unit a UA) as (FA & PA & HA & GA). destruct (len_RV_unit b UB) as (FB & PB' & HB & GB). unfold KR in *. apply Rabs_le_inv in HA, HB. destruct (sub_rel a b FA FB ltac:(lra) ltac:(lra)) as [FS ES]. pose proof (len_psub (RV a) (RV b)) as LP. pose proof (len_sub (RV (vsub a b)) (psub (RV a) (RV b))) as LS. apply Rabs_le_inv in LS. pose proof h_tiny as HT. pose proof h_pos as HP. destruct (norm_rel (vsub a b) FS ltac:(lra)) as (_ & P & _). exact P. }
  clearbody c. assert (S0 : 0 <= sin (o / 2)) by (apply sin_ge_0; lra). pose proof (SIN_bound (o / 2)) as SBD. set (S := sin (o / 2)) in *. clearbody S. apply Rabs_le_inv in EN.
  (* half the chord *)
  destruct (CircleProofs.half_val c FN ltac:(rewrite Rabs_pos_eq; lra)) as (FH & VH & EH). set (g := fmul fhalf c) in *. assert (PG : 0 <= B2R g) by (rewrite VH; apply rnd_nonneg; lra). clearbody g.
  (* the sine *)
  destruct (AS m Fm ltac:(rewrite Rabs_pos_eq; lra)) as (Fs & Bs & Es). set (s := fsin m) in *. clearbody s. assert (SM : 1 / 2 ^ 52 <= sin (B2R m)) by (pose proof (sin_half (B2R m) ltac:(lra)); lra). rewrite (Rabs_pos_eq (sin (B2R m))) in Es by lra. assert (T : bpow radix2 (-1000) <= 1 / 2 ^ 100). { apply Rle_trans with (bpow radix2 (-100)); [apply bpow_le; lia|]. change (bpow radix2 (-100)) with (/ 1267650600228229401496703205376). lra. }
  apply Rabs_le_inv in Es, Bs. pose proof (SIN_bound (B2R m)) as SMB. assert (Ps : 0 <= B2R s) by lra.
  assert (SK : k - 65 / 64 / 2 ^ 40 <= sin (B2R m)).
  { assert (SN : sin (asin k) = k) by (apply sin_asin; lra). pose proof (asin_bound k) as AB. destruct (Rle_dec (asin k) (B2R m)) as [C|C]; [assert (sin (asin k) <= sin (B2R m)) by (apply sin_incr_1; lra); lra|]. pose proof (sin_lip (asin k) (B2R m)) as Q. rewrite (Rabs_pos_eq (asin k - B2R m)) in Q by lra. apply Rabs_le_inv in Q. lra. }
  (* their product *)
  pose proof (fmul_result _ _ FH Fs) as RM. assert (GS : B2R g * B2R s <= 2 * 1) by (apply Rmult_le_compat; lra). assert (GS0 : 0 <= B2R g * B2R s) by (apply Rmult_le_pos; assumption). destruct (half4 _ _ RM ltac:(rewrite Rabs_pos_eq; lra)) as (FZ & VZ & EZ). set (z := fmul g s) in *. assert (PZ : 0 <= B2R z) by (rewrite VZ; apply rnd_nonneg; exact GS0). clearbody z.
  assert (ZK : k * S - 19 / 16 / 2 ^ 40 <= B2R z).
  { assert (P1 : k * (S - B2R g) <= 1 * (1 / 2 ^ 43)) by (destruct (Rle_dec (S - B2R g) 0) as [C|C]; [apply Rle_trans with 0; [|lra]; assert (0 <= k * (B2R g - S)) by (apply Rmult_le_pos; lra); lra|apply Rmult_le_compat; lra]).
    assert (P2 : B2R g * (k - B2R s) <= 1001 / 1000 * (66 / 64 / 2 ^ 40)) by (destruct (Rle_dec (k - B2R s) 0) as [C|C]; [apply Rle_trans with 0; [|lra]; assert (0 <= B2R g * (B2R s - k)) by (apply Rmult_le_pos; lra); lra|apply Rmult_le_compat; lra]). lra. }
  (* the margin *)
  set (q := fadd f1 (fmul (lit 4 0) DBL_EPSILON)). assert (FQ : finite q) by (vm_compute; reflexivity). assert (VQ : B2R q = 1 + 4 / 2 ^ 52). { destruct (lit_val (2 ^ 50 + 1) (-50) ltac:(lia) ltac:(lia)) as [Fl' Vl]. rewrite (feq_B2R q (lit (2 ^ 50 + 1) (-50)) FQ Fl' ltac:(vm_compute; reflexivity)), Vl. change (pow2 (-50)) with (/ 1125899906842624). change (2 ^ 50 + 1)%Z with 1125899906842625%Z. lra. } clearbody q.
  pose proof (fmul_result _ _ FQ FZ) as RW. rewrite VQ in RW. assert (ZB : B2R z <= 3) by lra. destruct (half4 _ _ RW ltac:(rewrite Rabs_pos_eq; lra)) as (FW & VW & EW). set (w := fmul q z) in *. assert (PW : 0 <= B2R w) by (rewrite VW; apply rnd_nonneg; lra). clearbody w.
  destruct StuvError.f1_val as [F1 V1]. destruct (fmin_R w f1 FW F1) as [FM VM]. rewrite V1 in VM. set (x := fmin w f1) in *. clearbody x. assert (X01 : 0 <= B2R x <= 1) by (rewrite VM; split; [apply Rmin_glb; lra|apply Rmin_r]).
  assert (XK : k * S <= B2R x + 5 / 4 / 2 ^ 40). { rewrite VM. assert (k * S <= 1 * 1) by (apply Rmult_le_compat; lra). unfold Rmin. destruct Rle_dec; lra. } assert (KS : 0 <= k * S <= 1) by (split; [apply Rmult_le_pos; lra|replace 1 with (1 * 1) by ring; apply Rmult_le_compat; lra]).
  pose proof (asin_rise (B2R x) (k * S) (5 / 4 / 2 ^ 40) (1 / 2 ^ 18) ltac:(lra) ltac:(lra) XK ltac:(lra) ltac:(lra)) as AR.
  (* the budget *)
  destruct (AA x FM X01) as [FA EA]. pose proof (asin_bound (B2R x)) as AB. assert (A0 : 0 <= asin (B2R x)) by (rewrite <- asin_0; apply asin_mono; lra). set (y := fasin x) in *. clearbody y. set (A := asin (B2R x)) in *. clearbody A. destruct f2_val' as [F2 V2]. destruct BoundFace.eps_val as [FE VE]. destruct StuvError.fhalf_val as [FHf VHf].
  assert (N1 : near y A (1 / 2 ^ 50)) by (split; assumption). assert (N2 : near f2 2 0) by (rewrite <- V2; apply near_val; exact F2). assert (N3 : near l (B2R l) 0) by (apply near_val; exact Fl). assert (N4 : near DBL_EPSILON ulp1 0) by (rewrite <- VE; apply near_val; exact FE). assert (N5 : near fhalf (/ 2) 0) by (rewrite <- VHf; apply near_val; exact FHf).
  pose proof (near_mul _ _ _ _ _ _ 2 2 N2 N1 ltac:(rewrite Rabs_pos_eq; lra) ltac:(rewrite Rabs_pos_eq; lra) ltac:(lra)) as M1. pose proof (Near.near_sub _ _ _ _ _ _ M1 N3 ltac:(assert (Rabs (2 * A - B2R l) <= 8) by (apply Rabs_le; lra); lra)) as M2.
  pose proof (near_mul _ _ _ _ _ _ 1 8 N5 M2 ltac:(rewrite Rabs_pos_eq; lra) ltac:(apply Rabs_le; lra) ltac:(lra)) as M3. pose proof (near_add _ _ _ _ _ _ M3 N4 ltac:(assert (Rabs (/ 2 * (2 * A - B2R l) + ulp1) <= 8) by (apply Rabs_le; lra); lra)) as [FD ED].
  split; [exact FD|]. apply Rabs_le_inv in ED. split; [apply Rabs_le; lra|]. lra.
Qed.

(** ** The latitudes of an edge *)
Lemma lat_near fatan2 v : accurate_atan2 fatan2 -> is_unit v = true -> let p := lat (ll_of_point fatan2 v) in
  finite p /\ Rabs (B2R p) <= pi / 2 /\ Rabs (B2R p - asin (pz3 (direction v))) <= 1 / 2 ^ 47.
Proof.
  intros AT U p. destruct (C103_latlng fatan2 v AT U) as [V D]. cbv zeta in V, D. apply valid_ll in V. destruct V as (F & _ & B & _). fold p in F, B. split; [exact F|]. split; [exact B|].
  destruct (sphere_ll (direction v) (unit_sphere v U)) as (f & l & R & E). rewrite E in D. rewrite apart_chd in D. unfold place in D. fold p in D. apply Rabs_le_inv in B. pose proof pi_PI as PP. pose proof PI_tight as PT. pose proof pi_bounds as PB.
  pose proof (lat_gap (B2R p) (B2R (lng (ll_of_point fatan2 v))) f l ltac:(lra) R) as G. rewrite E. unfold sphere_at. cbn [pz3]. rewrite asin_sin by lra. pose proof (sin_half (Rabs (B2R p - f) / 2)) as SH. assert (Rabs (B2R p - f) <= PI) by (apply Rabs_le; lra). pose proof (Rabs_pos (B2R p - f)). specialize (SH ltac:(lra)). lra.
Qed.
Lemma pair_lat p q : finite p -> finite q -> let i := r1_from_point_pair p q in finite (lo1 i) /\ finite (hi1 i) /\ B2R (lo1 i) = Rmin (B2R p) (B2R q) /\ B2R (hi1 i) = Rmax (B2R p) (B2R q).
Proof.
  intros P Q i. unfold i, r1_from_point_pair. destruct (fle_R p q P Q) as [C|C]; cbn [lo1 hi1]; (split; [assumption|]; split; [assumption|]); unfold Rmin, Rmax; destruct Rle_dec; split; lra.
Qed.
Lemma asin_max u w : -1 <= u <= 1 -> -1 <= w <= 1 -> asin (Rmax u w) = Rmax (asin u) (asin w).
Proof. intros U W. unfold Rmax. destruct (Rle_dec u w) as [C|C]; destruct (Rle_dec (asin u) (asin w)) as [D|D]; auto. - pose proof (asin_mono u w ltac:(lra) ltac:(lra) ltac:(lra)). lra. - pose proof (asin_mono w u ltac:(lra) ltac:(lra) ltac:(lra)). lra. Qed.
Lemma side_error_ok x : finite x -> 0 <= B2R x <= 3 -> finite (side_error x) /\ 1 / 10 ^ 31 <= B2R (side_error x) <= 1.
Proof.
  intros F R. unfold side_error. destruct (lit_val 0x15db3f7aae0025 (-103) ltac:(lia) ltac:(lia)) as [F1 V1]. destruct (lit_val 0x1bb67c037a49eb (-153) ltac:(lia) ltac:(lia)) as [F2 V2]. set (c := lit 0x15db3f7aae0025 (-103)) in *. set (d := lit 0x1bb67c037a49eb (-153)) in *.
  change (pow2 (-103)) with (/ 10141204801825835211973625643008) in V1. change (pow2 (-153)) with (/ 11417981541647679048466287755595961091061972992) in V2. assert (C1 : 0 <= B2R c <= 1 / 1000000) by (rewrite V1; lra). assert (D1 : 1 / 10 ^ 31 <= B2R d <= 1 / 1000000) by (rewrite V2; lra). clearbody c d. clear V1 V2.
  assert (P : 0 <= B2R c * B2R x <= 1 / 1000000 * 3) by (split; [apply Rmult_le_pos; lra|apply Rmult_le_compat; lra]). destruct (half4 _ _ (fmul_result _ _ F1 F) ltac:(rewrite Rabs_pos_eq; lra)) as (F3 & V3 & E3). assert (P3 : 0 <= B2R (fmul c x)) by (rewrite V3; apply rnd_nonneg; lra). set (g := fmul c x) in *. clearbody g.
  destruct (half4 _ _ (fadd_result _ _ F3 F2) ltac:(rewrite Rabs_pos_eq; lra)) as (F4 & V4 & E4). split; [exact F4|]. split; [|lra]. apply Rle_trans with (B2R d); [lra|]. rewrite V4. rewrite <- (rnd_fix d) at 1. apply rnd_le. lra.
Qed.
Lemma edge_lat_ok fsin fasin fatan2 a b : accurate_sin fsin -> accurate_asin fasin -> accurate_atan2 fatan2 -> upper_atan2 fatan2 -> is_unit a = true -> is_unit b = true ->
  let o := angle_between (direction a) (direction b) in flt (norm (edge_normal a b)) NORM_LIMIT = false ->
  let i := edge_lat fsin fasin fatan2 a b (edge_normal a b) (norm (edge_normal a b)) (ll_of_point fatan2 a) (ll_of_point fatan2 b) in
  0 < o < PI /\ finite (lo1 i) /\ finite (hi1 i) /\ - (pi / 2) <= B2R (lo1 i) /\ B2R (hi1 i) <= pi / 2 /\
  forall t, 0 <= t <= o -> B2R (lo1 i) - 1 / 2 ^ 17 <= asin (pz3 (along (direction a) (direction b) t)) <= B2R (hi1 i) + 1 / 2 ^ 17.
Proof.
  intros AS AA AT UT UA UB o HN i. destruct (edge_normal_ok a b UA UB) as (FV & LV & _ & HV). cbv zeta in HV, FV, LV. fold o in HV. destruct (HV HN) as (SP & LN & EN). clear HV. unfold i. clear i. set (n := edge_normal a b) in *.
  pose proof (unit_sphere a UA) as SA. pose proof (unit_sphere b UB) as SB. destruct (angle_trig _ _ SA SB) as (O & CO & SI). cbv zeta in O, CO, SI. fold o in O, CO, SI. pose proof PI_tight as PT. pose proof pi_PI as PP. pose proof pi_bounds as PB.
  assert (OP : 0 < o < PI). { split; apply Rnot_le_lt; intros C; [replace o with 0 in SP by lra; rewrite sin_0 in SP|replace o with PI in SP by lra; rewrite sin_PI in SP]; lra. } split; [exact OP|].
  destruct (edge_frame (direction a) (direction b) zaxis SA SB zaxis_on) as (EF & ZB & LM & UV & MA & MB & _). { fold o. exact SP. } cbv zeta in *. fold o in EF, ZB, LM, UV, MA, MB.
  set (A := direction a) in *. set (B := direction b) in *. set (N := pmul (/ sin o) (rcross A B)) in *. assert (L1 : len N = 1). { unfold N. rewrite len_mul, Rabs_pos_eq by (apply Rlt_le, Rinv_0_lt_compat; lra). replace (len (rcross A B)) with (sin o); [field; lra|]. rewrite SI. unfold len. rewrite cross_dot, (proj1 (sphere_len _) SA), (proj1 (sphere_len _) SB). f_equal. ring. }
  assert (ZD : forall q, rdot zaxis q = pz3 q) by (intros q; unfold rdot, zaxis; cbn [px3 py3 pz3]; ring). rewrite !ZD in *. set (uu := pz3 A) in *. set (vv := pz3 (rcross N A)) in *. set (g := cos o * vv - sin o * uu) in *.
  assert (KE : sqrt (px3 N * px3 N + py3 N * py3 N) = sqrt (uu * uu + vv * vv)). { rewrite <- LM. unfold len. f_equal. unfold rdot, rcross, zaxis. cbn [px3 py3 pz3]. ring. }
  (* the sides *)
  destruct (side_ok n a N FV (conj LN LV) L1 EN UA) as [Fma Ema]. destruct (side_ok n b N FV (conj LN LV) L1 EN UB) as [Fmb Emb]. cbv zeta in Fma, Ema, Fmb, Emb. fold A in Ema. fold B in Emb. rewrite MA in Ema. rewrite MB in Emb. fold g in Emb.
  unfold edge_lat. cbv zeta. set (ma := dot (cross n (Vec f0 f0 f1)) a) in *. set (mb := dot (cross n (Vec f0 f0 f1)) b) in *. set (r := len (RV n)) in *.
  destruct (norm_rel n FV ltac:(fold r; lra)) as (FN & PN & EN'). fold r in EN'. destruct tiny_small as (T0 & T1 & T2). apply Rabs_le_inv in EN'. destruct (side_error_ok (norm n) FN ltac:(lra)) as [Fe Ee]. set (err := side_error (norm n)) in *. clearbody err.
  destruct (max_lat_ok fatan2 n N AT UT FV (conj LN LV) L1 EN) as (Fm & Rm & Km & Mm). fold r in Mm. cbv zeta in *. rewrite KE in Km, Mm. set (k := sqrt (uu * uu + vv * vv)) in *. set (ml := edge_max_lat fatan2 n) in *. clearbody ml.
  destruct (lat_near fatan2 a AT UA) as (Fp & Bp & Ep). destruct (lat_near fatan2 b AT UB) as (Fq & Bq & Eq). cbv zeta in *. fold A uu in Ep. fold B in Eq. rewrite ZB in Eq. set (p := lat (ll_of_point fatan2 a)) in *. set (q := lat (ll_of_point fatan2 b)) in *. set (ww := cos o * uu + sin o * vv) in *.
  destruct (pair_lat p q Fp Fq) as (Fl & Fh & Vl & Vh). cbv zeta in *. set (j := r1_from_point_pair p q) in *. clearbody j p q.
  apply Rabs_le_inv in Bp, Bq, Ep, Eq. assert (LB : - (pi / 2) <= B2R (lo1 j) <= pi / 2) by (rewrite Vl; unfold Rmin; destruct Rle_dec; lra). assert (HB : - (pi / 2) <= B2R (hi1 j) <= pi / 2) by (rewrite Vh; unfold Rmax; destruct Rle_dec; lra). assert (LH : B2R (lo1 j) <= B2R (hi1 j)) by (rewrite Vl, Vh; unfold Rmin, Rmax; destruct Rle_dec; lra). assert (SUM : B2R (lo1 j) + B2R (hi1 j) = B2R p + B2R q) by (rewrite Vl, Vh; unfold Rmin, Rmax; destruct Rle_dec; lra).
  destruct (half4 _ _ (fsub_result _ _ Fh Fl) ltac:(rewrite Rabs_pos_eq; lra)) as (Fr & Vr & Er). fold (r1_len j) in Fr, Vr, Er. assert (Pr : 0 <= B2R (r1_len j)) by (rewrite Vr; apply rnd_nonneg; lra). 
  destruct (max_delta_ok fsin fasin a b ml k (r1_len j) AS AA UA UB Fm Rm Km Mm Fr ltac:(lra)) as (Fd & Bd & Ed). cbv zeta in *. fold A B o in Ed. set (md := edge_max_delta fsin fasin a b ml (r1_len j)) in *. clearbody md. apply Rabs_le_inv in Bd.
  (* the values along the edge *)
  assert (UB1 : -1 <= uu <= 1). { pose proof (Rle_0_sqr vv). unfold Rsqr in *. apply Rabs_le_inv, sq_le_abs; lra. }
  assert (ZT : forall t, pz3 (along A B t) = cos t * uu + sin t * vv). { intros t. destruct (EF t) as [_ Q]. rewrite ZD in Q. exact Q. }
  assert (ZR : forall t, -1 <= cos t * uu + sin t * vv <= 1). { intros t. rewrite <- ZT. destruct (EF t) as [Q _]. pose proof (len1 _ Q) as L. destruct (len_comp (along A B t)) as (_ & _ & C). apply Rabs_le_inv. lra. }
  assert (WB : -1 <= ww <= 1) by (apply ZR). apply Rabs_le_inv in Ema, Emb.
  (* an end of the latitudes that is not moved *)
  assert (HI0 : B2R err < B2R ma \/ B2R mb < - B2R err -> forall t, 0 <= t <= o -> asin (cos t * uu + sin t * vv) <= B2R (hi1 j) + 1 / 2 ^ 17).
  { intros C t T. assert (ZM : cos t * uu + sin t * vv <= Rmax uu ww + 1 / 2 ^ 41).
    { destruct C as [C|C].
      - assert (vv <= 1 / 2 ^ 41) by (apply (Rmult_le_reg_l r); lra). apply (arc_before uu vv o ltac:(lra) (1 / 2 ^ 41) t); lra.
      - assert (- (1 / 2 ^ 41) <= g) by (apply (Rmult_le_reg_l r); lra). apply (arc_after uu vv o (1 / 2 ^ 41) t); unfold g in *; lra. }
    pose proof (asin_rise (Rmax uu ww) _ (1 / 2 ^ 41) (1 / 2 ^ 19) ltac:(unfold Rmax; destruct Rle_dec; lra) (ZR t) ZM ltac:(lra) ltac:(lra)) as Q. rewrite asin_max in Q by assumption. rewrite Vh. unfold Rmax in *. repeat destruct Rle_dec; lra. }
  assert (LO0 : B2R err < B2R mb \/ B2R ma < - B2R err -> forall t, 0 <= t <= o -> B2R (lo1 j) - 1 / 2 ^ 17 <= asin (cos t * uu + sin t * vv)).
  { intros C t T. assert (ZM : - (cos t * uu + sin t * vv) <= Rmax (- uu) (- ww) + 1 / 2 ^ 41).
    { replace (- (cos t * uu + sin t * vv)) with (cos t * - uu + sin t * - vv) by ring. replace (- ww) with (cos o * - uu + sin o * - vv) by (unfold ww; ring). destruct C as [C|C].
      - assert (g <= 1 / 2 ^ 41) by (apply (Rmult_le_reg_l r); lra). apply (arc_after (- uu) (- vv) o (1 / 2 ^ 41) t); unfold g in *; lra.
      - assert (- (1 / 2 ^ 41) <= vv) by (apply (Rmult_le_reg_l r); lra). apply (arc_before (- uu) (- vv) o ltac:(lra) (1 / 2 ^ 41) t); lra. }
    pose proof (asin_rise (Rmax (- uu) (- ww)) (- (cos t * uu + sin t * vv)) (1 / 2 ^ 41) (1 / 2 ^ 19) ltac:(unfold Rmax; destruct Rle_dec; lra) ltac:(pose proof (ZR t); lra) ZM ltac:(lra) ltac:(lra)) as Q. rewrite asin_max, !asin_opp in Q by lra. rewrite Vl. unfold Rmax, Rmin in *. repeat destruct Rle_dec; lra. }
  (* an end that is moved *)
  destruct (near_add _ _ _ _ _ _ (near_val _ Fh) (near_val _ Fd) ltac:(assert (Rabs (B2R (hi1 j) + B2R md) <= 8) by (apply Rabs_le; lra); lra)) as [Fhd Ehd]. destruct (Near.near_sub _ _ _ _ _ _ (near_val _ Fl) (near_val _ Fd) ltac:(assert (Rabs (B2R (lo1 j) - B2R md) <= 8) by (apply Rabs_le; lra); lra)) as [Fld Eld]. apply Rabs_le_inv in Ehd, Eld.
  destruct (fneg_val ml Fm) as [Fnm Vnm]. destruct (fmin_R ml _ Fm Fhd) as [Fmh Vmh]. destruct (fmax_R (fneg ml) _ Fnm Fld) as [Fml Vml]. destruct (fneg_val err Fe) as [Fne Vne].
  set (hd := fadd (hi1 j) md) in *. set (ld := fsub (lo1 j) md) in *. clearbody hd ld.
  assert (HI1 : forall t, 0 <= t <= o -> asin (cos t * uu + sin t * vv) <= B2R (fmin ml hd) + 1 / 2 ^ 17).
  { intros t T. destruct (climb uu vv o t ltac:(lra) T UV) as [C1 C2]. cbv zeta in C1, C2. fold k ww in C1, C2. rewrite Vmh. unfold Rmin. destruct Rle_dec; lra. }
  assert (LO1 : forall t, 0 <= t <= o -> B2R (fmax (fneg ml) ld) - 1 / 2 ^ 17 <= asin (cos t * uu + sin t * vv)).
  { intros t T. destruct (descent uu vv o t ltac:(lra) T UV) as [C1 C2]. cbv zeta in C1, C2. fold k ww in C1, C2. rewrite Vml, Vnm. unfold Rmax. destruct Rle_dec; lra. }
  assert (FIN : forall cl ch : bool, (ch = false -> B2R err < B2R ma \/ B2R mb < - B2R err) -> (cl = false -> B2R err < B2R mb \/ B2R ma < - B2R err) ->
    let i := R1 (if cl then fmax (fneg ml) ld else lo1 j) (if ch then fmin ml hd else hi1 j) in
    finite (lo1 i) /\ finite (hi1 i) /\ - (pi / 2) <= B2R (lo1 i) /\ B2R (hi1 i) <= pi / 2 /\ forall t, 0 <= t <= o -> B2R (lo1 i) - 1 / 2 ^ 17 <= asin (pz3 (along A B t)) <= B2R (hi1 i) + 1 / 2 ^ 17).
  { intros cl ch HC HL i. unfold i. cbn [lo1 hi1]. split; [destruct cl; assumption|]. split; [destruct ch; assumption|].
    split; [destruct cl; [rewrite Vml, Vnm; apply Rle_trans with (- B2R ml); [lra|apply Rmax_l]|lra]|]. split; [destruct ch; [rewrite Vmh; apply Rle_trans with (B2R ml); [apply Rmin_l|lra]|lra]|].
    intros t T. rewrite ZT. split; [destruct cl; [apply LO1, T|apply LO0; auto]|destruct ch; [apply HI1, T|apply HI0; auto]]. }
  assert (CH : fle ma err && fge mb (fneg err) = false -> B2R err < B2R ma \/ B2R mb < - B2R err).
  { intros C. apply andb_false_iff in C. destruct C as [C|C]; [left|right]; [destruct (fle_R ma err Fma Fe); try discriminate C; lra|unfold fge in C; destruct (fle_R (fneg err) mb Fne Fmb); try discriminate C; lra]. }
  assert (CL : fle mb err && fge ma (fneg err) = false -> B2R err < B2R mb \/ B2R ma < - B2R err).
  { intros C. apply andb_false_iff in C. destruct C as [C|C]; [left|right]; [destruct (fle_R mb err Fmb Fe); try discriminate C; lra|unfold fge in C; destruct (fle_R (fneg err) ma Fne Fma); try discriminate C; lra]. }
  destruct (flt (fmul ma mb) f0 || fle (fabs ma) err || fle (fabs mb) err) eqn:OUT; [apply FIN; assumption|].
  apply orb_false_iff in OUT. destruct OUT as [OUT O3]. apply orb_false_iff in OUT. destruct OUT as [O1 O2].
  assert (SAME : B2R err < B2R ma /\ B2R err < B2R mb \/ B2R ma < - B2R err /\ B2R mb < - B2R err).
  { destruct (fabs_val ma Fma) as [Fa Va]. destruct (fabs_val mb Fmb) as [Fb Vb]. destruct (fle_R _ _ Fa Fe) as [C1|C1]; [discriminate O2|]. destruct (fle_R _ _ Fb Fe) as [C2|C2]; [discriminate O3|]. rewrite Va in C1. rewrite Vb in C2.
    assert (RB : Rabs (B2R ma * B2R mb) <= 16). { rewrite Rabs_mult. assert (V1 : -1 <= vv <= 1) by (pose proof (Rle_0_sqr uu); unfold Rsqr in *; apply Rabs_le_inv, sq_le_abs; lra). assert (G1 : -2 <= g <= 2). { pose proof (COS_bound o) as CB. pose proof (SIN_bound o) as SBD. assert (Rabs (cos o * vv) <= 1 * 1) by (rewrite Rabs_mult; apply Rmult_le_compat; try apply Rabs_pos; apply Rabs_le; lra). assert (Rabs (sin o * uu) <= 1 * 1) by (rewrite Rabs_mult; apply Rmult_le_compat; try apply Rabs_pos; apply Rabs_le; lra). apply Rabs_le_inv in H, H0. unfold g. lra. }
      assert (RV1 : Rabs (r * vv) <= 5 / 2 * 1) by (rewrite Rabs_mult; apply Rmult_le_compat; try apply Rabs_pos; apply Rabs_le; lra). assert (RG1 : Rabs (r * g) <= 5 / 2 * 2) by (rewrite Rabs_mult; apply Rmult_le_compat; try apply Rabs_pos; apply Rabs_le; lra). apply Rabs_le_inv in RV1, RG1. apply Rle_trans with (3 * (51 / 10)); [|lra]. apply Rmult_le_compat; try apply Rabs_pos; apply Rabs_le; lra. }
    destruct (half4 _ _ (fmul_result _ _ Fma Fmb) RB) as (Fp' & Vp & _). destruct (flt_R _ f0 Fp' (proj1 f0_val)) as [C3|C3]; [discriminate O1|]. rewrite (proj2 f0_val) in C3.
    assert (PR : 0 <= B2R ma * B2R mb).
    { apply Rnot_lt_le. intros NG. pose proof (PredicatesError.rnd_rel (B2R ma * B2R mb)) as RR. rewrite <- Vp in RR. assert (BIG : B2R err * B2R err <= Rabs (B2R ma * B2R mb)) by (rewrite Rabs_mult; apply Rmult_le_compat; lra). assert (E2 : 1 / 10 ^ 31 * (1 / 10 ^ 31) <= B2R err * B2R err) by (apply Rmult_le_compat; lra).
      assert (TT : TrigProofs.tiny * TrigProofs.tiny <= (u * u) * (u * u)) by (apply Rmult_le_compat; lra). rewrite (Rabs_left (B2R ma * B2R mb) NG) in BIG, RR. apply Rabs_le_inv in RR. set (pr := B2R ma * B2R mb) in *. clearbody pr. clear - RR BIG E2 TT T2 C3 NG. set (ee := B2R err * B2R err) in *. clearbody ee. lra. }
    destruct (Rle_dec 0 (B2R ma)) as [S1|S1].
    - left. rewrite (Rabs_pos_eq (B2R ma) S1) in C1. split; [lra|]. destruct (Rle_dec 0 (B2R mb)) as [S2|S2]; [rewrite (Rabs_pos_eq (B2R mb) S2) in C2; lra|]. assert (0 < B2R ma * - B2R mb) by (apply Rmult_lt_0_compat; lra). lra.
    - right. rewrite (Rabs_left (B2R ma)) in C1 by lra. split; [lra|]. destruct (Rle_dec (B2R mb) 0) as [S2|S2]; [rewrite (Rabs_left1 (B2R mb) S2) in C2; lra|]. assert (0 < - B2R ma * B2R mb) by (apply Rmult_lt_0_compat; lra). lra. }
  destruct j as [jl jh]. apply (FIN false false); intros _; tauto.
Qed.
