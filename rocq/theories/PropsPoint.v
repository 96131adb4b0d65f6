(** C127 to C129: cross products of points, points from coordinates, interpolation. *)
From Coq Require Import ZArith Reals Lra Lia Psatz Bool List.
From Flocq Require Import Core.
From Verif Require Import Base Spec F64 F64Facts IntervalSpec F64Arith F64Error F64Neg R1Proofs S1Proofs VectorModel PredicatesFloat PredicatesError PredicatesSound PredicatesProofs NormProofs PropsNorm CapSpec CapModel CapError CapEdgeFloat CapEdgeMain
  AngleModel AngleProofs ExpandProofs CapProofs TrigModel TrigSpec TrigProofs TrigWitness RegionSpec PropsDist StuvError CircleProofs CrossProofs PointModel PointSpec.
Open Scope R_scope.

(** ** C127: Point::cross *)
(* the rounded cross product *)
Definition rcr (p q : pos) : pos :=
  Pos (rnd (rnd (py3 p * pz3 q) - rnd (pz3 p * py3 q))) (rnd (rnd (pz3 p * px3 q) - rnd (px3 p * pz3 q))) (rnd (rnd (px3 p * py3 q) - rnd (py3 p * px3 q))).
Definition rsum (p q : pos) : pos := Pos (rnd (px3 p + px3 q)) (rnd (py3 p + py3 q)) (rnd (pz3 p + pz3 q)).
Definition rdif (p q : pos) : pos := Pos (rnd (px3 p - px3 q)) (rnd (py3 p - py3 q)) (rnd (pz3 p - pz3 q)).
Definition popp (p : pos) : pos := Pos (- px3 p) (- py3 p) (- pz3 p).
Lemma cross_val p q : fvec p -> fvec q -> fvec (cross p q) -> RV (cross p q) = rcr (RV p) (RV q).
Proof.
  intros (P1 & P2 & P3) (Q1 & Q2 & Q3) (C1 & C2 & C3). unfold cross in *. cbn [vx vy vz] in *.
  assert (K : forall a b c d : f64, finite a -> finite b -> finite c -> finite d -> finite (fsub (fmul a b) (fmul c d)) -> B2R (fsub (fmul a b) (fmul c d)) = rnd (rnd (B2R a * B2R b) - rnd (B2R c * B2R d))).
  { intros a b c d Fa Fb Fc Fd F. destruct (fsub_finite _ _ F) as [F1 F2]. rewrite (result_finite _ _ (fsub_result _ _ F1 F2) F), (result_finite _ _ (fmul_result _ _ Fa Fb) F1), (result_finite _ _ (fmul_result _ _ Fc Fd) F2). reflexivity. }
  apply pos_eq; unfold RV, rcr; cbn [px3 py3 pz3 vx vy vz]; apply K; assumption.
Qed.
Lemma add_vec_val p q : fvec p -> fvec q -> fvec (vadd p q) -> RV (vadd p q) = rsum (RV p) (RV q).
Proof.
  intros (P1 & P2 & P3) (Q1 & Q2 & Q3) (C1 & C2 & C3). unfold vadd in *. cbn [vx vy vz] in *. apply pos_eq; unfold RV, rsum; cbn [px3 py3 pz3 vx vy vz]; (eapply result_finite; [apply fadd_result; assumption|assumption]).
Qed.
Lemma sub_vec_val p q : fvec p -> fvec q -> fvec (vsub p q) -> RV (vsub p q) = rdif (RV p) (RV q).
Proof.
  intros (P1 & P2 & P3) (Q1 & Q2 & Q3) (C1 & C2 & C3). unfold vsub in *. cbn [vx vy vz] in *. apply pos_eq; unfold RV, rdif; cbn [px3 py3 pz3 vx vy vz]; (eapply result_finite; [apply fsub_result; assumption|assumption]).
Qed.
Definition rawc (a b : vec) : vec := cross (vadd a b) (vsub b a).
Definition unit_len (a : vec) : Prop := fvec a /\ Rabs (len (RV a) - 1) <= KR.
Lemma unit_len_unit a : is_unit a = true -> unit_len a.
Proof. intros U. destruct (unit_norm a U) as (F & _ & E). split; assumption. Qed.
Lemma rawc_val a b : unit_len a -> unit_len b -> fvec (rawc a b) /\ RV (rawc a b) = rcr (rsum (RV a) (RV b)) (rdif (RV b) (RV a)).
Proof.
  intros (FA & HA) (FB & HB). destruct (stable_cross a b FA FB HA HB) as [FV _]. cbv zeta in FV. split; [exact FV|]. unfold rawc. unfold KR in *. apply Rabs_le_inv in HA, HB.
  destruct (add_rel a b FA FB ltac:(lra) ltac:(lra)) as [FS _]. destruct (sub_rel b a FB FA ltac:(lra) ltac:(lra)) as [FD _].
  rewrite cross_val, add_vec_val, sub_vec_val by assumption. reflexivity.
Qed.
Lemma opp_unit a : unit_len a -> unit_len (opposite_vec a) /\ RV (opposite_vec a) = popp (RV a).
Proof.
  intros ((F1 & F2 & F3) & H). destruct (fneg_val _ F1) as [G1 V1]. destruct (fneg_val _ F2) as [G2 V2]. destruct (fneg_val _ F3) as [G3 V3].
  assert (E : RV (opposite_vec a) = popp (RV a)) by (apply pos_eq; unfold RV, popp, opposite_vec; cbn [px3 py3 pz3 vx vy vz]; assumption).
  split; [|exact E]. split; [repeat split; assumption|]. rewrite E. replace (len (popp (RV a))) with (len (RV a)); [exact H|]. unfold len. f_equal. unfold rdot, popp. cbn [px3 py3 pz3]. ring.
Qed.
Lemma rsum_com p q : rsum p q = rsum q p.
Proof. apply pos_eq; unfold rsum; cbn [px3 py3 pz3]; f_equal; ring. Qed.
Lemma rdif_opp p q : rdif p q = popp (rdif q p).
Proof. apply pos_eq; unfold rdif, popp; cbn [px3 py3 pz3]; rewrite <- rnd_opp; f_equal; ring. Qed.
Lemma rcr_com p q : rcr p q = popp (rcr q p).
Proof. apply pos_eq; unfold rcr, popp; cbn [px3 py3 pz3]; rewrite <- rnd_opp; f_equal; rewrite Ropp_minus_distr; f_equal; f_equal; ring. Qed.
Lemma rcr_opp p q : rcr p (popp q) = popp (rcr p q).
Proof.
  apply pos_eq; unfold rcr, popp; cbn [px3 py3 pz3]; rewrite <- rnd_opp; f_equal; rewrite <- !Ropp_mult_distr_r, !rnd_opp; ring.
Qed.
Lemma popp_popp p : popp (popp p) = p. Proof. apply pos_eq; unfold popp; cbn [px3 py3 pz3]; ring. Qed.
Lemma rawc_swap a b : unit_len a -> unit_len b -> RV (rawc b a) = popp (RV (rawc a b)).
Proof. intros A B. destruct (rawc_val a b A B) as [_ ->]. destruct (rawc_val b a B A) as [_ ->]. rewrite (rsum_com (RV b)), (rdif_opp (RV a)), rcr_opp. reflexivity. Qed.
Lemma rawc_neg a b : unit_len a -> unit_len b -> RV (rawc (opposite_vec a) b) = popp (RV (rawc a b)).
Proof.
  intros A B. destruct (rawc_val a b A B) as [_ ->]. destruct (opp_unit a A) as [A' EA]. destruct (rawc_val _ b A' B) as [_ ->]. rewrite EA.
  replace (rsum (popp (RV a)) (RV b)) with (rdif (RV b) (RV a)) by (apply pos_eq; unfold rsum, rdif, popp; cbn [px3 py3 pz3]; f_equal; ring).
  replace (rdif (RV b) (popp (RV a))) with (rsum (RV a) (RV b)) by (apply pos_eq; unfold rsum, rdif, popp; cbn [px3 py3 pz3]; f_equal; ring). apply rcr_com.
Qed.
Lemma is_zero_RV v : fvec v -> is_zero v = true <-> RV v = org.
Proof.
  intros (F1 & F2 & F3). unfold is_zero. assert (Z0 : B2R f0 = 0) by reflexivity. split.
  - rewrite !andb_true_iff. intros [[A B] C]. destruct (feq_R (vx v) f0 F1 eq_refl) as [E1|]; [|discriminate]. destruct (feq_R (vy v) f0 F2 eq_refl) as [E2|]; [|discriminate]. destruct (feq_R (vz v) f0 F3 eq_refl) as [E3|]; [|discriminate].
    apply pos_eq; unfold RV, org; cbn [px3 py3 pz3]; assumption.
  - intros E. unfold RV, org in E. injection E as E1 E2 E3. destruct (feq_R (vx v) f0 F1 eq_refl); [|exfalso; lra]. destruct (feq_R (vy v) f0 F2 eq_refl); [|exfalso; lra]. destruct (feq_R (vz v) f0 F3 eq_refl); [reflexivity|exfalso; lra].
Qed.
Lemma org_popp p : popp p = org <-> p = org.
Proof. destruct p as [x y z]. unfold popp, org. cbn [px3 py3 pz3]. split; intros E; injection E as E1 E2 E3; apply pos_eq; cbn [px3 py3 pz3]; lra. Qed.
Lemma opposite_RV v w : fvec v -> fvec w -> RV v = popp (RV w) -> opposite3 v w.
Proof. intros V W E. unfold RV, popp in E. injection E as E1 E2 E3. split; [exact V|]. split; [exact W|]. auto. Qed.
Lemma ortho_unit a : is_unit a = true -> unit_len (ortho a).
Proof. intros U. apply unit_len_unit, C83_ortho, U. Qed.

(** The product of two points is never the zero vector, and changes sign with the first
    point.  Unless the points are nearly parallel, it changes sign with the second point and
    with their order too, and it is twice the cross product with a relative error of 2^-48. *)
Theorem C127_cross_partial : forall a b, is_unit a = true -> is_unit b = true ->
  let f := point_cross in
  finite_vec (f a b) /\ position (f a b) <> Pos 0 0 0 /\
  opposite3 (f (opposite_vec a) b) (f a b) /\
  (1 / 2 ^ 92 <= length3 (cross3 (position a) (position b)) -> opposite3 (f b a) (f a b) /\ opposite3 (f a (opposite_vec b)) (f a b)) /\
  (1 / 2 ^ 40 <= length3 (cross3 (position a) (position b)) ->
     let n := cross3 (position a) (position b) in
     apart (position (f a b)) (Pos (2 * px3 n) (2 * py3 n) (2 * pz3 n)) <= 1 / 2 ^ 48 * length3 n).
Proof.
  intros a b Ua Ub. cbv zeta. pose proof (unit_len_unit a Ua) as A. pose proof (unit_len_unit b Ub) as B. pose proof (ortho_unit a Ua) as OA. pose proof (ortho_unit b Ub) as OB.
  destruct (rawc_val a b A B) as [F V]. pose proof (is_zero_RV _ F) as ZR.
  change (position (point_cross a b)) with (RV (point_cross a b)). change (position a) with (RV a). change (position b) with (RV b). change (Pos 0 0 0) with org. change finite_vec with fvec. change cross3 with rcross. change length3 with len.
  assert (PC : forall x y, point_cross x y = if is_zero (rawc x y) then ortho x else rawc x y) by reflexivity.
  assert (NZ : forall x, unit_len x -> RV x <> org). { intros x (_ & H) E. rewrite E in H. unfold len, rdot, org in H. cbn [px3 py3 pz3] in H. replace (0 * 0 + 0 * 0 + 0 * 0) with 0 in H by ring. rewrite sqrt_0 in H. unfold KR in H. apply Rabs_le_inv in H. lra. }
  assert (SZ : 1 / 2 ^ 92 <= len (rcross (RV a) (RV b)) -> is_zero (rawc a b) = false).
  { intros K. destruct (is_zero (rawc a b)) eqn:E; [|reflexivity]. exfalso. pose proof (proj1 ZR eq_refl) as E'. destruct (stable_cross a b (proj1 A) (proj1 B) (proj2 A) (proj2 B)) as [_ ES]. cbv zeta in ES. fold (rawc a b) in ES. rewrite E', len_opp in ES.
    set (N := pmul 2 (rcross (RV a) (RV b))) in *. replace (psub N org) with N in ES by (apply pos_eq; unfold psub, org; cbn [px3 py3 pz3]; ring).
    assert (LN : len N = 2 * len (rcross (RV a) (RV b))) by (unfold N; rewrite len_mul, Rabs_pos_eq by lra; reflexivity). rewrite LN in ES. pose proof h_pos as HP.
    assert (HT : 64 * h <= / 2 ^ 100). { unfold h. apply Rle_trans with (64 * pow2 (-106)); [apply Rmult_le_compat_l; [lra|apply bpow_le; lia]|]. change (pow2 (-106)) with (/ 81129638414606681695789005144064). lra. }
    lra. }
  split; [|split; [|split; [|split]]].
  - rewrite PC. destruct (is_zero (rawc a b)); [apply OA|exact F].
  - rewrite PC. destruct (is_zero (rawc a b)) eqn:E; [apply NZ, OA|]. intros Q. apply ZR in Q. congruence.
  - destruct (opp_unit a A) as [A' EA]. destruct (rawc_val _ b A' B) as [F' _]. pose proof (rawc_neg a b A B) as RN. pose proof (is_zero_RV _ F') as ZR'. rewrite RN, org_popp, <- ZR in ZR'.
    rewrite !PC. destruct (is_zero (rawc (opposite_vec a) b)) eqn:E1; destruct (is_zero (rawc a b)) eqn:E2; try (exfalso; intuition congruence).
    + pose proof (C83_ortho_opposite a Ua) as Q. unfold veq in Q. apply andb_true_iff in Q. destruct Q as [Q Q3]. apply andb_true_iff in Q. destruct Q as [Q1 Q2]. destruct OA as [OF _]. pose proof OF as (G1 & G2 & G3).
      destruct (fneg_val _ G1) as [N1 W1]. destruct (fneg_val _ G2) as [N2 W2]. destruct (fneg_val _ G3) as [N3 W3].
      assert (FE : forall x y, feq x y = true -> finite y -> finite x /\ B2R x = B2R y). { intros x y H Fy. assert (Fx : finite x). { destruct x as [[]|[]| |[] mx ex Bx]; try reflexivity; destruct y as [[]|[]| |[] my ey By]; try discriminate Fy; discriminate H. } split; [exact Fx|]. destruct (feq_R x y Fx Fy); [assumption|discriminate]. }
      destruct (FE _ _ Q1 N1) as [H1 K1]. destruct (FE _ _ Q2 N2) as [H2 K2]. destruct (FE _ _ Q3 N3) as [H3 K3]. cbn [vx vy vz opposite_vec] in *.
      split; [repeat split; assumption|]. split; [exact OF|]. rewrite K1, K2, K3, W1, W2, W3. auto.
    + apply opposite_RV; assumption.
  - intros K. pose proof (SZ K) as E. rewrite !PC, E. split.
    + destruct (rawc_val b a B A) as [F' _]. pose proof (rawc_swap a b A B) as RN. pose proof (is_zero_RV _ F') as ZR'. rewrite RN, org_popp, <- ZR in ZR'. destruct (is_zero (rawc b a)) eqn:E1; [exfalso; intuition congruence|]. apply opposite_RV; assumption.
    + destruct (opp_unit b B) as [B' EB]. destruct (rawc_val a _ A B') as [F' _]. assert (RN : RV (rawc a (opposite_vec b)) = popp (RV (rawc a b))).
      { pose proof (rawc_swap _ _ B' A) as R1. rewrite R1, rawc_neg, popp_popp by assumption. apply rawc_swap; assumption. }
      pose proof (is_zero_RV _ F') as ZR'. rewrite RN, org_popp, <- ZR in ZR'. destruct (is_zero (rawc a (opposite_vec b))) eqn:E1; [exfalso; intuition congruence|]. apply opposite_RV; assumption.
  - intros K. assert (K' : 1 / 2 ^ 92 <= len (rcross (RV a) (RV b))) by lra. rewrite PC, (SZ K'). destruct (stable_cross a b (proj1 A) (proj1 B) (proj2 A) (proj2 B)) as [_ ES]. cbv zeta in ES. fold (rawc a b) in ES.
    change (apart (RV (rawc a b)) (pmul 2 (rcross (RV a) (RV b))) <= 1 / 2 ^ 48 * len (rcross (RV a) (RV b))). change apart with chd. rewrite chd_len.
    rewrite len_mul, (Rabs_pos_eq 2) in ES by lra. eapply Rle_trans; [exact ES|]. pose proof h_tiny. lra.
Qed.
Print Assumptions C127_cross_partial.

(** Points that are parallel and not equal, as two vectors that pass for unit vectors can
    be, do not change sign with their order. *)
Definition ux : vec := Vec f1 f0 f0.
Definition ux' : vec := Vec (lit 4503599627370497 (-52)) f0 f0.
Theorem C127_cross_refuted : ~ (forall a b, is_unit a = true -> is_unit b = true -> veq a b = false -> veq a (opposite_vec b) = false ->
  opposite3 (point_cross b a) (point_cross a b)).
Proof.
  intros K. specialize (K ux ux' ltac:(vm_compute; reflexivity) ltac:(vm_compute; reflexivity) ltac:(vm_compute; reflexivity) ltac:(vm_compute; reflexivity)).
  destruct K as ((_ & F1 & _) & (_ & F2 & _) & _ & E & _). assert (F0 : finite f0) by reflexivity. assert (V0 : B2R f0 = 0) by reflexivity.
  assert (P1 : flt (vy (point_cross ux' ux)) f0 = true) by (vm_compute; reflexivity). assert (P2 : flt (vy (point_cross ux ux')) f0 = true) by (vm_compute; reflexivity).
  revert F1 F2 E P1 P2. generalize (vy (point_cross ux' ux)) (vy (point_cross ux ux')). intros x y F1 F2 E P1 P2.
  destruct (flt_R _ _ F1 F0) as [L1|]; [|discriminate]. destruct (flt_R _ _ F2 F0) as [L2|]; [|discriminate]. lra.
Qed.
Print Assumptions C127_cross_refuted.
Definition uy : vec := Vec f0 f1 f0.
Example C127_hyps : is_unit ux = true /\ is_unit uy = true /\ length3 (cross3 (position ux) (position uy)) = 1.
Proof.
  split; [vm_compute; reflexivity|]. split; [vm_compute; reflexivity|]. destruct StuvError.f1_val as [_ V1]. unfold length3, dot3, cross3, position, ux, uy. cbn [px3 py3 pz3 vx vy vz]. rewrite V1. change (B2R f0) with 0. transitivity (sqrt 1); [f_equal; ring|apply sqrt_1].
Qed.

(** ** C128: Point::from_coords *)
(** The coordinates are divided by their length, up to a relative error of 2^-50, and the
    result is a unit vector; for the zero vector it is the origin, also a unit vector.  The
    square of the length must be far enough from the ends of the range of doubles. *)
Theorem C128_from_coords_partial : forall x y z, finite x -> finite y -> finite z ->
  let v := Vec x y z in let w := from_coords x y z in
  (length2 v = 0 -> w = ORIGIN) /\ is_unit ORIGIN = true /\
  (bpow radix2 (-900) <= length2 v <= bpow radix2 900 ->
     let n := sqrt (length2 v) in near_quotient (vx w) x n /\ near_quotient (vy w) y n /\ near_quotient (vz w) z n /\ is_unit w = true).
Proof.
  intros x y z Fx Fy Fz. cbv zeta. unfold from_coords. pose proof (is_zero_RV (Vec x y z) (conj Fx (conj Fy Fz))) as ZR. split; [|split].
  - intros E. replace (is_zero (Vec x y z)) with true; [reflexivity|]. symmetry. apply ZR. unfold length2 in E. cbn [vx vy vz] in E. apply pos_eq; unfold RV, org; cbn [px3 py3 pz3 vx vy vz]; nra.
  - vm_compute. reflexivity.
  - intros B. destruct (is_zero (Vec x y z)) eqn:E.
    + exfalso. pose proof (proj1 ZR eq_refl) as Q. unfold RV, org in Q. cbn [vx vy vz] in Q. injection Q as Q1 Q2 Q3. unfold length2 in B. cbn [vx vy vz] in B. rewrite Q1, Q2, Q3 in B. pose proof (bpow_gt_0 radix2 (-900)). lra.
    + apply (C82_normalize_partial (Vec x y z)); [repeat split; assumption|exact B].
Qed.
Print Assumptions C128_from_coords_partial.
Theorem C128_from_coords_refuted :
  (exists x y z, finite x /\ finite y /\ finite z /\ is_unit (from_coords x y z) = false /\ feq (vx (from_coords x y z)) f0 = true /\ feq (vy (from_coords x y z)) f0 = true /\ feq (vz (from_coords x y z)) f0 = true) /\
  (exists x y z, finite x /\ finite y /\ finite z /\ is_unit (from_coords x y z) = false /\ is_finite (vx (from_coords x y z)) = false).
Proof.
  split.
  - exists (lit 1 600), f0, f0. repeat split; vm_compute; reflexivity.
  - exists (lit 1 (-600)), f0, f0. repeat split; vm_compute; reflexivity.
Qed.
Print Assumptions C128_from_coords_refuted.
Example C128_hyps : bpow radix2 (-900) <= length2 v123 <= bpow radix2 900 /\ length2 (Vec f0 f0 f0) = 0.
Proof. split; [apply C82_example|]. unfold length2. cbn [vx vy vz]. change (B2R f0) with 0. ring. Qed.

(** ** C129: interpolation *)
Lemma org_len p : psub p org = p. Proof. apply pos_eq; unfold psub, org; cbn [px3 py3 pz3]; ring. Qed.
Lemma unit_close p q : 0 < len p -> 0 < len q -> len (psub (pmul (/ len p) p) (pmul (/ len q) q)) <= 2 * len (psub p q) / len q.
Proof.
  intros P Q. replace (psub (pmul (/ len p) p) (pmul (/ len q) q)) with (padd (pmul (/ len p - / len q) p) (pmul (/ len q) (psub p q))) by (apply pos_eq; unfold psub, padd, pmul; cbn [px3 py3 pz3]; ring).
  eapply Rle_trans; [apply len_tri|]. rewrite !len_mul, (Rabs_pos_eq (/ len q)) by (apply Rlt_le, Rinv_0_lt_compat; exact Q).
  assert (IQ : 0 < / len q) by (apply Rinv_0_lt_compat; exact Q). assert (E : Rabs (/ len p - / len q) * len p = Rabs (len p - len q) * / len q).
  { replace (/ len p - / len q) with ((len q - len p) * (/ len q * / len p)) by (field; lra). rewrite Rabs_mult, (Rabs_pos_eq (/ len q * / len p)), (Rabs_minus_sym (len q)) by (apply Rmult_le_pos; [lra|apply Rlt_le, Rinv_0_lt_compat; exact P]). field. lra. }
  rewrite E. pose proof (len_sub p q) as S. unfold Rdiv. apply Rle_trans with (len (psub p q) * / len q + / len q * len (psub p q)); [apply Rplus_le_compat_r, Rmult_le_compat_r; lra|]. apply Req_le. ring.
Qed.
Lemma len_scaled p : 0 < len p -> len (pmul (/ len p) p) = 1.
Proof. intros P. rewrite len_mul, Rabs_pos_eq by (apply Rlt_le, Rinv_0_lt_compat; exact P). field. lra. Qed.
Lemma dir_scaled v : 0 < sqn v -> direction v = pmul (/ len (RV v)) (RV v).
Proof. intros P. pose proof (sqrt_lt_R0 _ P) as Q. unfold direction. fold (sqn v). rewrite len_RV. apply pos_eq; unfold pmul, RV; cbn [px3 py3 pz3]; field; lra. Qed.
Lemma sphere_len p : on_sphere p <-> rdot p p = 1.
Proof. unfold on_sphere, rdot. reflexivity. Qed.
(* the points of a great circle *)
Lemma along_sphere a h t : rdot a a = 1 -> rdot h h = 1 -> rdot a h = 0 -> on_sphere (padd (pmul (cos t) a) (pmul (sin t) h)).
Proof.
  intros A H O. apply sphere_len. replace (rdot (padd (pmul (cos t) a) (pmul (sin t) h)) (padd (pmul (cos t) a) (pmul (sin t) h))) with (cos t * cos t * rdot a a + 2 * (sin t * cos t) * rdot a h + sin t * sin t * rdot h h) by (unfold rdot, padd, pmul; cbn [px3 py3 pz3]; ring).
  rewrite A, H, O. pose proof (sin2_cos2 t) as Q. unfold Rsqr in Q. lra.
Qed.
Lemma along_lip a h t t' : rdot a a = 1 -> rdot h h = 1 -> rdot a h = 0 -> chd (padd (pmul (cos t) a) (pmul (sin t) h)) (padd (pmul (cos t') a) (pmul (sin t') h)) <= Rabs (t - t').
Proof.
  intros A H O. apply chd_le; [apply Rabs_pos|]. rewrite sqr_abs. pose proof (half_sq (t - t')) as S. pose proof (cos_half (t - t')) as C. rewrite cos_minus in C. pose proof (sin2_cos2 t) as Q. pose proof (sin2_cos2 t') as Q'. unfold Rsqr in *.
  replace (dist2 (padd (pmul (cos t) a) (pmul (sin t) h)) (padd (pmul (cos t') a) (pmul (sin t') h))) with ((cos t - cos t') * (cos t - cos t') * rdot a a + 2 * ((sin t - sin t') * (cos t - cos t')) * rdot a h + (sin t - sin t') * (sin t - sin t') * rdot h h) by (unfold dist2, rdot, padd, pmul; cbn [px3 py3 pz3]; ring).
  rewrite A, H, O. lra.
Qed.
(* the tangent at a in the direction of b *)
Lemma heading_eq a b : 0 < len a -> 0 < len b -> 0 < len (rcross a b) ->
  let G := rcross (pmul 2 (rcross a b)) a in
  heading (pmul (/ len a) a) (pmul (/ len b) b) = pmul (/ len G) G /\ 0 < len G /\ len G = 2 * len (rcross a b) * len a /\ rdot a G = 0.
Proof.
  intros PA PB PC. cbv zeta. set (G := rcross (pmul 2 (rcross a b)) a).
  assert (LG : len G = 2 * len (rcross a b) * len a). { unfold G. rewrite len_cross_perp; [rewrite len_mul, Rabs_pos_eq by lra; ring|]. unfold rdot, pmul, rcross. cbn [px3 py3 pz3]. ring. }
  assert (GP : 0 < len G) by (rewrite LG; apply Rmult_lt_0_compat; lra). split; [|split; [exact GP|split; [exact LG|unfold G, rdot, pmul, rcross; cbn [px3 py3 pz3]; ring]]].
  set (a' := pmul (/ len a) a). set (b' := pmul (/ len b) b). set (r := Pos (px3 b' - dot3 a' b' * px3 a') (py3 b' - dot3 a' b' * py3 a') (pz3 b' - dot3 a' b' * pz3 a')).
  pose proof (len_sq a) as SA. set (k := 2 * (len a * len a) * len b). assert (KP : 0 < k) by (unfold k; apply Rmult_lt_0_compat; [apply Rmult_lt_0_compat; [lra|apply Rmult_lt_0_compat; assumption]|exact PB]).
  assert (EG : G = pmul k r).
  { assert (E : forall ca cb da : R, da = (px3 a * px3 b + py3 a * py3 b + pz3 a * pz3 b) -> cb * (len a * len a) - ca * da = len a * len a * len b * (/ len b * cb - (/ len a * / len b * da) * (/ len a * ca))).
    { intros ca cb da ->. field. lra. }
    assert (D : dot3 a' b' = / len a * / len b * (px3 a * px3 b + py3 a * py3 b + pz3 a * pz3 b)) by (unfold dot3, a', b', pmul; cbn [px3 py3 pz3]; ring).
    apply pos_eq; unfold r, pmul at 1; cbn [px3 py3 pz3]; rewrite D; unfold k, a', b', pmul; cbn [px3 py3 pz3].
    - pose proof (E (px3 a) (px3 b) _ eq_refl) as Q. rewrite SA in Q at 1. unfold G, rcross, pmul. cbn [px3 py3 pz3]. unfold rdot in Q. lra.
    - pose proof (E (py3 a) (py3 b) _ eq_refl) as Q. rewrite SA in Q at 1. unfold G, rcross, pmul. cbn [px3 py3 pz3]. unfold rdot in Q. lra.
    - pose proof (E (pz3 a) (pz3 b) _ eq_refl) as Q. rewrite SA in Q at 1. unfold G, rcross, pmul. cbn [px3 py3 pz3]. unfold rdot in Q. lra. }
  assert (LR : len G = k * len r) by (rewrite EG, len_mul, Rabs_pos_eq by lra; reflexivity). assert (RP : 0 < len r). { apply (Rmult_lt_reg_l k); [exact KP|]. rewrite <- LR. lra. }
  rewrite LR. rewrite EG. unfold heading. fold r. change (length3 r) with (len r). apply pos_eq; unfold pmul; cbn [px3 py3 pz3]; field; lra.
Qed.
Lemma scale_rel v k : fvec v -> finite k -> len (RV v) * Rabs (B2R k) <= 2 -> fvec (vscale v k) /\ len (psub (RV (vscale v k)) (pmul (B2R k) (RV v))) <= 5 * u.
Proof.
  intros (F1 & F2 & F3) FK L. destruct (len_comp (RV v)) as (C1 & C2 & C3). cbn [px3 py3 pz3 RV] in *. pose proof h_tiny as HT. pose proof h_pos as HP. pose proof (Rabs_pos (B2R k)) as PK.
  assert (K : forall x, finite x -> Rabs (B2R x) <= len (RV v) -> finite (fmul x k) /\ Rabs (B2R (fmul x k) - B2R k * B2R x) <= 25 / 10 * u).
  { intros x Fx Bx. assert (M : Rabs (B2R x * B2R k) <= 2). { rewrite Rabs_mult. eapply Rle_trans; [apply Rmult_le_compat_r; [exact PK|exact Bx]|exact L]. }
    destruct (result_val _ _ 1 ltac:(lia) (fmul_result _ _ Fx FK)) as (F & V & _); [change (pow2 1) with 2; exact M|]. split; [exact F|]. rewrite V. replace (B2R k * B2R x) with (B2R x * B2R k) by ring. pose proof (PredicatesError.rnd_rel (B2R x * B2R k)). lra. }
  destruct (K _ F1 C1) as [G1 E1]. destruct (K _ F2 C2) as [G2 E2]. destruct (K _ F3 C3) as [G3 E3]. split; [repeat split; assumption|].
  replace (5 * u) with (2 * (25 / 10 * u)) by lra. apply parts_le; [lra|exact E1|exact E2|exact E3].
Qed.
Lemma div_gap l m : 0 < m -> l / m - 1 = (l - m) * / m. Proof. intros. field. lra. Qed.
Lemma fac_split f l s m S : 0 < m -> f * l - S = (f - s / m) * l + s * (l / m - 1) + (s - S). Proof. intros. field. lra. Qed.
Lemma interp_spec a b (c s : f64) t : is_unit a = true -> is_unit b = true -> 1 / 2 ^ 40 <= len (rcross (RV a) (RV b)) ->
  finite c -> finite s -> Rabs (B2R c - cos t) <= 8 * u -> Rabs (B2R s - sin t) <= 8 * u ->
  let g := cross (point_cross a b) a in let x := VectorModel.normalize (vadd (vscale a c) (vscale g (fdiv s (norm g)))) in
  is_unit x = true /\ chd (direction x) (along (direction a) (direction b) t) <= 700 * u.
Proof.
  intros Ua Ub K FC FS EC ES. cbv zeta. pose proof (unit_len_unit a Ua) as A. pose proof (unit_len_unit b Ub) as B. pose proof h_tiny as HT. pose proof h_pos as HP.
  (* the normal *)
  assert (NB : fvec (point_cross a b) /\ len (psub (RV (point_cross a b)) (pmul 2 (rcross (RV a) (RV b)))) <= 11 * u * (2 * len (rcross (RV a) (RV b)))).
  { destruct (stable_cross a b (proj1 A) (proj1 B) (proj2 A) (proj2 B)) as [F E]. cbv zeta in *. fold (rawc a b) in *. rewrite len_mul, (Rabs_pos_eq 2) in E by lra.
    assert (E' : len (psub (RV (rawc a b)) (pmul 2 (rcross (RV a) (RV b)))) <= 11 * u * (2 * len (rcross (RV a) (RV b)))) by (eapply Rle_trans; [exact E|lra]).
    assert (Z : is_zero (rawc a b) = false). { destruct (is_zero (rawc a b)) eqn:Q; [|reflexivity]. apply (is_zero_RV _ F) in Q. rewrite Q, len_opp, org_len, len_mul, (Rabs_pos_eq 2) in E' by lra. exfalso. lra. }
    unfold point_cross. fold (rawc a b). rewrite Z. split; assumption. }
  destruct A as [FA HA]. destruct B as [FB HB]. unfold KR in *. pose proof (Rabs_le_inv _ _ HA) as HA'. pose proof (Rabs_le_inv _ _ HB) as HB'.
  set (n := point_cross a b) in *. set (N := pmul 2 (rcross (RV a) (RV b))) in *. destruct NB as [FN EN]. set (k := len (rcross (RV a) (RV b))) in *.
  assert (LN : len N = 2 * k) by (unfold N; rewrite len_mul, Rabs_pos_eq by lra; reflexivity).
  assert (KB : k <= 101 / 100). { unfold k. eapply Rle_trans; [apply len_cross|]. apply Rle_trans with (1001 / 1000 * (1001 / 1000)); [apply Rmult_le_compat; try apply len_pos; lra|lra]. }
  pose proof (len_sub (RV n) N) as SN. apply Rabs_le_inv in SN. rewrite LN in SN.
  (* the tangent *)
  destruct (cross_rel n a FN FA ltac:(lra) ltac:(lra)) as [FG EG]. set (g := cross n a) in *.
  destruct (heading_eq (RV a) (RV b) ltac:(lra) ltac:(lra) ltac:(fold k; lra)) as (HE & GP & LG & GO). cbv zeta in *. fold N in HE, GP, LG, GO. fold k in LG. set (G := rcross N (RV a)) in *.
  assert (GB : 98 / 100 * (2 * k) <= len G <= 102 / 100 * (2 * k)). { rewrite LG. split; apply (Rmult_le_compat_l k) with (r1 := 98 / 100) (r2 := len (RV a)) || idtac; nra. }
  assert (DG : len (psub (RV g) G) <= 18 * u * len G).
  { pose proof (cross_near (RV n) (RV a) N (RV a)) as CN. fold G in CN. replace (psub (RV a) (RV a)) with org in CN by (apply pos_eq; unfold psub, org; cbn [px3 py3 pz3]; ring). assert (L0 : len org = 0) by (unfold len, rdot, org; cbn [px3 py3 pz3]; replace (0 * 0 + 0 * 0 + 0 * 0) with 0 by ring; apply sqrt_0). rewrite L0, Rmult_0_r, Rplus_0_r in CN.
    pose proof (len_tri (psub (RV g) (rcross (RV n) (RV a))) (psub (rcross (RV n) (RV a)) G)) as T. replace (padd (psub (RV g) (rcross (RV n) (RV a))) (psub (rcross (RV n) (RV a)) G)) with (psub (RV g) G) in T by (apply pos_eq; unfold psub, padd; cbn [px3 py3 pz3]; ring).
    eapply Rle_trans; [exact T|]. assert (M1 : len (psub (RV n) N) * len (RV a) <= 11 * u * len G) by (rewrite LG; replace (11 * u * (2 * k * len (RV a))) with (11 * u * (2 * k) * len (RV a)) by ring; apply Rmult_le_compat_r; [lra|exact EN]).
    assert (M2 : len (RV n) * len (RV a) <= (1 + 11 * u) * len G) by (rewrite LG; replace ((1 + 11 * u) * (2 * k * len (RV a))) with ((1 + 11 * u) * (2 * k) * len (RV a)) by ring; apply Rmult_le_compat_r; lra).
    assert (M3 : 5 * u * (len (RV n) * len (RV a)) <= 5 * u * ((1 + 11 * u) * len G)) by (apply Rmult_le_compat_l; [lra|exact M2]). lra. }
  pose proof (len_sub (RV g) G) as SG. apply Rabs_le_inv in SG. set (lg := len G) in *. set (l := len (RV g)) in *. assert (LB : 97 / 100 * (2 * k) <= l <= 103 / 100 * (2 * k)) by lra.
  assert (MG : moderate g). { split; [exact FG|]. pose proof (len_sq (RV g)) as Q. change (rdot (RV g) (RV g)) with (sqn g) in Q. fold l in Q. rewrite <- Q.
    assert (P1 : pow2 (-900) <= / 2 ^ 40 * / 2 ^ 40). { apply Rle_trans with (pow2 (-80)); [apply bpow_le; lia|]. change (pow2 (-80)) with (/ 1208925819614629174706176). apply Req_le. field. }
    assert (P2 : 9 <= pow2 900). { apply Rle_trans with (pow2 4); [change (pow2 4) with 16; lra|apply bpow_le; lia]. }
    split; [eapply Rle_trans; [exact P1|apply Rmult_le_compat; lra]|eapply Rle_trans; [|exact P2]; replace 9 with (3 * 3) by ring; apply Rmult_le_compat; lra]. }
  destruct (moderate_norm g MG) as (l' & PL & SL & _ & FM & EM). assert (EL : l' = l). { unfold l. rewrite len_RV, <- SL. symmetry. apply sqrt_square. lra. } rewrite EL in EM, PL. clear l' EL SL. set (m := norm g) in *.
  apply Rabs_le_inv in EM. assert (MP : 0 < B2R m) by lra.
  (* the factor *)
  pose proof (SIN_bound t) as SB. pose proof (COS_bound t) as CB. pose proof (Rabs_le_inv _ _ ES) as ES'. pose proof (Rabs_le_inv _ _ EC) as EC'.
  assert (AS : Rabs (B2R s) <= 1 + 8 * u) by (apply Rabs_le; lra). assert (AC : Rabs (B2R c) <= 1 + 8 * u) by (apply Rabs_le; lra).
  assert (IM : 0 < / B2R m) by (apply Rinv_0_lt_compat; exact MP). assert (R1 : Rabs (l / B2R m - 1) <= 6 * u).
  { rewrite (div_gap l (B2R m) MP), Rabs_mult, (Rabs_pos_eq (/ B2R m)) by lra. apply (Rmult_le_reg_r (B2R m)); [exact MP|]. rewrite Rmult_assoc, Rinv_l, Rmult_1_r by lra. apply Rabs_le. lra. }
  assert (QB : Rabs (B2R s / B2R m) <= 2 ^ 41). { unfold Rdiv. rewrite Rabs_mult, (Rabs_pos_eq (/ B2R m)) by lra. apply (Rmult_le_reg_r (B2R m)); [exact MP|]. rewrite Rmult_assoc, Rinv_l, Rmult_1_r by lra. apply Rle_trans with (2 ^ 41 * (96 / 100 * (2 * k))); [lra|apply Rmult_le_compat_l; lra]. }
  pose proof (fdiv_result s m FS FM ltac:(lra)) as RF. destruct (result_val _ _ 41 ltac:(lia) RF) as (FF & VF & _); [change (pow2 41) with 2199023255552; lra|].
  pose proof (PredicatesError.rnd_rel (B2R s / B2R m)) as RR. rewrite <- VF in RR. set (f := fdiv s m) in *.
  assert (FL : Rabs (B2R f * l - sin t) <= 16 * u).
  { rewrite (fac_split (B2R f) l (B2R s) (B2R m) (sin t) MP).
    assert (T1 : Rabs ((B2R f - B2R s / B2R m) * l) <= 11 / 10 * u).
    { rewrite Rabs_mult, (Rabs_pos_eq l) by lra. apply Rle_trans with ((u * Rabs (B2R s / B2R m) + h) * l); [apply Rmult_le_compat_r; lra|]. unfold Rdiv. rewrite Rabs_mult, (Rabs_pos_eq (/ B2R m)) by lra.
      replace ((u * (Rabs (B2R s) * / B2R m) + h) * l) with (u * (Rabs (B2R s) * (l / B2R m)) + h * l) by (unfold Rdiv; ring). apply Rabs_le_inv in R1.
      assert (Rabs (B2R s) * (l / B2R m) <= (1 + 8 * u) * (1 + 6 * u)) by (apply Rmult_le_compat; try apply Rabs_pos; lra). assert (h * l <= h * 3) by (apply Rmult_le_compat_l; lra). lra. }
    assert (T2 : Rabs (B2R s * (l / B2R m - 1)) <= (1 + 8 * u) * (6 * u)) by (rewrite Rabs_mult; apply Rmult_le_compat; try apply Rabs_pos; assumption).
    eapply Rle_trans; [apply Rabs_triang|]. eapply Rle_trans; [apply Rplus_le_compat_r, Rabs_triang|]. lra. }
  assert (FLB : l * Rabs (B2R f) <= 2). { rewrite <- (Rabs_pos_eq l) at 1 by lra. rewrite <- Rabs_mult, Rmult_comm. apply Rabs_le. apply Rabs_le_inv in FL. lra. }
  destruct (scale_rel g f FG FF FLB) as [FW EW]. destruct (scale_rel a c FA FC) as [FV EV]. { apply Rle_trans with (11 / 10 * (1 + 8 * u)); [apply Rmult_le_compat; try apply Rabs_pos; try apply len_pos; lra|lra]. }
  (* the exact point *)
  assert (PA : 0 < sqn a). { pose proof (len_sq (RV a)) as Q. change (rdot (RV a) (RV a)) with (sqn a) in Q. rewrite <- Q. apply Rmult_lt_0_compat; lra. }
  assert (PB : 0 < sqn b). { pose proof (len_sq (RV b)) as Q. change (rdot (RV b) (RV b)) with (sqn b) in Q. rewrite <- Q. apply Rmult_lt_0_compat; lra. }
  set (a' := pmul (/ len (RV a)) (RV a)) in *. set (G' := pmul (/ lg) G) in *. assert (GP' : 0 < lg) by exact GP. assert (LG1 : len G' = 1) by exact (len_scaled G GP').
  assert (EA : along (direction a) (direction b) t = padd (pmul (cos t) a') (pmul (sin t) G')). { unfold along. rewrite !dir_scaled by assumption. fold a'. rewrite HE. fold lg G'. reflexivity. }
  assert (UA : rdot a' a' = 1). { rewrite <- len_sq. unfold a'. rewrite len_scaled by lra. ring. } assert (UG : rdot G' G' = 1). { rewrite <- len_sq. rewrite LG1. ring. }
  assert (UO : rdot a' G' = 0). { unfold a', G', pmul, rdot. cbn [px3 py3 pz3]. unfold rdot in GO. replace (/ len (RV a) * px3 (RV a) * (/ lg * px3 G) + / len (RV a) * py3 (RV a) * (/ lg * py3 G) + / len (RV a) * pz3 (RV a) * (/ lg * pz3 G)) with (/ len (RV a) * / lg * (px3 (RV a) * px3 G + py3 (RV a) * py3 G + pz3 (RV a) * pz3 G)) by ring. rewrite GO. ring. }
  pose proof (along_sphere a' G' t UA UG UO) as OS. rewrite EA. set (E := padd (pmul (cos t) a') (pmul (sin t) G')) in *.
  (* its two parts *)
  assert (P1 : len (psub (RV (vscale a c)) (pmul (cos t) a')) <= 14 * u + 27 / 1000000000000000).
  { replace (psub (RV (vscale a c)) (pmul (cos t) a')) with (padd (psub (RV (vscale a c)) (pmul (B2R c) (RV a))) (padd (pmul (B2R c - cos t) (RV a)) (pmul (cos t) (psub (RV a) a')))) by (apply pos_eq; unfold psub, padd, pmul; cbn [px3 py3 pz3]; ring).
    eapply Rle_trans; [apply len_tri|]. eapply Rle_trans; [apply Rplus_le_compat_l, len_tri|]. rewrite !len_mul.
    assert (D : len (psub (RV a) a') = Rabs (len (RV a) - 1)). { unfold a'. replace (psub (RV a) (pmul (/ len (RV a)) (RV a))) with (pmul (1 - / len (RV a)) (RV a)) by (apply pos_eq; unfold psub, pmul; cbn [px3 py3 pz3]; ring). rewrite len_mul. rewrite <- (Rabs_pos_eq (len (RV a))) at 2 by lra. rewrite <- Rabs_mult. f_equal. field. lra. }
    rewrite D. assert (Rabs (B2R c - cos t) * len (RV a) <= 8 * u * (11 / 10)) by (apply Rmult_le_compat; try apply Rabs_pos; lra). assert (Rabs (cos t) * Rabs (len (RV a) - 1) <= 1 * (27 / 1000000000000000)) by (apply Rmult_le_compat; try apply Rabs_pos; [apply Rabs_le; exact CB|exact HA]). lra. }
  assert (P2 : len (psub (RV (vscale g f)) (pmul (sin t) G')) <= 58 * u).
  { set (g' := pmul (/ l) (RV g)). replace (psub (RV (vscale g f)) (pmul (sin t) G')) with (padd (psub (RV (vscale g f)) (pmul (B2R f) (RV g))) (padd (pmul (B2R f * l - sin t) g') (pmul (sin t) (psub g' G')))) by (apply pos_eq; unfold g', psub, padd, pmul; cbn [px3 py3 pz3]; field; lra).
    eapply Rle_trans; [apply len_tri|]. eapply Rle_trans; [apply Rplus_le_compat_l, len_tri|]. rewrite !len_mul. assert (L1 : len g' = 1) by (unfold g', l; apply len_scaled; fold l; lra). rewrite L1.
    pose proof (unit_close (RV g) G ltac:(fold l; lra) GP) as UC. fold l lg in UC. fold g' G' in UC. assert (UC' : len (psub g' G') <= 36 * u). { eapply Rle_trans; [exact UC|]. apply (Rmult_le_reg_r lg); [exact GP'|]. unfold Rdiv. rewrite Rmult_assoc, Rinv_l, Rmult_1_r by lra. lra. }
    assert (Rabs (sin t) * len (psub g' G') <= 1 * (36 * u)) by (apply Rmult_le_compat; try apply Rabs_pos; try apply len_pos; [apply Rabs_le; exact SB|exact UC']). lra. }
  (* the sum *)
  pose proof (len_sub (RV (vscale a c)) (pmul (cos t) a')) as L1. pose proof (len_sub (RV (vscale g f)) (pmul (sin t) G')) as L2. apply Rabs_le_inv in L1, L2.
  assert (LA' : len (pmul (cos t) a') <= 1). { rewrite len_mul. unfold a'. rewrite len_scaled, Rmult_1_r by lra. apply Rabs_le. lra. } assert (LG' : len (pmul (sin t) G') <= 1). { rewrite len_mul. rewrite LG1, Rmult_1_r. apply Rabs_le. lra. }
  destruct (add_rel (vscale a c) (vscale g f) FV FW ltac:(lra) ltac:(lra)) as [FX EX]. set (v := vadd (vscale a c) (vscale g f)) in *.
  assert (DV : len (psub (padd (RV (vscale a c)) (RV (vscale g f))) E) <= 72 * u + 27 / 1000000000000000).
  { unfold E. replace (psub (padd (RV (vscale a c)) (RV (vscale g f))) (padd (pmul (cos t) a') (pmul (sin t) G'))) with (padd (psub (RV (vscale a c)) (pmul (cos t) a')) (psub (RV (vscale g f)) (pmul (sin t) G'))) by (apply pos_eq; unfold psub, padd, pmul; cbn [px3 py3 pz3]; ring). eapply Rle_trans; [apply len_tri|]. lra. }
  assert (LE : len E = 1). { unfold len. rewrite (proj1 (sphere_len E) OS). apply sqrt_1. }
  pose proof (len_sub (padd (RV (vscale a c)) (RV (vscale g f))) E) as L3. rewrite LE in L3. apply Rabs_le_inv in L3.
  assert (CV : chd (RV v) E <= 320 * u).
  { rewrite chd_len. replace (psub (RV v) E) with (padd (psub (RV v) (padd (RV (vscale a c)) (RV (vscale g f)))) (psub (padd (RV (vscale a c)) (RV (vscale g f))) E)) by (apply pos_eq; unfold psub, padd; cbn [px3 py3 pz3]; ring). eapply Rle_trans; [apply len_tri|].
    assert (u * len (padd (RV (vscale a c)) (RV (vscale g f))) <= u * 2) by (apply Rmult_le_compat_l; lra). lra. }
  destruct (dir_near v E (320 * u) OS CV ltac:(lra)) as [PV DN].
  (* the normalization *)
  pose proof (len_near v E OS) as LV. apply Rabs_le_inv in LV. assert (MV : moderate v).
  { split; [exact FX|]. pose proof (sqrt_sqrt (sqn v) ltac:(lra)) as Q. rewrite <- Q.
    assert (Q1 : pow2 (-900) <= 1 / 4) by (apply Rle_trans with (pow2 (-2)); [apply bpow_le; lia|change (pow2 (-2)) with (/ 4); lra]). assert (Q2 : 4 <= pow2 900) by (apply Rle_trans with (pow2 2); [change (pow2 2) with 4; lra|apply bpow_le; lia]).
    split; [eapply Rle_trans; [exact Q1|]; replace (1 / 4) with (1 / 2 * (1 / 2)) by field; apply Rmult_le_compat; lra|eapply Rle_trans; [|exact Q2]; replace 4 with (2 * 2) by ring; apply Rmult_le_compat; lra]. }
  destruct (normalize_close v MV) as (q & PQ & SQ & _ & N1 & N2 & N3 & UU). split; [exact UU|]. set (x := VectorModel.normalize v) in *.
  assert (QE : q = sqrt (sqn v)) by (rewrite <- SQ; symmetry; apply sqrt_square; lra).
  assert (XD : chd (RV x) (direction v) <= 18 * u).
  { rewrite chd_len. assert (CO : forall w, Rabs w <= q -> Rabs (w / q) <= 1). { intros w W. unfold Rdiv. rewrite Rabs_mult, (Rabs_pos_eq (/ q)) by (apply Rlt_le, Rinv_0_lt_compat; exact PQ). apply (Rmult_le_reg_r q); [exact PQ|]. rewrite Rmult_assoc, Rinv_l by lra. lra. }
    destruct (len_comp (RV v)) as (W1 & W2 & W3). rewrite len_RV, <- QE in W1, W2, W3. cbn [px3 py3 pz3 RV] in W1, W2, W3.
    pose proof (CO _ W1). pose proof (CO _ W2). pose proof (CO _ W3). replace (18 * u) with (2 * (9 * u)) by ring. apply parts_le; [lra| | |]; unfold psub, direction, RV; cbn [px3 py3 pz3]; fold (sqn v); rewrite <- QE; lra. }
  assert (SD : on_sphere (direction v)). { apply sphere_len. rewrite dir_scaled by exact PV. rewrite <- len_sq, len_scaled; [ring|]. rewrite len_RV. apply sqrt_lt_R0. exact PV. }
  destruct (dir_near x (direction v) (18 * u) SD XD ltac:(lra)) as [_ XX].
  pose proof (chd_tri (direction x) (direction v) E) as T. lra.
Qed.

(** [along a b] starts at [a] and meets [b] at the angle between them. *)
Lemma along_start a b : along a b 0 = a.
Proof. unfold along. rewrite cos_0, sin_0. apply pos_eq; cbn [px3 py3 pz3]; ring. Qed.
Lemma along_end a b : on_sphere a -> on_sphere b -> 0 < length3 (cross3 a b) -> along a b (angle_between a b) = b.
Proof.
  intros A B P. change (0 < len (rcross a b)) in P. destruct (angle_trig a b A B) as (O & CO & SO). cbv zeta in *. set (o := angle_between a b) in *. set (k := rdot a b) in *.
  assert (UA : len a = 1) by (unfold len; rewrite (proj1 (sphere_len a) A); apply sqrt_1). assert (UB : len b = 1) by (unfold len; rewrite (proj1 (sphere_len b) B); apply sqrt_1).
  set (r := Pos (px3 b - k * px3 a) (py3 b - k * py3 a) (pz3 b - k * pz3 a)). assert (RR : rdot r r = 1 - k * k). { replace (rdot r r) with (rdot b b - 2 * k * rdot a b + k * k * rdot a a) by (unfold r, rdot; cbn [px3 py3 pz3]; ring). fold k. rewrite (proj1 (sphere_len a) A), (proj1 (sphere_len b) B). ring. }
  assert (LR : len r = sin o) by (rewrite SO; unfold len; rewrite RR; reflexivity).
  assert (CP : len (rcross a b) = sin o). { rewrite SO. unfold len. rewrite cross_dot, (proj1 (sphere_len a) A), (proj1 (sphere_len b) B). fold k. f_equal. ring. }
  unfold along, heading. change (dot3 a b) with k. fold r. change (length3 r) with (len r). rewrite LR, CO. apply pos_eq; cbn [px3 py3 pz3]; unfold r; cbn [px3 py3 pz3]; field; lra.
Qed.
Print Assumptions along_end.

(** The interpolated point is a unit vector within 2^-43 of the point at the given angle
    along the great circle, unless the two points are nearly parallel. *)
Theorem C129_at_distance_partial : forall fsin fcos ax a b, accurate fsin sin -> accurate fcos cos -> is_unit a = true -> is_unit b = true -> finite ax -> Rabs (B2R ax) <= 4 ->
  1 / 2 ^ 40 <= length3 (cross3 (position a) (position b)) ->
  let x := interpolate_at_distance fsin fcos ax a b in
  is_unit x = true /\ apart (direction x) (along (direction a) (direction b) (B2R ax)) <= 1 / 2 ^ 43.
Proof.
  intros fsin fcos ax a b AS AC Ua Ub FX BX K. cbv zeta. change (1 / 2 ^ 40 <= len (rcross (RV a) (RV b))) in K. destruct (AS ax FX BX) as [F1 E1]. destruct (AC ax FX BX) as [F2 E2].
  destruct (interp_spec a b (fcos ax) (fsin ax) (B2R ax) Ua Ub K F2 F1) as [U D]; [lra|lra|]. cbv zeta in *. unfold interpolate_at_distance. split; [exact U|]. eapply Rle_trans; [exact D|lra].
Qed.
Print Assumptions C129_at_distance_partial.

(** The interpolated point at the fraction [t] is within 2^-42 of the point at that fraction
    of the angle, and at 0 and 1 it is the first and the second point. *)
Theorem C129_interpolate_partial : forall fsin fcos fatan2 t a b, accurate fsin sin -> accurate fcos cos -> accurate_atan2 fatan2 -> upper_atan2 fatan2 ->
  is_unit a = true -> is_unit b = true -> finite t -> Rabs (B2R t) <= 1 ->
  let x := interpolate fsin fcos fatan2 t a b in
  (B2R t = 0 -> x = a) /\ (B2R t = 1 -> x = b) /\
  (1 / 2 ^ 40 <= length3 (cross3 (position a) (position b)) ->
     is_unit x = true /\
     apart (direction x) (along (direction a) (direction b) (B2R t * angle_between (direction a) (direction b))) <= 1 / 2 ^ 42).
Proof.
  intros fsin fcos fatan2 t a b AS AC AT UP Ua Ub FT BT. cbv zeta. unfold interpolate. assert (V0 : B2R f0 = 0) by reflexivity. destruct StuvError.f1_val as [F1 V1].
  pose proof (unit_sphere _ Ua) as SA. pose proof (unit_sphere _ Ub) as SB.
  destruct (feq_R t f0 FT eq_refl) as [E0|E0].
  { split; [reflexivity|]. split; [intros E; exfalso; lra|]. intros _. split; [exact Ua|]. rewrite E0, V0, Rmult_0_l, along_start. unfold apart. replace (dist2 (direction a) (direction a)) with 0 by (unfold dist2; ring). rewrite sqrt_0. lra. }
  destruct (feq_R t f1 FT F1) as [E1|E1].
  { split; [intros E; exfalso; lra|]. split; [reflexivity|]. intros K. split; [exact Ub|]. rewrite E1, V1, Rmult_1_l, along_end; [|exact SA|exact SB|].
    - unfold apart. replace (dist2 (direction b) (direction b)) with 0 by (unfold dist2; ring). rewrite sqrt_0. lra.
    - change (1 / 2 ^ 40 <= len (rcross (RV a) (RV b))) in K. change (0 < len (rcross (direction a) (direction b))). destruct (unit_unitish a Ua) as (_ & PA & LA). destruct (unit_unitish b Ub) as (_ & PB & LB). rewrite !dir_scaled by assumption. rewrite !len_RV.
      replace (rcross (pmul (/ sqrt (sqn a)) (RV a)) (pmul (/ sqrt (sqn b)) (RV b))) with (pmul (/ sqrt (sqn a) * / sqrt (sqn b)) (rcross (RV a) (RV b))) by (apply pos_eq; unfold rcross, pmul; cbn [px3 py3 pz3]; ring).
      assert (I : 0 < / sqrt (sqn a) * / sqrt (sqn b)) by (apply Rmult_lt_0_compat; apply Rinv_0_lt_compat; lra). rewrite len_mul, Rabs_pos_eq by lra. apply Rmult_lt_0_compat; lra. }
  split; [intros E; exfalso; lra|]. split; [intros E; exfalso; lra|]. intros K. pose proof K as K'. change (1 / 2 ^ 40 <= len (rcross (RV a) (RV b))) in K'.
  destruct (C118_distance fatan2 a b AT UP Ua Ub) as (FD & BD & ED). cbv zeta in *. change (vangle fatan2 a b) with (point_distance fatan2 a b). set (d := point_distance fatan2 a b) in *. set (o := angle_between (direction a) (direction b)) in *. pose proof pi_PI as PP. pose proof PI_tight as PT.
  assert (TD : Rabs (B2R t * B2R d) <= pi). { rewrite Rabs_mult, (Rabs_pos_eq (B2R d)) by lra. apply Rle_trans with (1 * pi); [apply Rmult_le_compat; try apply Rabs_pos; lra|lra]. }
  destruct (result_val _ _ 2 ltac:(lia) (fmul_result _ _ FT FD)) as (FX & VX & BX); [change (pow2 2) with 4; lra|]. change (pow2 2) with 4 in BX.
  destruct (C129_at_distance_partial fsin fcos (fmul t d) a b AS AC Ua Ub FX BX K) as [U D]. cbv zeta in D. split; [exact U|]. set (x := interpolate_at_distance fsin fcos (fmul t d) a b) in *.
  assert (EX : Rabs (B2R (fmul t d) - B2R t * o) <= 1 / 2 ^ 45).
  { replace (B2R (fmul t d) - B2R t * o) with ((B2R (fmul t d) - B2R t * B2R d) + B2R t * (B2R d - o)) by ring. eapply Rle_trans; [apply Rabs_triang|]. rewrite VX. pose proof (PredicatesError.rnd_rel (B2R t * B2R d)) as RR. pose proof h_tiny.
    rewrite Rabs_mult. assert (Rabs (B2R t) * Rabs (B2R d - o) <= 1 * (1 / 2 ^ 46)) by (apply Rmult_le_compat; try apply Rabs_pos; lra). lra. }
  (* a step along the great circle *)
  assert (ST : apart (along (direction a) (direction b) (B2R (fmul t d))) (along (direction a) (direction b) (B2R t * o)) <= 1 / 2 ^ 45).
  { destruct (unit_unitish a Ua) as (_ & PA & LA). destruct (unit_unitish b Ub) as (_ & PB & LB). pose proof (heading_eq (RV a) (RV b)) as H. rewrite !len_RV in H. destruct (H ltac:(lra) ltac:(lra) ltac:(lra)) as (HE & GP & _ & GO). cbv zeta in *. rewrite <- !len_RV, <- !dir_scaled in HE by assumption. set (G := rcross (pmul 2 (rcross (RV a) (RV b))) (RV a)) in *.
    unfold along. rewrite HE. set (G' := pmul (/ len G) G) in *.
    assert (UG : rdot G' G' = 1). { rewrite <- len_sq. unfold G'. rewrite len_scaled by exact GP. ring. }
    assert (UO : rdot (direction a) G' = 0). { rewrite dir_scaled by exact PA. unfold G', pmul, rdot. cbn [px3 py3 pz3]. unfold rdot in GO. replace (/ len (RV a) * px3 (RV a) * (/ len G * px3 G) + / len (RV a) * py3 (RV a) * (/ len G * py3 G) + / len (RV a) * pz3 (RV a) * (/ len G * pz3 G)) with (/ len (RV a) * / len G * (px3 (RV a) * px3 G + py3 (RV a) * py3 G + pz3 (RV a) * pz3 G)) by ring. rewrite GO. ring. }
    pose proof (along_lip (direction a) G' (B2R (fmul t d)) (B2R t * o) (proj1 (sphere_len _) SA) UG UO) as L. eapply Rle_trans; [exact L|exact EX]. }
  pose proof (chd_tri (direction x) (along (direction a) (direction b) (B2R (fmul t d))) (along (direction a) (direction b) (B2R t * o))) as T. change chd with apart in T. lra.
Qed.
Print Assumptions C129_interpolate_partial.

(** Points so close that the square of their distance underflows have no midpoint: a
    coordinate is not a number. *)
Definition uxe : vec := Vec f1 (lit 1 (-600)) f0.
Lemma zero_feq x : feq x f0 = true -> exists s, x = B754_zero s.
Proof. destruct x as [s|[]| |[] m e B]; intros H; try discriminate H. exists s. reflexivity. Qed.
Theorem C129_interpolate_refuted : exists t a b, finite t /\ is_unit a = true /\ is_unit b = true /\ veq a b = false /\
  forall fsin fcos fatan2, accurate fsin sin -> accurate fcos cos -> accurate_atan2 fatan2 -> upper_atan2 fatan2 ->
    is_unit (interpolate fsin fcos fatan2 t a b) = false.
Proof.
  exists fhalf, ux, uxe. split; [reflexivity|]. split; [vm_compute; reflexivity|]. split; [vm_compute; reflexivity|]. split; [vm_compute; reflexivity|].
  intros fsin fcos fatan2 AS AC AT UP. unfold interpolate. replace (feq fhalf f0) with false by (vm_compute; reflexivity). replace (feq fhalf f1) with false by (vm_compute; reflexivity). cbv iota.
  destruct (C118_distance fatan2 ux uxe AT UP ltac:(vm_compute; reflexivity) ltac:(vm_compute; reflexivity)) as (FD & BD & _). cbv zeta in *. change (vangle fatan2 ux uxe) with (point_distance fatan2 ux uxe). set (d := point_distance fatan2 ux uxe) in *. clearbody d. pose proof pi_PI as PP. pose proof PI_tight as PT.
  destruct (CircleProofs.half_val d FD) as (FX & _ & EX); [apply Rabs_le; lra|]. set (ax := fmul fhalf d) in *. destruct (AS ax FX) as [FS _]; [apply Rabs_le; lra|].
  unfold interpolate_at_distance. set (g := cross (point_cross ux uxe) ux) in *. set (s := fsin ax) in *. set (c := fcos ax) in *. clearbody s c.
  destruct (zero_feq (norm g) ltac:(vm_compute; reflexivity)) as [s1 E1]. destruct (zero_feq (vx g) ltac:(vm_compute; reflexivity)) as [s2 E2]. rewrite E1.
  assert (NAN : fmul (vx g) (fdiv s (B754_zero s1)) = B754_nan). { rewrite E2. destruct s as [z| | |z m e B]; try discriminate FS; reflexivity. }
  assert (FN : forall x : f64, fadd x B754_nan = B754_nan) by (intros x; destruct x as [[]|[]| |[] m e B]; reflexivity).
  assert (NX : vx (vadd (vscale ux c) (vscale g (fdiv s (B754_zero s1)))) = B754_nan). { unfold vadd, vscale at 2. cbn [vx]. rewrite NAN. apply FN. }
  set (v := vadd (vscale ux c) (vscale g (fdiv s (B754_zero s1)))) in *. clearbody v.
  destruct (is_unit (VectorModel.normalize v)) eqn:U; [|reflexivity]. exfalso. apply unit_bound in U. destruct U as [(F & _) _]. unfold VectorModel.normalize in F. rewrite NX in F. cbn [feq] in F. change (feq B754_nan f0) with false in F. cbn [andb] in F. unfold vscale in F. cbn [vx] in F. rewrite NX in F. destruct (fdiv f1 (norm v)) as [[]|[]| |[] m e B]; discriminate F.
Qed.
Print Assumptions C129_interpolate_refuted.
Example C129_hyps : accurate cut_sin sin /\ accurate cut_cos cos /\ accurate_atan2 cut_atan2 /\ upper_atan2 cut_atan2 /\ is_unit ux = true /\ is_unit uy = true /\ 1 / 2 ^ 40 <= length3 (cross3 (position ux) (position uy)) /\ finite fhalf /\ Rabs (B2R fhalf) <= 1.
Proof.
  destruct C127_hyps as (A & B & C). rewrite C. split; [exact cut_sin_ok|]. split; [exact cut_cos_ok|]. split; [exact cut_atan2_ok|]. split; [exact cut_atan2_upper|]. split; [exact A|]. split; [exact B|]. split; [lra|]. destruct fhalf_val as [F V]. split; [exact F|]. rewrite V. apply Rabs_le. lra.
Qed.
