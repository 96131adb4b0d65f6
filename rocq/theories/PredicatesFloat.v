(** The determinants as computed, in terms of roundings of reals. *)
From Coq Require Import Reals Lra Lia Bool.
From Flocq Require Import Core.
From Verif Require Import F64 F64Facts IntervalSpec F64Arith F64Error S1Proofs VectorModel PredicatesModel PredicatesError.
Open Scope R_scope.

Notation pow2 := (bpow radix2).

Lemma rnd_abs r k : (-1074 <= k)%Z -> Rabs r <= pow2 k -> Rabs (rnd r) <= pow2 k.
Proof.
  intros Hk H. apply Rabs_le_inv in H. apply Rabs_le. split.
  - rewrite <- (rnd_bpow k) by auto. rewrite <- rnd_opp. apply rnd_le. lra.
  - rewrite <- (rnd_bpow k) by auto. apply rnd_le. lra.
Qed.

Definition val_of (z : f64) (r : R) (k : Z) : Prop := finite z /\ B2R z = rnd r /\ Rabs (B2R z) <= pow2 k.

Lemma result_val z r k : (-1000 <= k <= 1000)%Z -> result z r -> Rabs r <= pow2 k -> val_of z r k.
Proof.
  intros Hk R B. destruct (result_near z r k Hk R B) as (F & V & _). split; [auto|split; [auto|]]. rewrite V. apply rnd_abs; auto. lia.
Qed.
Lemma mul_val x y i j : finite x -> finite y -> Rabs (B2R x) <= pow2 i -> Rabs (B2R y) <= pow2 j -> (-1000 <= i + j <= 1000)%Z ->
  val_of (fmul x y) (B2R x * B2R y) (i + j).
Proof.
  intros Fx Fy Bx By H. apply result_val; auto; [apply fmul_result; auto|]. rewrite Rabs_mult, bpow_plus.
  apply Rmult_le_compat; auto; apply Rabs_pos.
Qed.
Lemma sum_bound x y k : Rabs x <= pow2 k -> Rabs y <= pow2 k -> Rabs (x + y) <= pow2 (k + 1).
Proof. intros. eapply Rle_trans; [apply Rabs_triang|]. rewrite bpow_plus. change (pow2 1) with 2. lra. Qed.
Lemma add_val x y k : finite x -> finite y -> Rabs (B2R x) <= pow2 k -> Rabs (B2R y) <= pow2 k -> (-1001 <= k <= 999)%Z ->
  val_of (fadd x y) (B2R x + B2R y) (k + 1).
Proof. intros. apply result_val; [lia|apply fadd_result; auto|apply sum_bound; auto]. Qed.
Lemma sub_val x y k : finite x -> finite y -> Rabs (B2R x) <= pow2 k -> Rabs (B2R y) <= pow2 k -> (-1001 <= k <= 999)%Z ->
  val_of (fsub x y) (B2R x - B2R y) (k + 1).
Proof. intros. apply result_val; [lia|apply fsub_result; auto|apply sum_bound; auto]. rewrite Rabs_Ropp. auto. Qed.

Definition fvec (v : vec) : Prop := finite (vx v) /\ finite (vy v) /\ finite (vz v).
(* finite components of magnitude at most 4 *)
Definition small (v : vec) : Prop := fvec v /\ Rabs (B2R (vx v)) <= pow2 2 /\ Rabs (B2R (vy v)) <= pow2 2 /\ Rabs (B2R (vz v)) <= pow2 2.

Notation X v := (B2R (vx v)).
Notation Y v := (B2R (vy v)).
Notation Z v := (B2R (vz v)).

(* what dot (cross a b) c computes *)
Definition det_chain (a b c : vec) (m1 m1' m2 m2' m3 m3' p1 p2 p3 t1 t2 t3 s : f64) (d : R) : Prop :=
  (B2R m1 = rnd (Y a * Z b) /\ B2R m1' = rnd (Z a * Y b) /\ B2R m2 = rnd (Z a * X b) /\ B2R m2' = rnd (X a * Z b) /\
   B2R m3 = rnd (X a * Y b) /\ B2R m3' = rnd (Y a * X b)) /\
  (B2R p1 = rnd (B2R m1 - B2R m1') /\ B2R p2 = rnd (B2R m2 - B2R m2') /\ B2R p3 = rnd (B2R m3 - B2R m3')) /\
  (B2R t1 = rnd (B2R p1 * X c) /\ B2R t2 = rnd (B2R p2 * Y c) /\ B2R t3 = rnd (B2R p3 * Z c)) /\
  B2R s = rnd (B2R t1 + B2R t2) /\ d = rnd (B2R s + B2R t3).

Lemma dot_cross_val a b c : small a -> small b -> small c ->
  finite (dot (cross a b) c) /\
  exists m1 m1' m2 m2' m3 m3' p1 p2 p3 t1 t2 t3 s,
    det_chain a b c m1 m1' m2 m2' m3 m3' p1 p2 p3 t1 t2 t3 s (B2R (dot (cross a b) c)).
Proof.
  intros ((FA1 & FA2 & FA3) & A1 & A2 & A3) ((FB1 & FB2 & FB3) & B1 & B2 & B3) ((FC1 & FC2 & FC3) & C1 & C2 & C3).
  unfold dot, cross. cbn [vx vy vz].
  destruct (mul_val (vy a) (vz b) 2 2 ltac:(auto) ltac:(auto) ltac:(auto) ltac:(auto) ltac:(lia)) as (F1 & V1 & L1).
  destruct (mul_val (vz a) (vy b) 2 2 ltac:(auto) ltac:(auto) ltac:(auto) ltac:(auto) ltac:(lia)) as (F1' & V1' & L1').
  destruct (mul_val (vz a) (vx b) 2 2 ltac:(auto) ltac:(auto) ltac:(auto) ltac:(auto) ltac:(lia)) as (F2 & V2 & L2).
  destruct (mul_val (vx a) (vz b) 2 2 ltac:(auto) ltac:(auto) ltac:(auto) ltac:(auto) ltac:(lia)) as (F2' & V2' & L2').
  destruct (mul_val (vx a) (vy b) 2 2 ltac:(auto) ltac:(auto) ltac:(auto) ltac:(auto) ltac:(lia)) as (F3 & V3 & L3).
  destruct (mul_val (vy a) (vx b) 2 2 ltac:(auto) ltac:(auto) ltac:(auto) ltac:(auto) ltac:(lia)) as (F3' & V3' & L3').
  destruct (sub_val _ _ _ F1 F1' L1 L1' ltac:(lia)) as (G1 & W1 & K1).
  destruct (sub_val _ _ _ F2 F2' L2 L2' ltac:(lia)) as (G2 & W2 & K2).
  destruct (sub_val _ _ _ F3 F3' L3 L3' ltac:(lia)) as (G3 & W3 & K3).
  destruct (mul_val _ (vx c) _ 2 G1 FC1 K1 C1 ltac:(lia)) as (H1 & U1 & J1).
  destruct (mul_val _ (vy c) _ 2 G2 FC2 K2 C2 ltac:(lia)) as (H2 & U2 & J2).
  destruct (mul_val _ (vz c) _ 2 G3 FC3 K3 C3 ltac:(lia)) as (H3 & U3 & J3).
  destruct (add_val _ _ _ H1 H2 J1 J2 ltac:(lia)) as (I1 & S1 & M1).
  assert (J3' : Rabs (B2R (fmul (fsub (fmul (vx a) (vy b)) (fmul (vy a) (vx b))) (vz c))) <= pow2 (2 + 2 + 1 + 2 + 1)).
  { eapply Rle_trans; [apply J3|]. apply bpow_le. lia. }
  destruct (add_val _ _ _ I1 H3 M1 J3' ltac:(lia)) as (D & E & _).
  split; [exact D|]. do 13 eexists. unfold det_chain.
  split; [split; [exact V1|split; [exact V1'|split; [exact V2|split; [exact V2'|split; [exact V3|exact V3']]]]]|].
  split; [split; [exact W1|split; [exact W2|exact W3]]|].
  split; [split; [exact U1|split; [exact U2|exact U3]]|]. split; [exact S1|exact E].
Qed.

Lemma mag_small x n : Rabs x <= n -> n <= 4 -> Rabs x <= pow2 2.
Proof. intros. change (pow2 2) with 4. lra. Qed.

(** Unit vectors *)
Lemma fadd_finite x y : is_finite (fadd x y) = true -> is_finite x = true /\ is_finite y = true.
Proof. destruct x as [[]|[]| |[] mx ex Bx], y as [[]|[]| |[] my ey By]; auto; intros H; discriminate H. Qed.
Lemma fsub_finite x y : is_finite (fsub x y) = true -> is_finite x = true /\ is_finite y = true.
Proof. destruct x as [[]|[]| |[] mx ex Bx], y as [[]|[]| |[] my ey By]; auto; intros H; discriminate H. Qed.
Lemma fmul_finite x : is_finite (fmul x x) = true -> is_finite x = true.
Proof. destruct x as [[]|[]| |[] mx ex Bx]; auto; intros H; discriminate H. Qed.

Definition sqn (v : vec) : R := X v * X v + Y v * Y v + Z v * Z v.

Lemma result_finite z r : result z r -> finite z -> B2R z = rnd r.
Proof. intros [(_ & V & _)|(s & -> & _)] F; [exact V|discriminate]. Qed.

Lemma norm2_val v : finite (norm2 v) -> fvec v /\
  exists n1 n2 n3 s : f64, B2R n1 = rnd (X v * X v) /\ B2R n2 = rnd (Y v * Y v) /\ B2R n3 = rnd (Z v * Z v) /\
    B2R s = rnd (B2R n1 + B2R n2) /\ B2R (norm2 v) = rnd (B2R s + B2R n3).
Proof.
  intros F. unfold norm2, dot in *. pose proof (fadd_finite _ _ F) as [F12 F3]. pose proof (fadd_finite _ _ F12) as [F1 F2].
  pose proof (fmul_finite _ F1) as X1. pose proof (fmul_finite _ F2) as X2. pose proof (fmul_finite _ F3) as X3.
  split; [repeat split; auto|].
  exists (fmul (vx v) (vx v)), (fmul (vy v) (vy v)), (fmul (vz v) (vz v)), (fadd (fmul (vx v) (vx v)) (fmul (vy v) (vy v))).
  split; [apply result_finite; auto; apply fmul_result; auto|].
  split; [apply result_finite; auto; apply fmul_result; auto|].
  split; [apply result_finite; auto; apply fmul_result; auto|].
  split; [apply result_finite; auto; apply fadd_result; auto|].
  apply result_finite; auto. apply fadd_result; auto.
Qed.

Lemma rnd_nonneg r : 0 <= r -> 0 <= rnd r.
Proof. intros H. apply rnd_le in H. rewrite rnd_0 in H. exact H. Qed.

(* the computed square norm is close to the exact one *)
Lemma norm2_near v : finite (norm2 v) -> Rabs (B2R (norm2 v) - sqn v) <= 4 * u * sqn v + 8 * h.
Proof.
  intros F. destruct (norm2_val v F) as (_ & n1 & n2 & n3 & s & E1 & E2 & E3 & Es & En). unfold sqn.
  pose proof (rnd_rel (X v * X v)) as R1. pose proof (rnd_rel (Y v * Y v)) as R2. pose proof (rnd_rel (Z v * Z v)) as R3.
  rewrite <- E1 in R1. rewrite <- E2 in R2. rewrite <- E3 in R3.
  pose proof (rnd_plus_rel n1 n2) as R4. rewrite <- Es in R4. pose proof (rnd_plus_rel s n3) as R5. rewrite <- En in R5.
  assert (N1 : 0 <= B2R n1) by (rewrite E1; apply rnd_nonneg, Rle_0_sqr).
  assert (N2 : 0 <= B2R n2) by (rewrite E2; apply rnd_nonneg, Rle_0_sqr).
  assert (N3 : 0 <= B2R n3) by (rewrite E3; apply rnd_nonneg, Rle_0_sqr).
  assert (Ns : 0 <= B2R s) by (rewrite Es; apply rnd_nonneg; lra).
  rewrite (Rabs_pos_eq (_ + _)) in R4 by lra. rewrite (Rabs_pos_eq (_ + _)) in R5 by lra.
  pose proof (Rle_0_sqr (X v)). pose proof (Rle_0_sqr (Y v)). pose proof (Rle_0_sqr (Z v)). unfold Rsqr in *.
  rewrite (Rabs_pos_eq (X v * X v)) in R1 by lra. rewrite (Rabs_pos_eq (Y v * Y v)) in R2 by lra. rewrite (Rabs_pos_eq (Z v * Z v)) in R3 by lra.
  pose proof h_pos. apply Rabs_le_inv in R1, R2, R3, R4, R5.
  clear - R1 R2 R3 R4 R5 N1 N2 N3 Ns H H0 H1 H2. generalize dependent h. intros.
  apply Rabs_le. lra.
Qed.
