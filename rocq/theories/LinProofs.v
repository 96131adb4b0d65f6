(** Linear interpolation in floating point, on real numbers. *)
From Coq Require Import ZArith Reals Lra Lia Psatz Bool.
From Flocq Require Import Core Relative.
From Verif Require Import Base F64 F64Facts F64Arith F64Error IntervalSpec R1Model R1Proofs S1Proofs StuvError PredicatesError PredicatesFloat ClipModel ClipProofs.
Open Scope R_scope.

(* the increment from A1, and the value *)
Definition inc (X A B A1 B1 : R) : R := rnd (rnd (rnd (B1 - A1) * rnd (X - A)) / rnd (B - A)).
Definition lin (X A B A1 B1 : R) : R := if Rle_dec (rnd (Rabs (A - X))) (rnd (Rabs (B - X))) then rnd (A1 + inc X A B A1 B1) else rnd (B1 + inc X B A B1 A1).

Lemma inc_neg X A B A1 B1 : inc (- X) (- A) (- B) A1 B1 = inc X A B A1 B1.
Proof.
  unfold inc. replace (- X - - A) with (- (X - A)) by ring. replace (- B - - A) with (- (B - A)) by ring. rewrite !rnd_opp. f_equal. replace (rnd (B1 - A1) * - rnd (X - A)) with (- (rnd (B1 - A1) * rnd (X - A))) by ring. rewrite rnd_opp. unfold Rdiv.
  destruct (Req_dec (rnd (B - A)) 0) as [Z|Z]; [rewrite Z, Ropp_0, Rinv_0; ring|field; exact Z].
Qed.
Lemma inc_opp X A B A1 B1 : inc X A B (- A1) (- B1) = - inc X A B A1 B1.
Proof.
  unfold inc. replace (- B1 - - A1) with (- (B1 - A1)) by ring. rewrite rnd_opp. replace (- rnd (B1 - A1) * rnd (X - A)) with (- (rnd (B1 - A1) * rnd (X - A))) by ring. rewrite rnd_opp. unfold Rdiv. rewrite Ropp_mult_distr_l_reverse. apply rnd_opp.
Qed.
Lemma lin_neg X A B A1 B1 : lin (- X) (- A) (- B) A1 B1 = lin X A B A1 B1.
Proof. unfold lin. rewrite !inc_neg. replace (- A - - X) with (- (A - X)) by ring. replace (- B - - X) with (- (B - X)) by ring. rewrite !Rabs_Ropp. reflexivity. Qed.
Lemma lin_opp X A B A1 B1 : lin X A B (- A1) (- B1) = - lin X A B A1 B1.
Proof. unfold lin. rewrite !inc_opp. destruct Rle_dec; rewrite <- rnd_opp; f_equal; ring. Qed.

Lemma factor x y : Rabs (y - x) <= u * Rabs x -> exists e, Rabs e <= u /\ y = x * (1 + e).
Proof.
  intros H. destruct (Req_dec x 0) as [->|N].
  - exists 0. rewrite Rabs_R0 in *. split; [lra|]. assert (Rabs (y - 0) = 0) by (pose proof (Rabs_pos (y - 0)); lra). destruct (Req_dec (y - 0) 0) as [E|E]; [lra|pose proof (Rabs_pos_lt _ E); lra].
  - exists ((y - x) / x). split; [|field; exact N]. unfold Rdiv. rewrite Rabs_mult, Rabs_inv. apply Rmult_le_reg_r with (Rabs x); [apply Rabs_pos_lt, N|]. rewrite Rmult_assoc, Rinv_l by (pose proof (Rabs_pos_lt x N); lra). lra.
Qed.
Lemma factor_rnd r : exists e n, Rabs e <= u /\ Rabs n <= h /\ rnd r = r * (1 + e) + n.
Proof.
  destruct (error_N_FLT radix2 (-1074) 53 eq_refl (fun x => negb (Z.even x)) r) as (eps & eta & He & Ht & _ & E). exists eps, eta. fold h in Ht. pose proof h_pos. change (bpow radix2 (- (53) + 1)) with (/ 4503599627370496) in He. split; [lra|]. split; [lra|exact E].
Qed.
Lemma grow x e k : 0 <= k <= 10 * u -> Rabs (x - 1) <= k -> Rabs e <= u -> Rabs (x * (1 + e) - 1) <= k + 101 / 100 * u.
Proof. intros K X E. apply Rabs_le_inv in X, E. assert (XE : Rabs ((x - 1) * e) <= 10 * u * u) by (rewrite Rabs_mult; apply Rmult_le_compat; try apply Rabs_pos; apply Rabs_le; lra). apply Rabs_le_inv in XE. apply Rabs_le. lra. Qed.
Lemma shrink m e : Rabs (m - 1) <= 405 / 100 * u -> Rabs e <= u -> Rabs (m * / (1 + e) - 1) <= 6 * u.
Proof.
  intros M E. apply Rabs_le_inv in M, E. replace (m * / (1 + e) - 1) with ((m - 1 - e) * / (1 + e)) by (field; lra). rewrite Rabs_mult, Rabs_inv, (Rabs_pos_eq (1 + e)) by lra. apply Rmult_le_reg_r with (1 + e); [lra|]. rewrite Rmult_assoc, Rinv_l by lra. assert (Rabs (m - 1 - e) <= 506 / 100 * u) by (apply Rabs_le; lra). assert (6 * u * (1 - u) <= 6 * u * (1 + e)) by (apply Rmult_le_compat_l; lra). lra.
Qed.
Notation far_gap := (bpow radix2 (-400)).
Notation speck := (bpow radix2 (-600)).
Lemma speck_small : speck <= / 1267650600228229401496703205376 * far_gap.
Proof. change (/ 1267650600228229401496703205376) with (bpow radix2 (-100)). rewrite <- bpow_plus. apply bpow_le. lia. Qed.

Section Inc.
Variables X A B A1 B1 : R.
Hypothesis FX : fmt X. Hypothesis FA : fmt A. Hypothesis FB : fmt B. Hypothesis FA1 : fmt A1. Hypothesis FB1 : fmt B1.
Hypothesis GAP : far_gap <= Rabs (B - A).
Hypothesis T01 : 0 <= (X - A) / (B - A) <= 1.
Let t := (X - A) / (B - A).
Let D := B1 - A1.
Lemma nz : B - A <> 0. Proof. intros Z. rewrite Z, Rabs_R0 in GAP. pose proof (bpow_gt_0 radix2 (-400)). lra. Qed.
Lemma inc_err : Rabs (inc X A B A1 B1 - D * t) <= 6 * u * (Rabs D * t) + speck.
Proof.
  destruct (factor _ _ (minus_rel B1 A1 FB1 FA1)) as (e1 & E1 & R1). destruct (factor _ _ (minus_rel X A FX FA)) as (e2 & E2 & R2). destruct (factor _ _ (minus_rel B A FB FA)) as (e3 & E3 & R3). destruct (factor_rnd (rnd (B1 - A1) * rnd (X - A))) as (e4 & n4 & E4 & N4 & R4). destruct (factor_rnd (rnd (rnd (B1 - A1) * rnd (X - A)) / rnd (B - A))) as (e5 & n5 & E5 & N5 & R5).
  unfold inc. rewrite R5. rewrite R4, R1, R2, R3. fold D. pose proof nz as NZ. apply Rabs_le_inv in E3 as E3'. set (n := n4 * / ((B - A) * (1 + e3)) * (1 + e5) + n5). set (m := (1 + e1) * (1 + e2) * (1 + e4) * (1 + e5)).
  replace ((D * (1 + e1) * ((X - A) * (1 + e2)) * (1 + e4) + n4) / ((B - A) * (1 + e3)) * (1 + e5) + n5 - D * t) with (D * t * (m * / (1 + e3) - 1) + n) by (assert (1 + e3 <> 0) by lra; unfold n, m, t; field; repeat split; first [exact NZ|lra]).
  assert (M : Rabs (m - 1) <= 405 / 100 * u). { unfold m. assert (M1 : Rabs ((1 + e1) - 1) <= u) by (replace (1 + e1 - 1) with e1 by ring; exact E1). pose proof (grow _ _ u ltac:(lra) M1 E2) as M2. pose proof (grow _ _ (u + 101 / 100 * u) ltac:(lra) M2 E4) as M3. pose proof (grow _ _ (u + 101 / 100 * u + 101 / 100 * u) ltac:(lra) M3 E5) as M4. lra. }
  pose proof (shrink m e3 M E3) as SH. eapply Rle_trans; [apply Rabs_triang|]. apply Rplus_le_compat.
  - rewrite Rabs_mult, (Rabs_mult D t), (Rabs_pos_eq t) by (unfold t; lra). rewrite Rmult_comm. apply Rmult_le_compat_r; [apply Rmult_le_pos; [apply Rabs_pos|unfold t; lra]|exact SH].
  - unfold n. apply Rabs_le_inv in E5 as E5'. eapply Rle_trans; [apply Rabs_triang|]. rewrite !Rabs_mult, Rabs_inv, Rabs_mult. rewrite (Rabs_pos_eq (1 + e3)), (Rabs_pos_eq (1 + e5)) by lra. pose proof (bpow_gt_0 radix2 (-400)) as GP.
    assert (I : / (Rabs (B - A) * (1 + e3)) <= 2 * bpow radix2 400). { replace (2 * bpow radix2 400) with (/ (bpow radix2 (-400) * / 2)). - apply Rinv_le_contravar; [lra|]. apply Rmult_le_compat; lra. - rewrite Rinv_mult, Rinv_inv, <- (bpow_opp radix2 (-400)). change (- (-400))%Z with 400%Z. ring. }
    assert (P : Rabs n4 * / (Rabs (B - A) * (1 + e3)) <= h * (2 * bpow radix2 400)). { apply Rmult_le_compat; [apply Rabs_pos| |exact N4|exact I]. left. apply Rinv_0_lt_compat, Rmult_lt_0_compat; lra. }
    assert (Q : Rabs n4 * / (Rabs (B - A) * (1 + e3)) * (1 + e5) <= h * (2 * bpow radix2 400) * 2). { apply Rmult_le_compat; [|lra|exact P|lra]. apply Rmult_le_pos; [apply Rabs_pos|]. left. apply Rinv_0_lt_compat, Rmult_lt_0_compat; lra. }
    assert (HB : h * (2 * bpow radix2 400) * 2 <= speck / 2). { unfold h. replace (bpow radix2 (-1074) * (2 * bpow radix2 400) * 2) with (bpow radix2 (-1074) * bpow radix2 400 * 4) by ring. rewrite <- bpow_plus. replace (speck / 2) with (bpow radix2 (-674) * 4 * (bpow radix2 72 * / 2)). - change (-1074 + 400)%Z with (-674)%Z. pose proof (bpow_gt_0 radix2 (-674)). assert (1 <= bpow radix2 72 * / 2) by (change (bpow radix2 72) with 4722366482869645213696; lra). assert (bpow radix2 (-674) * 4 * 1 <= bpow radix2 (-674) * 4 * (bpow radix2 72 * / 2)) by (apply Rmult_le_compat_l; lra). lra. - replace (bpow radix2 (-600)) with (bpow radix2 (-674) * bpow radix2 74) by (rewrite <- bpow_plus; reflexivity). replace (bpow radix2 74) with (bpow radix2 2 * bpow radix2 72) by (rewrite <- bpow_plus; reflexivity). change (bpow radix2 2) with 4. field. }
    assert (h <= speck / 2). { unfold h. replace (speck / 2) with (bpow radix2 (-601)) by (replace (bpow radix2 (-600)) with (bpow radix2 (-601) * bpow radix2 1) by (rewrite <- bpow_plus; reflexivity); change (bpow radix2 1) with 2; field). apply bpow_le. lia. } lra.
Qed.
Lemma inc_pos : 0 <= D -> 0 <= inc X A B A1 B1.
Proof.
  intros P. pose proof nz as NZ. unfold inc. rewrite <- rnd_0. apply rnd_le. assert (d0 : 0 <= rnd (B1 - A1)) by (rewrite <- rnd_0; apply rnd_le; exact P).
  assert (XA : X - A = t * (B - A)) by (unfold t; field; exact NZ). fold t in T01.
  destruct (Rle_lt_dec 0 (B - A)) as [S|S].
  - assert (0 <= rnd (X - A)) by (rewrite <- rnd_0; apply rnd_le; rewrite XA; apply Rmult_le_pos; lra). assert (E0 : 0 <= rnd (B - A)) by (rewrite <- rnd_0; apply rnd_le, S). assert (0 <= rnd (rnd (B1 - A1) * rnd (X - A))) by (rewrite <- rnd_0; apply rnd_le, Rmult_le_pos; assumption). destruct E0 as [E0|E0]; [apply Rmult_le_pos; [assumption|left; apply Rinv_0_lt_compat, E0]|rewrite <- E0; unfold Rdiv; rewrite Rinv_0; lra].
  - assert (rnd (X - A) <= 0). { rewrite <- rnd_0. apply rnd_le. rewrite XA. replace (t * (B - A)) with (- (t * (A - B))) by ring. pose proof (Rmult_le_pos t (A - B)). lra. } assert (E0 : rnd (B - A) <= 0) by (rewrite <- rnd_0; apply rnd_le; lra). assert (rnd (rnd (B1 - A1) * rnd (X - A)) <= 0). { rewrite <- rnd_0. apply rnd_le. pose proof (Rmult_le_pos (rnd (B1 - A1)) (- rnd (X - A))). lra. }
    destruct E0 as [E0|E0]; [|rewrite E0; unfold Rdiv; rewrite Rinv_0; lra]. replace (rnd (rnd (B1 - A1) * rnd (X - A)) / rnd (B - A)) with (- rnd (rnd (B1 - A1) * rnd (X - A)) * / - rnd (B - A)) by (field; lra). apply Rmult_le_pos; [lra|]. left. apply Rinv_0_lt_compat. lra.
Qed.
End Inc.

Notation Mx := (1 + / 1048576).
(* no differences so small that products of them underflow *)
Definition spread (A B : R) : Prop := A = B \/ far_gap <= Rabs (B - A).
Lemma spread_sym A B : spread A B -> spread B A. Proof. intros [E|E]; [left; auto|right; rewrite Rabs_minus_sym; exact E]. Qed.
Lemma spread_opp A B : spread A B -> spread (- A) (- B). Proof. intros [E|E]; [left; f_equal; exact E|right; replace (- B - - A) with (- (B - A)) by ring; rewrite Rabs_Ropp; exact E]. Qed.

Section Half.
Variables X A B : R.
Hypothesis FX : fmt X. Hypothesis FA : fmt A. Hypothesis FB : fmt B.
Hypothesis GAP : far_gap <= Rabs (B - A).
Let t := (X - A) / (B - A).
Hypothesis T01 : 0 <= t <= 1.
Lemma dist_a : Rabs (A - X) = t * Rabs (B - A).
Proof. pose proof (nz A B GAP) as NZ. replace (A - X) with (- (t * (B - A))) by (unfold t; field; exact NZ). rewrite Rabs_Ropp, Rabs_mult, (Rabs_pos_eq t) by lra. reflexivity. Qed.
Lemma dist_b : Rabs (B - X) = (1 - t) * Rabs (B - A).
Proof. pose proof (nz A B GAP) as NZ. replace (B - X) with ((1 - t) * (B - A)) by (unfold t; field; exact NZ). rewrite Rabs_mult, (Rabs_pos_eq (1 - t)) by lra. reflexivity. Qed.
Lemma abs_rel P Q : fmt P -> fmt Q -> (1 - u) * Rabs (P - Q) <= rnd (Rabs (P - Q)) <= (1 + u) * Rabs (P - Q).
Proof. intros FP FQ. pose proof (minus_rel P Q FP FQ) as R. rewrite <- rnd_abs_eq. pose proof (Rabs_triang_inv (rnd (P - Q)) (P - Q)) as T1. pose proof (Rabs_triang_inv (P - Q) (rnd (P - Q))) as T2. rewrite (Rabs_minus_sym (P - Q) (rnd (P - Q))) in T2. split; lra. Qed.
Lemma first_half : rnd (Rabs (A - X)) <= rnd (Rabs (B - X)) -> t <= / 2 + u.
Proof.
  intros L. pose proof (abs_rel A X FA FX) as P. pose proof (abs_rel B X FB FX) as Q. pose proof dist_a as DA. pose proof dist_b as DB. pose proof (bpow_gt_0 radix2 (-400)). assert (S : ((1 - u) * t) * Rabs (B - A) <= ((1 + u) * (1 - t)) * Rabs (B - A)) by lra. apply Rmult_le_reg_r in S; lra.
Qed.
Lemma second_half : rnd (Rabs (B - X)) <= rnd (Rabs (A - X)) -> 1 - t <= / 2 + u.
Proof.
  intros L. pose proof (abs_rel A X FA FX) as P. pose proof (abs_rel B X FB FX) as Q. pose proof dist_a as DA. pose proof dist_b as DB. pose proof (bpow_gt_0 radix2 (-400)). assert (S : ((1 - u) * (1 - t)) * Rabs (B - A) <= ((1 + u) * t) * Rabs (B - A)) by lra. apply Rmult_le_reg_r in S; lra.
Qed.
Lemma inc_flat A1 B1 : A1 = B1 -> inc X A B A1 B1 = 0.
Proof. intros ->. unfold inc. rewrite Rminus_diag_eq, rnd_0, Rmult_0_l, rnd_0 by reflexivity. unfold Rdiv. rewrite Rmult_0_l. apply rnd_0. Qed.
Lemma half_pos A1 B1 : fmt A1 -> fmt B1 -> Rabs A1 <= Mx -> Rabs B1 <= Mx -> spread A1 B1 -> t <= / 2 + u -> A1 <= B1 ->
  A1 <= rnd (A1 + inc X A B A1 B1) <= B1 /\ Rabs (rnd (A1 + inc X A B A1 B1) - (A1 + (B1 - A1) * t)) <= 8 * u.
Proof.
  intros F1 F2 M1 M2 S TH L. apply Rabs_le_inv in M1, M2. set (I := inc X A B A1 B1).
  assert (IE : Rabs (I - (B1 - A1) * t) <= 6 * u * ((B1 - A1) * t) + speck). { pose proof (inc_err X A B A1 B1 FX FA FB F1 F2 GAP T01) as E. fold t I in E. rewrite (Rabs_pos_eq (B1 - A1)) in E by lra. exact E. }
  assert (IR : 0 <= I <= B1 - A1). { destruct S as [S|S]; [unfold I; rewrite (inc_flat A1 B1 S); lra|]. rewrite Rabs_pos_eq in S by lra. split; [apply inc_pos; auto; lra|]. pose proof speck_small as K. apply Rabs_le_inv in IE. assert (DT : (B1 - A1) * t <= (B1 - A1) * (/ 2 + u)) by (apply Rmult_le_compat_l; lra). lra. }
  assert (RR : A1 <= rnd (A1 + I) <= B1). { split; [rewrite <- (rnd_fmt A1 F1) at 1|rewrite <- (rnd_fmt B1 F2)]; apply rnd_le; lra. } split; [exact RR|].
  pose proof (PredicatesError.rnd_rel (A1 + I)) as R. pose proof h_small as HS. pose proof speck_small as K. assert (far_gap <= 1) by (apply (bpow_le radix2 (-400) 0); lia). assert (AB : Rabs (A1 + I) <= Mx) by (apply Rabs_le; lra). assert (u * Rabs (A1 + I) <= u * Mx) by (apply Rmult_le_compat_l; lra).
  assert (DT : (B1 - A1) * t <= (2 * Mx) * (/ 2 + u)) by (apply Rmult_le_compat; lra). apply Rabs_le_inv in R, IE. apply Rabs_le. lra.
Qed.
Lemma half_ok A1 B1 : fmt A1 -> fmt B1 -> Rabs A1 <= Mx -> Rabs B1 <= Mx -> spread A1 B1 -> t <= / 2 + u ->
  Rmin A1 B1 <= rnd (A1 + inc X A B A1 B1) <= Rmax A1 B1 /\ Rabs (rnd (A1 + inc X A B A1 B1) - (A1 + (B1 - A1) * t)) <= 8 * u.
Proof.
  intros F1 F2 M1 M2 S TH. destruct (Rle_lt_dec A1 B1) as [L|L].
  - rewrite Rmin_left, Rmax_right by exact L. apply half_pos; auto.
  - rewrite Rmin_right, Rmax_left by lra. destruct (half_pos (- A1) (- B1)) as [P Q]; try apply fmt_opp; try apply spread_opp; rewrite ?Rabs_Ropp; auto; [lra|]. rewrite inc_opp in P, Q. replace (- A1 + - inc X A B A1 B1) with (- (A1 + inc X A B A1 B1)) in P, Q by ring. rewrite rnd_opp in P, Q. split; [lra|]. rewrite <- Rabs_Ropp. replace (- (rnd (A1 + inc X A B A1 B1) - (A1 + (B1 - A1) * t))) with (- rnd (A1 + inc X A B A1 B1) - (- A1 + (- B1 - - A1) * t)) by ring. exact Q.
Qed.
End Half.

Lemma lin_ok X A B A1 B1 : fmt X -> fmt A -> fmt B -> fmt A1 -> fmt B1 -> Rabs A1 <= Mx -> Rabs B1 <= Mx -> far_gap <= Rabs (B - A) -> spread A1 B1 -> 0 <= (X - A) / (B - A) <= 1 ->
  Rmin A1 B1 <= lin X A B A1 B1 <= Rmax A1 B1 /\ Rabs (lin X A B A1 B1 - (A1 + (B1 - A1) * ((X - A) / (B - A)))) <= 8 * u.
Proof.
  intros FX FA FB F1 F2 M1 M2 G S T. unfold lin. destruct Rle_dec as [L|L].
  - apply half_ok; auto. apply first_half; auto.
  - pose proof (nz A B G) as NZ. assert (E : (X - B) / (A - B) = 1 - (X - A) / (B - A)) by (field; split; lra). assert (G' : far_gap <= Rabs (A - B)) by (rewrite Rabs_minus_sym; exact G).
    destruct (half_ok X B A FX FB FA G' ltac:(rewrite E; lra) B1 A1 F2 F1 M2 M1 (spread_sym _ _ S)) as [P Q]; [rewrite E; apply second_half; auto; lra|]. rewrite Rmin_comm, Rmax_comm. split; [exact P|]. rewrite E in Q. replace (A1 + (B1 - A1) * ((X - A) / (B - A))) with (B1 + (A1 - B1) * (1 - (X - A) / (B - A))) by ring. exact Q.
Qed.

Notation wide := (/ 281474976710656). (* 2^-48 *)
Lemma rnd_pos x : 0 <= x -> 0 <= rnd x. Proof. intros H. rewrite <- rnd_0. apply rnd_le, H. Qed.
Lemma rnd_nonpos x : x <= 0 -> rnd x <= 0. Proof. intros H. rewrite <- rnd_0. apply rnd_le, H. Qed.
Lemma mono_up X Y A B A1 B1 : fmt X -> fmt Y -> fmt A -> fmt B -> fmt A1 -> fmt B1 -> Rabs A1 <= Mx -> Rabs B1 <= Mx -> Rabs A <= Mx -> Rabs B <= Mx -> spread A B -> spread A1 B1 -> A < B -> A1 <= B1 -> A <= X <= Y -> Y <= B ->
  lin X A B A1 B1 <= lin Y A B A1 B1 \/ Y - X <= wide.
Proof.
  intros FX FY FA FB F1 F2 M1 M2 M3 M4 [E|G] S L L1 X0 Y0; [lra|]. apply Rabs_le_inv in M1, M2, M3, M4. assert (T : forall Z, A <= Z <= B -> 0 <= (Z - A) / (B - A) <= 1). { intros Z HZ. split; [apply Rmult_le_pos; [lra|left; apply Rinv_0_lt_compat; lra]|]. apply Rmult_le_reg_r with (B - A); [lra|]. unfold Rdiv. rewrite Rmult_assoc, Rinv_l by lra. lra. }
  pose proof (T X ltac:(lra)) as TX. pose proof (T Y ltac:(lra)) as TY. pose proof G as G1. rewrite Rabs_pos_eq in G1 by lra. pose proof (bpow_gt_0 radix2 (-400)) as GP.
  assert (PE : 0 < rnd (B - A)). { pose proof (minus_rel B A FB FA) as R. rewrite (Rabs_pos_eq (B - A)) in R by lra. apply Rabs_le_inv in R. lra. }
  assert (ME : rnd (A - B) = - rnd (B - A)) by (rewrite <- rnd_opp; f_equal; ring). assert (MD : rnd (A1 - B1) = - rnd (B1 - A1)) by (rewrite <- rnd_opp; f_equal; ring).
  pose proof (rnd_pos (B1 - A1) ltac:(lra)) as PD. unfold lin. destruct Rle_dec as [LX|LX]; destruct Rle_dec as [LY|LY].
  - left. apply rnd_le, Rplus_le_compat_l. unfold inc. apply rnd_le. apply Rmult_le_compat_r; [left; apply Rinv_0_lt_compat, PE|]. apply rnd_le, Rmult_le_compat_l; [exact PD|]. apply rnd_le. lra.
  - destruct (Rle_lt_dec (Y - X) wide) as [W|W]; [right; exact W|left]. destruct S as [S|S]; [rewrite !inc_flat by auto; rewrite S; lra|]. rewrite Rabs_pos_eq in S by lra.
    apply rnd_le. pose proof (inc_err X A B A1 B1 FX FA FB F1 F2 G TX) as EX. assert (EQ : (Y - B) / (A - B) = 1 - (Y - A) / (B - A)) by (field; split; lra). pose proof (inc_err Y B A B1 A1 FY FB FA F2 F1 ltac:(rewrite Rabs_minus_sym; exact G) ltac:(rewrite EQ; lra)) as EY. rewrite EQ in EY. rewrite (Rabs_pos_eq (B1 - A1)) in EX by lra. rewrite (Rabs_left1 (A1 - B1)) in EY by lra.
    pose proof (first_half X A B FX FA FB G TX LX) as HX. pose proof (second_half Y A B FY FA FB G TY ltac:(lra)) as HY.
    assert (DT : 15 * u <= (Y - A) / (B - A) - (X - A) / (B - A)). { replace ((Y - A) / (B - A) - (X - A) / (B - A)) with ((Y - X) / (B - A)) by (field; lra). apply Rmult_le_reg_r with (B - A); [lra|]. replace ((Y - X) / (B - A) * (B - A)) with (Y - X) by (field; lra). lra. }
    set (t := (X - A) / (B - A)) in *. set (s := (Y - A) / (B - A)) in *. set (D := B1 - A1) in *. replace (A1 - B1) with (- D) in EY by (unfold D; ring). apply Rabs_le_inv in EX, EY. pose proof speck_small as K.
    assert (P1 : D * (15 * u) <= D * (s - t)) by (apply Rmult_le_compat_l; unfold D; lra). assert (P2 : D * t <= D * (/ 2 + u)) by (apply Rmult_le_compat_l; unfold D; lra). assert (P3 : D * (1 - s) <= D * (/ 2 + u)) by (apply Rmult_le_compat_l; unfold D; lra).
    set (IX := inc X A B A1 B1) in *. set (IY := inc Y B A B1 A1) in *. assert (DB : B1 = A1 + D) by (unfold D; ring). clearbody IX IY D t s. lra.
  - exfalso. apply LX. assert (rnd (Rabs (A - X)) <= rnd (Rabs (A - Y))) by (apply rnd_le; rewrite !Rabs_left1 by lra; lra). assert (rnd (Rabs (B - Y)) <= rnd (Rabs (B - X))) by (apply rnd_le; rewrite !Rabs_pos_eq by lra; lra). lra.
  - left. apply rnd_le, Rplus_le_compat_l. unfold inc. apply rnd_le. rewrite ME, MD. set (e := rnd (B - A)) in *. set (d := rnd (B1 - A1)) in *. replace (rnd (- d * rnd (X - B)) / - e) with (- rnd (- d * rnd (X - B)) / e) by (field; lra). replace (rnd (- d * rnd (Y - B)) / - e) with (- rnd (- d * rnd (Y - B)) / e) by (field; lra). apply Rmult_le_compat_r; [left; apply Rinv_0_lt_compat, PE|]. apply Ropp_le_contravar, rnd_le. assert (d * rnd (X - B) <= d * rnd (Y - B)) by (apply Rmult_le_compat_l; [exact PD|apply rnd_le; lra]). lra.
Qed.
Lemma lin_mono X Y A B A1 B1 : fmt X -> fmt Y -> fmt A -> fmt B -> fmt A1 -> fmt B1 -> Rabs A1 <= Mx -> Rabs B1 <= Mx -> Rabs A <= Mx -> Rabs B <= Mx -> spread A B -> spread A1 B1 -> A <> B -> 0 <= (B - A) * (B1 - A1) -> Rmin A B <= X <= Y -> Y <= Rmax A B ->
  lin X A B A1 B1 <= lin Y A B A1 B1 \/ Y - X <= wide.
Proof.
  intros FX FY FA FB F1 F2 M1 M2 M3 M4 G S N P X0 Y0. destruct (Rle_lt_dec A B) as [L|L].
  - rewrite Rmin_left in X0 by exact L. rewrite Rmax_right in Y0 by exact L. apply mono_up; auto; try lra. destruct (Rle_lt_dec A1 B1) as [K|K]; [exact K|]. assert (0 < (B - A) * (A1 - B1)) by (apply Rmult_lt_0_compat; lra). lra.
  - rewrite Rmin_right in X0 by lra. rewrite Rmax_left in Y0 by lra. assert (B1 <= A1). { destruct (Rle_lt_dec B1 A1) as [K|K]; [exact K|]. assert (0 < (A - B) * (B1 - A1)) by (apply Rmult_lt_0_compat; lra). lra. }
    destruct (mono_up (- Y) (- X) (- A) (- B) (- A1) (- B1)) as [K|K]; try (apply fmt_opp; assumption); try (apply spread_opp; assumption); rewrite ?Rabs_Ropp; try assumption; try lra. left. rewrite !lin_neg, !lin_opp in K. lra.
Qed.

Lemma result_bpow z r k : result z r -> (-1000 <= k <= 1023)%Z -> Rabs r <= bpow radix2 k -> finite z /\ B2R z = rnd r /\ Rabs (rnd r) <= bpow radix2 k.
Proof.
  intros R K L. assert (M : Rabs (rnd r) <= bpow radix2 k). { rewrite rnd_abs_eq. rewrite <- (rnd_fmt (bpow radix2 k)); [apply rnd_le, L|]. apply generic_format_bpow. unfold FLT_exp. lia. }
  destruct R as [H|(s & _ & H & _)]; [tauto|]. exfalso. pose proof (bpow_lt radix2 k 1024 ltac:(lia)). lra.
Qed.
Lemma step_val (x a b a1 b1 : f64) : finite x -> finite a -> finite b -> finite a1 -> finite b1 -> Rabs (B2R a1) <= Mx -> Rabs (B2R b1) <= Mx -> Rabs (B2R a) <= Mx -> Rabs (B2R b) <= Mx -> Rabs (B2R x) <= Mx -> far_gap <= Rabs (B2R b - B2R a) ->
  let r := fadd a1 (fdiv (fmul (fsub b1 a1) (fsub x a)) (fsub b a)) in finite r /\ B2R r = rnd (B2R a1 + inc (B2R x) (B2R a) (B2R b) (B2R a1) (B2R b1)).
Proof.
  intros Fx Fa Fb F1 F2 M1 M2 M3 M4 M5 G r. assert (SB : forall p q : f64, finite p -> finite q -> Rabs (B2R p) <= Mx -> Rabs (B2R q) <= Mx -> finite (fsub p q) /\ B2R (fsub p q) = rnd (B2R p - B2R q) /\ Rabs (rnd (B2R p - B2R q)) <= bpow radix2 2).
  { intros p q Fp Fq Mp Mq. apply (result_bpow _ _ 2 (fsub_result p q Fp Fq) ltac:(lia)). change (bpow radix2 2) with 4. apply Rabs_le_inv in Mp, Mq. apply Rabs_le. lra. }
  destruct (SB b1 a1 F2 F1 M2 M1) as (FD & VD & BD). destruct (SB x a Fx Fa M5 M3) as (FG & VG & BG). destruct (SB b a Fb Fa M4 M3) as (FE & VE & BE). rewrite <- VD in BD. rewrite <- VG in BG.
  assert (GE : far_gap <= Rabs (B2R (fsub b a))). { rewrite VE, rnd_abs_eq. rewrite <- (rnd_fmt far_gap); [apply rnd_le, G|]. apply generic_format_bpow. unfold FLT_exp. lia. }
  pose proof (bpow_gt_0 radix2 (-400)) as GP. assert (NE : B2R (fsub b a) <> 0) by (intros Z; rewrite Z, Rabs_R0 in GE; lra).
  destruct (result_bpow _ _ 4 (fmul_result _ _ FD FG) ltac:(lia)) as (FP & VP & BP); [rewrite Rabs_mult; replace (bpow radix2 4) with (bpow radix2 2 * bpow radix2 2) by (rewrite <- bpow_plus; reflexivity); apply Rmult_le_compat; auto using Rabs_pos|]. rewrite <- VP in BP.
  destruct (result_bpow _ _ 404 (fdiv_result _ _ FP FE NE) ltac:(lia)) as (FI & VI & BI). { unfold Rdiv. rewrite Rabs_mult, Rabs_inv. replace (bpow radix2 404) with (bpow radix2 4 * bpow radix2 400) by (rewrite <- bpow_plus; reflexivity). apply Rmult_le_compat; auto using Rabs_pos. - left. apply Rinv_0_lt_compat. lra. - replace (bpow radix2 400) with (/ far_gap) by (rewrite <- bpow_opp; reflexivity). apply Rinv_le_contravar; lra. }
  rewrite <- VI in BI. destruct (result_bpow _ _ 405 (fadd_result _ _ F1 FI) ltac:(lia)) as (FR & VR & _). { eapply Rle_trans; [apply Rabs_triang|]. replace (bpow radix2 405) with (bpow radix2 404 * 2) by (change 2 with (bpow radix2 1); rewrite <- bpow_plus; reflexivity). pose proof (bpow_le radix2 2 404 ltac:(lia)) as K. change (bpow radix2 2) with 4 in K. lra. }
  split; [exact FR|]. fold r in VR. rewrite VR. f_equal. f_equal. rewrite VI, VP, VD, VG, VE. reflexivity.
Qed.
Lemma hull_t A B X : A <> B -> Rmin A B <= X <= Rmax A B -> 0 <= (X - A) / (B - A) <= 1.
Proof.
  intros N. unfold Rmin, Rmax. destruct Rle_dec as [L|L]; intros H; (split; [|assert (E : 1 - (X - A) / (B - A) = (B - X) / (B - A)) by (field; lra); enough (0 <= (B - X) / (B - A)) by lra]).
  1, 2: apply Rmult_le_pos; [lra|left; apply Rinv_0_lt_compat; lra].
  - replace ((X - A) / (B - A)) with ((A - X) / (A - B)) by (field; lra). apply Rmult_le_pos; [lra|left; apply Rinv_0_lt_compat; lra].
  - replace ((B - X) / (B - A)) with ((X - B) / (A - B)) by (field; lra). apply Rmult_le_pos; [lra|left; apply Rinv_0_lt_compat; lra].
Qed.
Lemma interp_val (x a b a1 b1 : f64) : finite x -> finite a -> finite b -> finite a1 -> finite b1 -> Rabs (B2R a1) <= Mx -> Rabs (B2R b1) <= Mx -> Rabs (B2R a) <= Mx -> Rabs (B2R b) <= Mx -> Rabs (B2R x) <= Mx -> spread (B2R a) (B2R b) ->
  finite (interpolate_1d x a b a1 b1) /\ B2R (interpolate_1d x a b a1 b1) = if Req_EM_T (B2R a) (B2R b) then B2R a1 else lin (B2R x) (B2R a) (B2R b) (B2R a1) (B2R b1).
Proof.
  intros Fx Fa Fb F1 F2 M1 M2 M3 M4 M5 G. unfold interpolate_1d. destruct (feq_R a b Fa Fb) as [E|E]; destruct Req_EM_T as [E'|E']; try tauto. destruct G as [G|G]; [tauto|].
  assert (SB : forall p : f64, finite p -> Rabs (B2R p) <= Mx -> finite (fabs (fsub p x)) /\ B2R (fabs (fsub p x)) = rnd (Rabs (B2R p - B2R x))).
  { intros p Fp Mp. destruct (result_bpow _ _ 2 (fsub_result p x Fp Fx) ltac:(lia)) as (FS & VS & _); [change (bpow radix2 2) with 4; apply Rabs_le_inv in Mp, M5; apply Rabs_le; lra|]. destruct (fabs_val _ FS) as [FA VA]. split; [exact FA|]. rewrite VA, VS. apply rnd_abs_eq. }
  destruct (SB a Fa M3) as [FA VA]. destruct (SB b Fb M4) as [FB VB]. unfold lin. destruct (fle_R _ _ FA FB) as [L|L]; rewrite VA, VB in L; destruct Rle_dec as [L'|L']; try tauto; apply step_val; auto. rewrite Rabs_minus_sym. exact G.
Qed.
Lemma lin_a A B A1 B1 : fmt A1 -> lin A A B A1 B1 = A1.
Proof. intros F. assert (I : inc A A B A1 B1 = 0) by (unfold inc; rewrite (Rminus_diag_eq A A eq_refl), rnd_0, Rmult_0_r, rnd_0; unfold Rdiv; rewrite Rmult_0_l; apply rnd_0). unfold lin. rewrite (Rminus_diag_eq A A eq_refl), Rabs_R0, rnd_0. destruct Rle_dec as [L|L]; [rewrite I, Rplus_0_r; apply rnd_fmt, F|]. elim L. apply rnd_pos, Rabs_pos. Qed.
Lemma lin_b A B A1 B1 : far_gap <= Rabs (B - A) -> fmt B1 -> lin B A B A1 B1 = B1.
Proof.
  intros G F. assert (I : inc B B A B1 A1 = 0) by (unfold inc; rewrite (Rminus_diag_eq B B eq_refl), rnd_0, Rmult_0_r, rnd_0; unfold Rdiv; rewrite Rmult_0_l; apply rnd_0). unfold lin. rewrite (Rminus_diag_eq B B eq_refl), Rabs_R0, rnd_0. destruct Rle_dec as [L|L]; [|rewrite I, Rplus_0_r; apply rnd_fmt, F]. exfalso.
  assert (far_gap <= rnd (Rabs (A - B))). { rewrite Rabs_minus_sym. rewrite <- (rnd_fmt far_gap) at 1; [apply rnd_le, G|]. apply generic_format_bpow. unfold FLT_exp. lia. } pose proof (bpow_gt_0 radix2 (-400)). lra.
Qed.
