(** Exact comparisons of sums in floating point, and the error of linear interpolation. *)
From Coq Require Import ZArith Reals Lra Lia Psatz Bool.
From Flocq Require Import Core Plus_error Mult_error Sterbenz Relative.
From Verif Require Import Base F64 F64Facts F64Arith F64Error IntervalSpec R1Model R1Proofs S1Proofs VectorModel StuvError PredicatesError PredicatesFloat ClipModel.
Open Scope R_scope.

Definition fmt (x : R) : Prop := generic_format radix2 (FLT_exp (-1074) 53) x.
Lemma fmt_B2R (x : f64) : fmt (B2R x). Proof. apply (generic_format_B2R 53 1024). Qed.
Lemma rnd_fmt x : fmt x -> rnd x = x. Proof. intros F. apply round_generic; [apply valid_rnd_N|exact F]. Qed.
Lemma fmt_abs x : fmt x -> fmt (Rabs x). Proof. apply generic_format_abs. Qed.
Lemma fmt_opp x : fmt x -> fmt (- x). Proof. apply generic_format_opp. Qed.
Lemma rnd_opp x : rnd (- x) = - rnd x. Proof. apply round_NE_opp. Qed.
Lemma rnd_abs_eq x : Rabs (rnd x) = rnd (Rabs x).
Proof. unfold Rabs at 2. destruct Rcase_abs as [L|L]; [rewrite rnd_opp|]; [apply Rabs_left1|apply Rabs_pos_eq]; rewrite <- rnd_0; apply rnd_le; lra. Qed.

Lemma half_fmt r : fmt r -> bpow radix2 (-1021) < r -> fmt (r / 2).
Proof.
  intros F L. replace (r / 2) with (r * bpow radix2 (-1)) by (change (bpow radix2 (-1)) with (/ 2); lra). apply mult_bpow_exact_FLT; [exact F|]. assert (-1020 <= mag radix2 r)%Z; [|lia].
  apply mag_ge_bpow. change (-1020 - 1)%Z with (-1021)%Z. rewrite Rabs_pos_eq; pose proof (bpow_gt_0 radix2 (-1021)); lra.
Qed.
Lemma low_halves p q r : fmt p -> fmt r -> 0 <= p < r / 2 -> 0 <= q < r / 2 -> q < rnd (r - p).
Proof.
  intros Fp Fr P Q. destruct (Rle_lt_dec (Rabs (r - p)) (bpow radix2 (-1021))) as [S|S].
  - rewrite rnd_fmt; [lra|]. unfold Rminus. apply FLT_format_plus_small; [reflexivity|exact Fr|apply fmt_opp; exact Fp|exact S].
  - rewrite Rabs_pos_eq in S by lra. assert (H : fmt (r / 2)) by (apply half_fmt; [exact Fr|lra]). pose proof (rnd_le (r / 2) (r - p) ltac:(lra)) as K. rewrite (rnd_fmt _ H) in K. lra.
Qed.
Lemma high_half p r : fmt p -> fmt r -> r / 2 <= p <= r -> rnd (r - p) = r - p.
Proof. intros Fp Fr P. apply rnd_fmt. apply sterbenz; [apply FLT_exp_valid; reflexivity|apply FLT_exp_monotone|exact Fr|exact Fp|lra]. Qed.
(* p + q >= r, decided exactly *)
Lemma sum_ge p q r : fmt p -> fmt q -> fmt r -> 0 <= p -> 0 <= q -> 0 <= r -> (rnd (r - p) <= q /\ rnd (r - q) <= p) <-> r <= p + q.
Proof.
  intros Fp Fq Fr P Q R0. split.
  - intros [A B]. apply Rnot_lt_le. intros L. destruct (Rle_lt_dec (r / 2) p) as [C|C]; [rewrite high_half in A; auto; lra|]. destruct (Rle_lt_dec (r / 2) q) as [D|D]; [rewrite high_half in B; auto; lra|]. pose proof (low_halves p q r Fp Fr ltac:(lra) ltac:(lra)). lra.
  - intros L. split; [rewrite <- (rnd_fmt q Fq)|rewrite <- (rnd_fmt p Fp)]; apply rnd_le; lra.
Qed.
(* p + q = r, decided exactly *)
Lemma sum_eq p q r : fmt p -> fmt q -> fmt r -> 0 <= p -> 0 <= q -> 0 <= r -> rnd (r - p) = q -> rnd (r - q) = p -> r = p + q.
Proof.
  intros Fp Fq Fr P Q R0 A B. assert (L : r <= p + q) by (apply sum_ge; auto; lra).
  assert (PR : p <= r). { pose proof (rnd_le (r - q) r ltac:(lra)) as K. rewrite (rnd_fmt r Fr) in K. lra. } assert (QR : q <= r). { pose proof (rnd_le (r - p) r ltac:(lra)) as K. rewrite (rnd_fmt r Fr) in K. lra. }
  destruct (Rle_lt_dec (r / 2) p) as [C|C]; [rewrite high_half in A; auto; lra|]. destruct (Rle_lt_dec (r / 2) q) as [D|D]; [rewrite high_half in B; auto; lra|]. lra.
Qed.

Lemma plus_rel x y : fmt x -> fmt y -> Rabs (rnd (x + y) - (x + y)) <= u * Rabs (x + y).
Proof.
  intros Fx Fy. destruct (FLT_plus_error_N_ex radix2 (-1074) 53 (fun x => negb (Z.even x)) x y Fx Fy) as (e & E & R). unfold rnd. change ZnearestE with (Znearest (fun x => negb (Z.even x))). rewrite R. replace ((x + y) * (1 + e) - (x + y)) with (e * (x + y)) by ring. rewrite Rabs_mult. apply Rmult_le_compat_r; [apply Rabs_pos|].
  eapply Rle_trans; [exact E|]. unfold Relative.u_ro. change (bpow radix2 (- (53) + 1)) with (/ 4503599627370496). apply Rle_trans with (/ 2 * / 4503599627370496); [|lra]. apply Rmult_le_reg_r with (1 + / 2 * / 4503599627370496); [lra|]. unfold Rdiv. rewrite Rmult_assoc, Rinv_l by lra. lra.
Qed.
Lemma minus_rel x y : fmt x -> fmt y -> Rabs (rnd (x - y) - (x - y)) <= u * Rabs (x - y).
Proof. intros Fx Fy. apply (plus_rel x (- y) Fx (fmt_opp _ Fy)). Qed.
(* results that are no larger than some double do not overflow *)
Lemma result_le z r (b : f64) : result z r -> Rabs r <= Rabs (B2R b) -> finite z /\ B2R z = rnd r.
Proof.
  intros [H|(s & _ & H & _)] L; [tauto|]. exfalso. pose proof (B2R_max b) as M. pose proof (rnd_le _ _ L) as K. rewrite <- rnd_abs_eq in K. rewrite (rnd_fmt (Rabs (B2R b))) in K by (apply fmt_abs, fmt_B2R). lra.
Qed.
Lemma h_small : h <= / 1267650600228229401496703205376.
Proof. change (/ 1267650600228229401496703205376) with (bpow radix2 (-100)). apply bpow_le. lia. Qed.
