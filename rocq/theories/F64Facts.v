(** Facts about f64: the order is the order of [rank]. *)
From Coq Require Import Reals Lra Psatz.
From Verif Require Import F64.
Open Scope Z_scope.

Lemma nan_false_cases (x : f64) : is_nan x = false ->
  (exists s, x = B754_infinity s) \/ is_finite x = true.
Proof. destruct x; cbn; intros; try discriminate; eauto. Qed.

Lemma finite_emin m e (H : SpecFloat.bounded 53 1024 m e = true) : -1074 <= e.
Proof.
  unfold SpecFloat.bounded in H. apply andb_prop in H. destruct H as [H _].
  unfold SpecFloat.canonical_mantissa in H. apply Zeq_bool_eq in H.
  unfold SpecFloat.fexp, SpecFloat.emin in H. lia.
Qed.

Lemma rank_R (x : f64) : is_finite x = true -> B2R x = (IZR (rank x) * bpow radix2 (-1074))%R.
Proof.
  destruct x as [s|s| |s m e H]; cbn [is_finite]; try discriminate; intros _.
  - cbn [B2R rank]. lra.
  - cbn [B2R rank]. unfold F2R; cbn [Fnum Fexp]. rewrite mult_IZR.
    pose proof (finite_emin m e H).
    rewrite Rmult_assoc. f_equal.
    change (2 ^ (e + 1074))%Z with (Zpower radix2 (e + 1074)).
    rewrite IZR_Zpower by lia. rewrite <- bpow_plus. f_equal. lia.
Qed.

Lemma bpow_m1074_pos : (0 < bpow radix2 (-1074))%R.
Proof. apply bpow_gt_0. Qed.

Lemma rank_bound (x : f64) : is_finite x = true -> - far < rank x < far.
Proof.
  intros F. pose proof (abs_B2R_lt_emax 53 1024 x) as B. rewrite rank_R in B by auto.
  pose proof bpow_m1074_pos as P.
  rewrite Rabs_mult, (Rabs_pos_eq (bpow _ _)) in B by lra.
  assert (L : (IZR (Z.abs (rank x)) * bpow radix2 (-1074) < IZR far * bpow radix2 (-1074))%R).
  { rewrite abs_IZR. eapply Rlt_trans; [exact B|]. unfold far.
    change (2 ^ 2100)%Z with (Zpower radix2 2100). rewrite IZR_Zpower by lia. rewrite <- bpow_plus.
    apply bpow_lt. lia. }
  apply Rmult_lt_reg_r in L; [|auto]. apply lt_IZR in L. lia.
Qed.

Lemma far_pos : 0 < far.
Proof. reflexivity. Qed.

Lemma Bcompare_rank (x y : f64) : is_nan x = false -> is_nan y = false ->
  Bcompare x y = Some (rank x ?= rank y).
Proof.
  intros Nx Ny. destruct (nan_false_cases x Nx) as [(sx & ->)|Fx];
    destruct (nan_false_cases y Ny) as [(sy & ->)|Fy].
  - destruct sx, sy; cbn [rank]; (rewrite Z.compare_refl || unfold far); reflexivity.
  - pose proof (rank_bound y Fy) as B.
    replace (Bcompare (B754_infinity sx) y) with (Some (if sx then Lt else Gt))
      by (destruct y; try discriminate; destruct sx; reflexivity).
    f_equal. symmetry. cbn [rank].
    destruct sx; [apply Z.compare_lt_iff|apply Z.compare_gt_iff]; lia.
  - pose proof (rank_bound x Fx) as B.
    replace (Bcompare x (B754_infinity sy)) with (Some (if sy then Gt else Lt))
      by (destruct x; try discriminate; destruct sy; reflexivity).
    f_equal. symmetry. cbn [rank].
    destruct sy; [apply Z.compare_gt_iff|apply Z.compare_lt_iff]; lia.
  - rewrite Bcompare_correct by auto. f_equal. rewrite !rank_R by auto.
    pose proof bpow_m1074_pos as P.
    destruct (Z.compare_spec (rank x) (rank y)) as [E|L|L].
    + rewrite E. apply Rcompare_Eq. reflexivity.
    + apply Rcompare_Lt. apply Rmult_lt_compat_r; [auto|apply IZR_lt; auto].
    + apply Rcompare_Gt. apply Rmult_lt_compat_r; [auto|apply IZR_lt; auto].
Qed.

Lemma Bcompare_nan (x y : f64) : is_nan x = true \/ is_nan y = true -> Bcompare x y = None.
Proof. destruct x, y; cbn; intros []; try discriminate; reflexivity. Qed.

(* a number that is not NaN *)
Definition num (x : f64) : Prop := is_nan x = false.

Lemma flt_rank x y : num x -> num y -> flt x y = (rank x <? rank y).
Proof.
  intros Hx Hy. unfold flt, Bltb, SpecFloat.SFltb. change (SpecFloat.SFcompare (B2SF x) (B2SF y)) with (Bcompare x y).
  rewrite Bcompare_rank by auto. unfold Z.ltb. destruct (rank x ?= rank y); reflexivity.
Qed.
Lemma fle_rank x y : num x -> num y -> fle x y = (rank x <=? rank y).
Proof.
  intros Hx Hy. unfold fle, Bleb, SpecFloat.SFleb. change (SpecFloat.SFcompare (B2SF x) (B2SF y)) with (Bcompare x y).
  rewrite Bcompare_rank by auto. unfold Z.leb. destruct (rank x ?= rank y); reflexivity.
Qed.
Lemma feq_rank x y : num x -> num y -> feq x y = (rank x =? rank y).
Proof.
  intros Hx Hy. unfold feq, Beqb, SpecFloat.SFeqb. change (SpecFloat.SFcompare (B2SF x) (B2SF y)) with (Bcompare x y).
  rewrite Bcompare_rank by auto. rewrite Z.eqb_compare. destruct (rank x ?= rank y); reflexivity.
Qed.
Lemma fgt_rank x y : num x -> num y -> fgt x y = (rank y <? rank x).
Proof. intros. apply flt_rank; auto. Qed.
Lemma fge_rank x y : num x -> num y -> fge x y = (rank y <=? rank x).
Proof. intros. apply fle_rank; auto. Qed.
Lemma fne_rank x y : num x -> num y -> fne x y = negb (rank x =? rank y).
Proof. intros. unfold fne. rewrite feq_rank; auto. Qed.

Lemma flt_nan x y : is_nan x = true \/ is_nan y = true -> flt x y = false.
Proof.
  intros H. unfold flt, Bltb, SpecFloat.SFltb. change (SpecFloat.SFcompare (B2SF x) (B2SF y)) with (Bcompare x y).
  rewrite Bcompare_nan by auto. reflexivity.
Qed.
Lemma fle_nan x y : is_nan x = true \/ is_nan y = true -> fle x y = false.
Proof.
  intros H. unfold fle, Bleb, SpecFloat.SFleb. change (SpecFloat.SFcompare (B2SF x) (B2SF y)) with (Bcompare x y).
  rewrite Bcompare_nan by auto. reflexivity.
Qed.
Lemma feq_nan x y : is_nan x = true \/ is_nan y = true -> feq x y = false.
Proof.
  intros H. unfold feq, Beqb, SpecFloat.SFeqb. change (SpecFloat.SFcompare (B2SF x) (B2SF y)) with (Bcompare x y).
  rewrite Bcompare_nan by auto. reflexivity.
Qed.

Lemma fmax_num x y : num x -> num y -> num (fmax x y) /\ rank (fmax x y) = Z.max (rank x) (rank y).
Proof.
  intros Hx Hy. unfold fmax. unfold num in Hx, Hy. rewrite Hx, Hy, fle_rank by auto.
  destruct (Z.leb_spec (rank x) (rank y)); split; auto; lia.
Qed.
Lemma fmin_num x y : num x -> num y -> num (fmin x y) /\ rank (fmin x y) = Z.min (rank x) (rank y).
Proof.
  intros Hx Hy. unfold fmin. unfold num in Hx, Hy. rewrite Hx, Hy, fle_rank by auto.
  destruct (Z.leb_spec (rank y) (rank x)); split; auto; lia.
Qed.

Lemma fneg_num x : num x -> num (fneg x) /\ rank (fneg x) = - rank x.
Proof.
  intros H. split; [unfold num, fneg; rewrite is_nan_Bopp; auto|].
  destruct x as [s|s| |s m e B]; cbn [fneg Bopp rank]; try discriminate; try reflexivity.
  - destruct s; cbn [negb]; lia.
  - destruct s; cbn [negb cond_Zopp]; lia.
Qed.
Lemma fabs_num x : num x -> num (fabs x) /\ rank (fabs x) = Z.abs (rank x).
Proof.
  intros H. split; [unfold num, fabs; rewrite is_nan_Babs; auto|].
  destruct x as [s|s| |s m e B]; cbn [fabs Babs rank]; try discriminate; try reflexivity.
  - destruct s; pose proof far_pos; lia.
  - destruct s; cbn [cond_Zopp]; rewrite Z.abs_mul, (Z.abs_eq (2 ^ _)) by (apply Z.pow_nonneg; lia); reflexivity.
Qed.
