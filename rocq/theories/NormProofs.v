(** Vector::normalize: the error of the components and of the length. *)
From Coq Require Import Reals Lra Lia Psatz Bool.
From Flocq Require Import Core.
From Verif Require Import F64 F64Facts IntervalSpec F64Arith F64Error S1Proofs VectorModel PredicatesModel F64Neg PredicatesProofs
  PredicatesError PredicatesFloat PredicatesSound.
Open Scope R_scope.

Lemma rel_sqrt N s : 0 < s -> Rabs (N - s) <= 5 * u * s -> 0 < N /\ Rabs (sqrt N - sqrt s) <= 3 * u * sqrt s.
Proof.
  intros P H. apply Rabs_le_inv in H. assert (PN : 0 < N) by lra. split; [exact PN|].
  pose proof (sqrt_lt_R0 s P) as Q. pose proof (sqrt_sqrt s ltac:(lra)) as SS. set (n := sqrt s) in *. apply Rabs_le. split.
  - assert ((1 - 3 * u) * n <= sqrt N); [|lra]. rewrite <- (sqrt_square ((1 - 3 * u) * n)) by (apply Rmult_le_pos; lra). apply sqrt_le_1_alt.
    replace ((1 - 3 * u) * n * ((1 - 3 * u) * n)) with ((1 - 3 * u) * (1 - 3 * u) * s) by (rewrite <- SS; ring). lra.
  - assert (sqrt N <= (1 + 3 * u) * n); [|lra]. rewrite <- (sqrt_square ((1 + 3 * u) * n)) by (apply Rmult_le_pos; lra). apply sqrt_le_1_alt.
    replace ((1 + 3 * u) * n * ((1 + 3 * u) * n)) with ((1 + 3 * u) * (1 + 3 * u) * s) by (rewrite <- SS; ring). lra.
Qed.
Lemma rel_inv m n : 0 < n -> Rabs (m - n) <= 5 * u * n -> 0 < m /\ Rabs (1 / m - / n) <= 51 / 10 * u * / n.
Proof.
  intros P H. apply Rabs_le_inv in H. assert (PM : 0 < m) by lra. split; [exact PM|].
  assert (Q : 0 < / n) by (apply Rinv_0_lt_compat; auto). assert (QM : 0 < / m) by (apply Rinv_0_lt_compat; auto).
  assert (E : 1 / m - / n = (n - m) * / m * / n) by (field; lra). rewrite E, Rabs_mult, (Rabs_pos_eq (/ n)) by lra. apply Rmult_le_compat_r; [lra|].
  rewrite Rabs_mult, (Rabs_pos_eq (/ m)) by lra. apply Rmult_le_reg_r with m; [exact PM|]. rewrite Rmult_assoc, Rinv_l, Rmult_1_r by lra.
  apply Rabs_le. lra.
Qed.

(* vectors whose squared length neither overflows nor underflows *)
Definition moderate (v : vec) : Prop := fvec v /\ pow2 (-900) <= sqn v <= pow2 900.

Lemma moderate_norm v : moderate v -> exists n : R, 0 < n /\ n * n = sqn v /\ pow2 (-450) <= n <= pow2 450 /\
  finite (norm v) /\ Rabs (B2R (norm v) - n) <= 5 * u * n.
Proof.
  intros ((F1 & F2 & F3) & LO & HI). assert (P : 0 < sqn v) by (pose proof (bpow_gt_0 radix2 (-900)); lra).
  exists (sqrt (sqn v)). pose proof (sqrt_sqrt (sqn v) ltac:(lra)) as SS. pose proof (sqrt_lt_R0 _ P) as Q. split; [exact Q|]. split; [exact SS|].
  assert (B : pow2 (-450) <= sqrt (sqn v) <= pow2 450).
  { split.
    - rewrite <- (sqrt_square (pow2 (-450))) by apply bpow_ge_0. apply sqrt_le_1_alt. rewrite <- bpow_plus. exact LO.
    - rewrite <- (sqrt_square (pow2 450)) by apply bpow_ge_0. apply sqrt_le_1_alt. rewrite <- bpow_plus. exact HI. }
  split; [exact B|].
  assert (C : Rabs (X v) <= pow2 450 /\ Rabs (Y v) <= pow2 450 /\ Rabs (Z v) <= pow2 450).
  { apply sqn_comp; [|apply bpow_ge_0]. rewrite <- bpow_plus. exact HI. }
  destruct C as (C1 & C2 & C3).
  assert (FN : finite (norm2 v)).
  { unfold norm2, dot. destruct (mul_val _ _ _ _ F1 F1 C1 C1 ltac:(lia)) as (G1 & _ & D1). destruct (mul_val _ _ _ _ F2 F2 C2 C2 ltac:(lia)) as (G2 & _ & D2).
    destruct (mul_val _ _ _ _ F3 F3 C3 C3 ltac:(lia)) as (G3 & _ & D3). destruct (add_val _ _ _ G1 G2 D1 D2 ltac:(lia)) as (G4 & _ & D4).
    assert (D3' : Rabs (B2R (fmul (vz v) (vz v))) <= pow2 (450 + 450 + 1)) by (eapply Rle_trans; [exact D3|apply bpow_le; lia]).
    apply (add_val _ _ _ G4 G3 D4 D3' ltac:(lia)). }
  pose proof (norm2_near v FN) as NN.
  assert (HS : 8 * h <= u * sqn v).
  { apply Rle_trans with (u * pow2 (-900)); [|apply Rmult_le_compat_l; lra]. unfold h. change 8 with (pow2 3). change u with (pow2 (-53)). rewrite <- !bpow_plus. apply bpow_le. lia. }
  destruct (rel_sqrt (B2R (norm2 v)) (sqn v) P ltac:(lra)) as [PN RS]. unfold norm.
  destruct (fsqrt_val (norm2 v) FN ltac:(lra)) as [FS VS]. split; [exact FS|].
  pose proof (rnd_rel (sqrt (B2R (norm2 v)))) as RR. rewrite <- VS in RR. rewrite (Rabs_pos_eq (sqrt (B2R (norm2 v)))) in RR by apply sqrt_pos.
  assert (HH : h <= u * / 1000 * sqrt (sqn v)).
  { apply Rle_trans with (u * / 1000 * pow2 (-450)); [|apply Rmult_le_compat_l; lra]. apply Rle_trans with (u * pow2 (-460)).
    - unfold h. change u with (pow2 (-53)). rewrite <- bpow_plus. apply bpow_le. lia.
    - rewrite Rmult_assoc. apply Rmult_le_compat_l; [lra|]. change (-460)%Z with (-10 + -450)%Z. rewrite bpow_plus. change (pow2 (-10)) with (/ 1024).
      apply Rmult_le_compat_r; [apply bpow_ge_0|lra]. }
  apply Rabs_le_inv in RS. apply Rabs_le_inv in RR. set (n := sqrt (sqn v)) in *. set (q := sqrt (B2R (norm2 v))) in *. apply Rabs_le. lra.
Qed.

Lemma moderate_scale v : moderate v -> exists n : R, 0 < n /\ n * n = sqn v /\
  VectorModel.normalize v = vscale v (fdiv f1 (norm v)) /\
  (forall x : f64, finite x -> Rabs (B2R x) <= n -> finite (fmul x (fdiv f1 (norm v))) /\
     Rabs (B2R (fmul x (fdiv f1 (norm v))) - B2R x / n) <= 8 * u * (Rabs (B2R x) / n) + h).
Proof.
  intros M. destruct (moderate_norm v M) as (n & P & SS & B & FN & EN). exists n. split; [exact P|]. split; [exact SS|]. split.
  { unfold VectorModel.normalize. destruct M as ((F1 & F2 & F3) & LO & _). pose proof (bpow_gt_0 radix2 (-900)) as PP.
    destruct (feq_R (vx v) f0 F1 eq_refl) as [E1|]; [|reflexivity]. destruct (feq_R (vy v) f0 F2 eq_refl) as [E2|]; [|reflexivity].
    destruct (feq_R (vz v) f0 F3 eq_refl) as [E3|]; [|reflexivity]. exfalso. unfold sqn in LO. rewrite E1, E2, E3 in LO. change (B2R f0) with 0 in LO. lra. }
  destruct (rel_inv _ n P EN) as [PM RI]. assert (IN : 0 < / n) by (apply Rinv_0_lt_compat; auto).
  assert (F1 : finite f1) by reflexivity. assert (V1 : B2R f1 = 1) by (destruct (of_int_val 1 ltac:(lia)) as [_ V]; exact V).
  pose proof (fdiv_result f1 (norm v) F1 FN ltac:(lra)) as RD. rewrite V1 in RD.
  assert (BI : pow2 (-450) <= / n <= pow2 450).
  { split.
    - change (-450)%Z with (Z.opp 450). rewrite bpow_opp. apply Rinv_le; lra.
    - change 450%Z with (Z.opp (-450)). rewrite bpow_opp. apply Rinv_le; [apply bpow_gt_0|lra]. }
  apply Rabs_le_inv in RI.
  assert (B1 : Rabs (1 / B2R (norm v)) <= pow2 451).
  { rewrite Rabs_pos_eq by lra. change 451%Z with (1 + 450)%Z. rewrite bpow_plus. change (pow2 1) with 2. lra. }
  destruct (result_val _ _ 451 ltac:(lia) RD B1) as (FC & VC & BC). pose proof (rnd_rel (1 / B2R (norm v))) as RR. rewrite <- VC in RR. rewrite (Rabs_pos_eq (1 / B2R (norm v))) in RR by lra.
  assert (HH : h <= u * / 1000 * / n).
  { apply Rle_trans with (u * / 1000 * pow2 (-450)); [|apply Rmult_le_compat_l; lra]. apply Rle_trans with (u * pow2 (-460)).
    - unfold h. change u with (pow2 (-53)). rewrite <- bpow_plus. apply bpow_le. lia.
    - rewrite Rmult_assoc. apply Rmult_le_compat_l; [lra|]. change (-460)%Z with (-10 + -450)%Z. rewrite bpow_plus. change (pow2 (-10)) with (/ 1024).
      apply Rmult_le_compat_r; [apply bpow_ge_0|lra]. }
  set (c := fdiv f1 (norm v)) in *.
  assert (EC : Rabs (B2R c - / n) <= 62 / 10 * u * / n) by (apply Rabs_le_inv in RR; apply Rabs_le; lra).
  intros x Fx Bx. assert (BX : Rabs (B2R x) <= pow2 450) by lra.
  destruct (mul_val x c 450 451 Fx FC BX BC ltac:(lia)) as (FM & VM & _). split; [exact FM|].
  pose proof (rnd_rel (B2R x * B2R c)) as RM. rewrite <- VM in RM.
  assert (T1 : Rabs (B2R x * B2R c - B2R x / n) <= 62 / 10 * u * (Rabs (B2R x) / n)).
  { replace (B2R x * B2R c - B2R x / n) with (B2R x * (B2R c - / n)) by (unfold Rdiv; ring). rewrite Rabs_mult.
    apply Rle_trans with (Rabs (B2R x) * (62 / 10 * u * / n)); [apply Rmult_le_compat_l; [apply Rabs_pos|exact EC]|]. unfold Rdiv. lra. }
  assert (Q : 0 <= Rabs (B2R x) / n) by (apply Rmult_le_pos; [apply Rabs_pos|lra]).
  assert (T2 : Rabs (B2R x * B2R c) <= (1 + 62 / 10 * u) * (Rabs (B2R x) / n)).
  { pose proof (Rabs_triang (B2R x * B2R c - B2R x / n) (B2R x / n)) as T. replace (B2R x * B2R c - B2R x / n + B2R x / n) with (B2R x * B2R c) in T by ring.
    assert (Rabs (B2R x / n) = Rabs (B2R x) / n) as E by (unfold Rdiv; rewrite Rabs_mult, (Rabs_pos_eq (/ n)) by lra; reflexivity). rewrite E in T. lra. }
  pose proof (Rabs_triang (B2R (fmul x c) - B2R x * B2R c) (B2R x * B2R c - B2R x / n)) as T.
  replace (B2R (fmul x c) - B2R x * B2R c + (B2R x * B2R c - B2R x / n)) with (B2R (fmul x c) - B2R x / n) in T by ring.
  set (a := Rabs (B2R x) / n) in *. assert (u * Rabs (B2R x * B2R c) <= u * ((1 + 62 / 10 * u) * a)) by (apply Rmult_le_compat_l; lra). lra.
Qed.

Lemma sq_close p y : Rabs p <= 1 -> Rabs (y - p) <= 8 * u * Rabs p + h -> Rabs (y * y - p * p) <= 17 * u * (p * p) + 4 * h.
Proof.
  intros B H. replace (y * y - p * p) with ((y - p) * (2 * p + (y - p))) by ring. rewrite Rabs_mult. pose proof h_pos. pose proof h_tiny.
  assert (S : Rabs (2 * p + (y - p)) <= (2 + 8 * u) * Rabs p + h).
  { eapply Rle_trans; [apply Rabs_triang|]. rewrite Rabs_mult, (Rabs_pos_eq 2) by lra. lra. }
  rewrite <- (sqr_abs p). pose proof (Rabs_pos p). set (a := Rabs p) in *.
  apply Rle_trans with ((8 * u * a + h) * ((2 + 8 * u) * a + h)); [apply Rmult_le_compat; auto; apply Rabs_pos|].
  assert (h * a <= h) by nra. assert (h * h <= h * (u * u)) by (apply Rmult_le_compat_l; lra). assert (0 <= a * a) by nra. nra.
Qed.
Lemma normalize_close v : moderate v -> exists n : R, 0 < n /\ n * n = sqn v /\ fvec (VectorModel.normalize v) /\
  Rabs (X (VectorModel.normalize v) - X v / n) <= 8 * u * Rabs (X v / n) + h /\
  Rabs (Y (VectorModel.normalize v) - Y v / n) <= 8 * u * Rabs (Y v / n) + h /\
  Rabs (Z (VectorModel.normalize v) - Z v / n) <= 8 * u * Rabs (Z v / n) + h /\
  is_unit (VectorModel.normalize v) = true.
Proof.
  intros M. destruct (moderate_scale v M) as (n & P & SS & E & SC). exists n. split; [exact P|]. split; [exact SS|].
  assert (IN : 0 < / n) by (apply Rinv_0_lt_compat; auto).
  assert (AB : forall x, Rabs (x / n) = Rabs x / n) by (intros; unfold Rdiv; rewrite Rabs_mult, (Rabs_pos_eq (/ n)) by lra; reflexivity).
  rewrite !AB. destruct M as ((F1 & F2 & F3) & _). destruct (sqn_comp v n ltac:(lra) ltac:(lra)) as (C1 & C2 & C3).
  destruct (SC _ F1 C1) as [G1 E1]. destruct (SC _ F2 C2) as [G2 E2]. destruct (SC _ F3 C3) as [G3 E3]. rewrite E. unfold vscale at 1 2 3 4. cbn [vx vy vz].
  split; [repeat split; assumption|]. split; [exact E1|]. split; [exact E2|]. split; [exact E3|].
  set (w := vscale v (fdiv f1 (norm v))). change (fmul (vx v) (fdiv f1 (norm v))) with (vx w) in *. change (fmul (vy v) (fdiv f1 (norm v))) with (vy w) in *. change (fmul (vz v) (fdiv f1 (norm v))) with (vz w) in *.
  assert (SUM : X v / n * (X v / n) + Y v / n * (Y v / n) + Z v / n * (Z v / n) = 1).
  { transitivity (sqn v / (n * n)); [unfold sqn; field; lra|]. rewrite SS. field. rewrite <- SS. nra. }
  assert (LE1 : forall x, Rabs x <= n -> Rabs (x / n) <= 1).
  { intros x Hx. rewrite AB. apply Rmult_le_reg_r with n; auto. unfold Rdiv. rewrite Rmult_assoc, Rinv_l, Rmult_1_r, Rmult_1_l by lra. exact Hx. }
  rewrite <- AB in E1, E2, E3.
  pose proof (sq_close _ _ (LE1 _ C1) E1) as Q1. pose proof (sq_close _ _ (LE1 _ C2) E2) as Q2. pose proof (sq_close _ _ (LE1 _ C3) E3) as Q3.
  assert (SW : Rabs (sqn w - 1) <= 17 * u + 12 * h).
  { unfold sqn. set (a := X v / n) in *. set (b := Y v / n) in *. set (c := Z v / n) in *.
    replace (X w * X w + Y w * Y w + Z w * Z w - 1) with ((X w * X w - a * a) + (Y w * Y w - b * b) + (Z w * Z w - c * c)) by lra.
    apply Rabs_le_inv in Q1. apply Rabs_le_inv in Q2. apply Rabs_le_inv in Q3. apply Rabs_le. split.
    - assert (17 * u * (a * a) + 17 * u * (b * b) + 17 * u * (c * c) = 17 * u) by (rewrite <- !Rmult_plus_distr_l, SUM; ring). lra.
    - assert (17 * u * (a * a) + 17 * u * (b * b) + 17 * u * (c * c) = 17 * u) by (rewrite <- !Rmult_plus_distr_l, SUM; ring). lra. }
  pose proof h_tiny as HT. pose proof h_pos as HP. apply Rabs_le_inv in SW.
  assert (BW : Rabs (X w) <= 2 /\ Rabs (Y w) <= 2 /\ Rabs (Z w) <= 2) by (apply sqn_comp; lra). destruct BW as (W1 & W2 & W3). change 2 with (pow2 1) in W1, W2, W3.
  assert (FN : finite (norm2 w)).
  { unfold norm2, dot. destruct (mul_val _ _ _ _ G1 G1 W1 W1 ltac:(lia)) as (H1 & _ & D1). destruct (mul_val _ _ _ _ G2 G2 W2 W2 ltac:(lia)) as (H2 & _ & D2).
    destruct (mul_val _ _ _ _ G3 G3 W3 W3 ltac:(lia)) as (H3 & _ & D3). destruct (add_val _ _ _ H1 H2 D1 D2 ltac:(lia)) as (H4 & _ & D4).
    assert (D3' : Rabs (B2R (fmul (vz w) (vz w))) <= pow2 (1 + 1 + 1)) by (eapply Rle_trans; [exact D3|apply bpow_le; lia]).
    apply (add_val _ _ _ H4 H3 D4 D3' ltac:(lia)). }
  pose proof (norm2_near w FN) as NN. apply Rabs_le_inv in NN.
  assert (F1' : finite f1) by reflexivity. assert (V1 : B2R f1 = 1) by (destruct (of_int_val 1 ltac:(lia)) as [_ V]; exact V).
  unfold is_unit. pose proof (fsub_result _ _ FN F1') as RS. rewrite V1 in RS.
  assert (N1 : Rabs (B2R (norm2 w) - 1) <= 22 * u) by (apply Rabs_le; lra).
  destruct (result_val _ _ 1 ltac:(lia) RS) as (FD & VD & _); [change (pow2 1) with 2; lra|].
  destruct (fabs_val _ FD) as [FA VA].
  assert (FE : finite EPSILON2 /\ 49 / 1000000000000000 <= B2R EPSILON2).
  { destruct (lit_val 0x1C25C268497682 (-97) ltac:(lia) ltac:(lia)) as [F V]. split; [exact F|]. unfold EPSILON2. rewrite V. change (bpow radix2 (-97)) with (/ 158456325028528675187087900672). lra. }
  destruct FE as [FE VE]. destruct (flt_R _ _ FA FE) as [L|L]; [reflexivity|]. exfalso. rewrite VA, VD in L.
  pose proof (rnd_rel (B2R (norm2 w) - 1)) as RR. pose proof (Rabs_triang (rnd (B2R (norm2 w) - 1) - (B2R (norm2 w) - 1)) (B2R (norm2 w) - 1)) as T.
  replace (rnd (B2R (norm2 w) - 1) - (B2R (norm2 w) - 1) + (B2R (norm2 w) - 1)) with (rnd (B2R (norm2 w) - 1)) in T by ring. lra.
Qed.
