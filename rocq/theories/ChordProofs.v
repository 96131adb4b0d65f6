(** Rounding errors of ChordAngle arithmetic. *)
From Coq Require Import Reals Lra Lia Psatz.
From Flocq Require Import Core Relative Mult_error.
From Verif Require Import F64 F64Facts IntervalSpec F64Arith F64Error S1Proofs StuvModel StuvError VectorModel CapSpec CapModel.
Open Scope R_scope.

Notation mu := (pow2 (-1050)). (* more than any underflow error *)
Lemma mu_pos : 0 < mu. Proof. apply bpow_gt_0. Qed.
Lemma mu_small : mu <= / 1000000000000000000000000000000.
Proof.
  apply Rle_trans with (pow2 (-120)); [apply bpow_le; lia|].
  change (pow2 (-120)) with (/ 1329227995784915872903807060280344576). apply Rinv_le_contravar; lra.
Qed.

(* each operation has relative error eps, or absolute error mu when it underflows *)
Lemma rnd_rel r : Rabs (rnd r - r) <= eps * Rabs r + mu.
Proof.
  destruct (error_N_FLT radix2 (-1074) 53 ltac:(lia) (fun x => negb (Z.even x)) r) as (d & e & Hd & He & _ & E).
  change (round radix2 (FLT_exp (-1074) 53) (Znearest (fun x => negb (Z.even x))) r) with (rnd r) in E. rewrite E.
  replace (r * (1 + d) + e - r) with (r * d + e) by ring. eapply Rle_trans; [apply Rabs_triang|]. rewrite Rabs_mult.
  assert (Rabs d <= eps) by (change (pow2 (- (53) + 1)) with (/ 4503599627370496) in Hd; lra).
  assert (Rabs e <= mu).
  { eapply Rle_trans; [exact He|]. assert (pow2 (-1074) <= mu) by (apply bpow_le; lia). pose proof (bpow_gt_0 radix2 (-1074)). lra. }
  pose proof (Rabs_pos r). nra.
Qed.
Lemma result_rel z r : result z r -> Rabs r <= pow2 1000 -> finite z /\ B2R z = rnd r /\ Rabs (B2R z - r) <= eps * Rabs r + mu.
Proof.
  intros H B. destruct (result_near z r 1000 ltac:(lia) H B) as (F & V & _). split; [exact F|]. split; [exact V|]. rewrite V. apply rnd_rel.
Qed.
Lemma rnd_nonneg r : 0 <= r -> 0 <= rnd r.
Proof. intros H. rewrite <- rnd_0. apply rnd_le, H. Qed.
Lemma big_1000 x : x <= 1000 -> x <= pow2 1000.
Proof. intros H. apply Rle_trans with (pow2 10); [change (pow2 10) with 1024; lra|apply bpow_le; lia]. Qed.

Lemma quarter_val : finite quarter /\ B2R quarter = / 4.
Proof. destruct (lit_val 1 (-2) ltac:(lia) ltac:(lia)) as [F V]. split; [exact F|]. unfold quarter. rewrite V. change (bpow radix2 (-2)) with (/ 4). lra. Qed.
Lemma f2_val : finite f2 /\ B2R f2 = 2. Proof. exact (of_int_val 2 ltac:(lia)). Qed.
Lemma c4_val : finite c4 /\ B2R c4 = 4. Proof. exact (of_int_val 4 ltac:(lia)). Qed.

Ltac abs_le := repeat match goal with H : Rabs _ <= _ |- _ => apply Rabs_le_inv in H end.

(* a * (1 - b / 4) *)
Lemma part_err (a b : f64) : finite a -> finite b -> 0 <= B2R a <= 4 -> 0 <= B2R b <= 4 ->
  let x := fmul a (fsub f1 (fmul quarter b)) in let X := B2R a * (1 - B2R b / 4) in
  finite x /\ 0 <= X <= 4 /\ 0 <= B2R x <= 4 /\ Rabs (B2R x - X) <= 21 / 10 * eps * X + 14 * mu.
Proof.
  intros Fa Fb Ba Bb x X. destruct quarter_val as [Fq Vq]. destruct f1_val as [F1 V1]. destruct c4_val as [F4 V4].
  pose proof mu_pos as M0. pose proof mu_small as M1.
  set (A := B2R a) in *. set (B := B2R b) in *.
  pose proof (fmul_result quarter b Fq Fb) as R. rewrite Vq in R. fold B in R.
  destruct (result_rel _ _ R) as (Fm & Vm & _); [rewrite Rabs_pos_eq by lra; apply big_1000; lra|].
  set (q := fmul quarter b) in *.
  assert (Bq : 0 <= B2R q <= 1).
  { rewrite Vm. split; [apply rnd_nonneg; lra|apply (rnd_upper f1); lra]. }
  assert (Eq : Rabs (B2R q - / 4 * B) <= mu).
  { rewrite Vm. destruct (Rle_lt_dec (pow2 (-1000)) B) as [L|L].
    - assert (rnd (/ 4 * B) = / 4 * B) as ->; [|rewrite Rminus_eq_0, Rabs_R0; lra].
      apply round_generic; [apply valid_rnd_N|]. rewrite Rmult_comm. change (/ 4) with (pow2 (-2)).
      apply mult_bpow_exact_FLT; [apply (generic_format_B2R 53 1024)|].
      pose proof (mag_ge_bpow radix2 (B2R b) (-999)) as H. rewrite Rabs_pos_eq in H by (fold B; lra). change (-999 - 1)%Z with (-1000)%Z in H. specialize (H L). fold B in H |- *. lia.
    - eapply Rle_trans; [apply (rnd_half _ (-996)); [lia|]|apply bpow_le; lia].
      rewrite Rabs_pos_eq by lra. assert (pow2 (-1000) <= pow2 (-996)) by (apply bpow_le; lia). lra. }
  pose proof (fsub_result f1 q F1 Fm) as R2. rewrite V1 in R2.
  destruct (result_rel _ _ R2) as (Fw & Vw & Ew); [rewrite Rabs_pos_eq by lra; apply big_1000; lra|].
  set (w := fsub f1 q) in *. assert (Bw : 0 <= B2R w <= 1).
  { rewrite Vw. split; [apply rnd_nonneg; lra|apply (rnd_upper f1); lra]. }
  rewrite (Rabs_pos_eq (1 - B2R q)) in Ew by lra.
  pose proof (fmul_result a w Fa Fw) as R3. fold A in R3. assert (0 <= A * B2R w <= 4) by nra.
  destruct (result_rel _ _ R3) as (Fx & Vx & Ex); [rewrite Rabs_pos_eq by lra; apply big_1000; lra|].
  fold x in Fx, Vx, Ex. assert (Bx : 0 <= B2R x <= 4).
  { rewrite Vx. split; [apply rnd_nonneg; lra|apply (rnd_upper c4); lra]. }
  rewrite (Rabs_pos_eq (A * B2R w)) in Ex by lra.
  assert (BX : 0 <= X <= 4) by (unfold X; nra).
  split; [exact Fx|]. split; [exact BX|]. split; [exact Bx|].
  set (W := 1 - B / 4) in *. assert (BW : 0 <= W <= 1) by (unfold W; lra).
  assert (EW : Rabs (B2R w - W) <= eps * W + 3 * mu).
  { abs_le. apply Rabs_le. unfold W. lra. }
  assert (E3 : Rabs (A * B2R w - X) <= eps * X + 12 * mu).
  { unfold X. replace (A * B2R w - A * W) with (A * (B2R w - W)) by ring. rewrite Rabs_mult, Rabs_pos_eq by lra.
    apply Rle_trans with (A * (eps * W + 3 * mu)); [apply Rmult_le_compat_l; lra|]. nra. }
  abs_le. apply Rabs_le. lra.
Qed.

(* errors of square roots *)
Lemma sqrt_err m T k h : 0 <= m -> 0 <= T -> 0 <= k -> 0 <= h -> Rabs (m - T) <= k * T + h * h ->
  Rabs (sqrt m - sqrt T) <= k * sqrt T + h.
Proof.
  intros Hm HT Hk Hh E. apply Rabs_le_inv in E.
  pose proof (sqrt_sqrt m Hm) as Sm. pose proof (sqrt_sqrt T HT) as ST. pose proof (sqrt_pos m) as Pm. pose proof (sqrt_pos T) as PT.
  set (a := sqrt m) in *. set (b := sqrt T) in *. apply Rabs_le. split.
  - (* b - a <= k b + h *)
    apply Rnot_lt_le. intros L. assert (k * b + h < b - a) by lra.
    assert (0 <= k * b) by nra. destruct (Rle_lt_dec h b); nra.
  - apply Rnot_lt_le. intros L. assert (b + (k * b + h) < a) by lra. assert (0 <= k * b) by nra.
    assert ((b + (k * b + h)) * (b + (k * b + h)) < a * a) by nra. nra.
Qed.

Lemma mult_between c e k : 0 <= c -> - k <= e <= k -> - (c * k) <= c * e <= c * k.
Proof. intros. nra. Qed.

(* the sum and twice the root of the product of the two parts *)
Lemma combine (x y : f64) X Y : finite x -> finite y -> 0 <= X <= 4 -> 0 <= Y <= 4 -> 0 <= B2R x <= 4 -> 0 <= B2R y <= 4 ->
  Rabs (B2R x - X) <= 21 / 10 * eps * X + 14 * mu -> Rabs (B2R y - Y) <= 21 / 10 * eps * Y + 14 * mu ->
  let s := fadd x y in let r := fmul f2 (fsqrt (fmul x y)) in
  finite s /\ finite r /\ 0 <= B2R s <= 8 /\ 0 <= B2R r <= 8 /\
  Rabs (B2R s - (X + Y)) <= 32 / 10 * eps * (X + Y) + 30 * mu /\
  Rabs (B2R r - 2 * sqrt (X * Y)) <= 65 / 10 * eps * (2 * sqrt (X * Y)) + pow2 (-519).
Proof.
  intros Fx Fy BX BY Bx By Ex Ey s r. pose proof mu_pos as M0. pose proof mu_small as M1.
  destruct f2_val as [F2 V2].
  pose proof (fadd_result x y Fx Fy) as R.
  destruct (result_rel _ _ R) as (Fs & Vs & Es); [rewrite Rabs_pos_eq by lra; apply big_1000; lra|]. fold s in Fs, Vs, Es.
  rewrite (Rabs_pos_eq (B2R x + B2R y)) in Es by lra.
  pose proof (fmul_result x y Fx Fy) as R2. assert (Bp : 0 <= B2R x * B2R y <= 16) by nra.
  destruct (result_rel _ _ R2) as (Fm & Vm & Em); [rewrite Rabs_pos_eq by lra; apply big_1000; lra|].
  set (m := fmul x y) in *. rewrite (Rabs_pos_eq (B2R x * B2R y)) in Em by lra.
  destruct (of_int_val 16 ltac:(lia)) as [F16 V16]. destruct (of_int_val 8 ltac:(lia)) as [F8 V8].
  assert (Bm : 0 <= B2R m <= 16). { rewrite Vm. split; [apply rnd_nonneg; lra|apply (rnd_upper (of_int 16)); lra]. }
  destruct (fsqrt_val m Fm ltac:(lra)) as [Fq Vq]. set (q := fsqrt m) in *.
  destruct c4_val as [F4 V4].
  assert (Sm : 0 <= sqrt (B2R m) <= 4).
  { split; [apply sqrt_pos|]. rewrite <- (sqrt_square 4) by lra. apply sqrt_le_1; lra. }
  assert (Bq : 0 <= B2R q <= 4). { rewrite Vq. split; [apply rnd_nonneg; lra|apply (rnd_upper c4); lra]. }
  pose proof (rnd_rel (sqrt (B2R m))) as Eq. rewrite <- Vq, (Rabs_pos_eq (sqrt (B2R m))) in Eq by lra.
  pose proof (fmul_result f2 q F2 Fq) as R4. rewrite V2 in R4.
  destruct (result_rel _ _ R4) as (Fr & Vr & _); [rewrite Rabs_pos_eq by lra; apply big_1000; lra|]. fold r in Fr, Vr.
  assert (Vr' : B2R r = 2 * B2R q).
  { rewrite Vr, Rmult_comm. apply (rnd_scale q 1). lia. }
  split; [exact Fs|]. split; [exact Fr|]. split; [rewrite Vs; split; [apply rnd_nonneg; lra|apply (rnd_upper (of_int 8)); lra]|]. split; [lra|].
  split; [abs_le; apply Rabs_le; lra|].
  assert (EP : Rabs (B2R x * B2R y - X * Y) <= 43 / 10 * eps * (X * Y) + 120 * mu).
  { assert (0 <= X * Y) by nra. abs_le. apply Rabs_le. 
    set (ex := B2R x - X) in *. set (ey := B2R y - Y) in *. replace (B2R x * B2R y - X * Y) with (X * ey + Y * ex + ex * ey) by (unfold ex, ey; ring).
    assert (H1 : - (X * (21 / 10 * eps * Y + 14 * mu)) <= X * ey <= X * (21 / 10 * eps * Y + 14 * mu)) by (apply mult_between; lra).
    assert (H2 : - (Y * (21 / 10 * eps * X + 14 * mu)) <= Y * ex <= Y * (21 / 10 * eps * X + 14 * mu)) by (apply mult_between; lra).
    assert (H3 : - ((21 / 10 * eps * X + 14 * mu) * (21 / 10 * eps * Y + 14 * mu)) <= ex * ey <= (21 / 10 * eps * X + 14 * mu) * (21 / 10 * eps * Y + 14 * mu)).
    { assert (0 <= 21 / 10 * eps * X + 14 * mu) by lra. assert (0 <= 21 / 10 * eps * Y + 14 * mu) by lra.
      apply Rabs_le_inv. rewrite Rabs_mult. apply Rmult_le_compat; try apply Rabs_pos; apply Rabs_le; lra. }
    assert (X * mu <= 4 * mu) by (apply Rmult_le_compat_r; lra). assert (Y * mu <= 4 * mu) by (apply Rmult_le_compat_r; lra).
    assert (mu * mu <= / 1000 * mu) by (apply Rmult_le_compat_r; lra).
    assert (0 <= X * mu) by (apply Rmult_le_pos; lra). assert (0 <= Y * mu) by (apply Rmult_le_pos; lra). lra. }
  assert (EM : Rabs (B2R m - X * Y) <= 54 / 10 * eps * (X * Y) + pow2 (-521) * pow2 (-521)).
  { assert (0 <= X * Y) by nra. rewrite <- bpow_plus. change (-521 + -521)%Z with (8 + -1050)%Z. rewrite bpow_plus. change (pow2 8) with 256. abs_le. apply Rabs_le. lra. }
  assert (XY : 0 <= X * Y) by nra. pose proof (bpow_gt_0 radix2 (-521)) as P.
  pose proof (sqrt_err (B2R m) (X * Y) (54 / 10 * eps) (pow2 (-521)) ltac:(lra) XY ltac:(lra) ltac:(lra) EM) as ES.
  pose proof (sqrt_pos (X * Y)) as SP. set (T := sqrt (X * Y)) in *.
  assert (PP : pow2 (-519) = 4 * pow2 (-521)) by (change (-519)%Z with (2 + -521)%Z; rewrite bpow_plus; reflexivity).
  assert (PM : mu <= pow2 (-521) / 1000).
  { apply Rle_trans with (pow2 (-10 + -521)); [apply bpow_le; lia|]. rewrite bpow_plus. change (pow2 (-10)) with (/ 1024). lra. }
  rewrite PP, Vr'. abs_le. apply Rabs_le. lra.
Qed.

Lemma fmin_R (x y : f64) : finite x -> finite y -> finite (fmin x y) /\ B2R (fmin x y) = Rmin (B2R x) (B2R y).
Proof.
  intros Fx Fy. unfold fmin. rewrite (finite_number x Fx), (finite_number y Fy). unfold Rmin.
  destruct (fle_R y x Fy Fx), (Rle_dec (B2R x) (B2R y)); split; auto; lra.
Qed.
Lemma fmax_R (x y : f64) : finite x -> finite y -> finite (fmax x y) /\ B2R (fmax x y) = Rmax (B2R x) (B2R y).
Proof.
  intros Fx Fy. unfold fmax. rewrite (finite_number x Fx), (finite_number y Fy). unfold Rmax.
  destruct (fle_R x y Fx Fy), (Rle_dec (B2R x) (B2R y)); split; auto; lra.
Qed.

(* the squared chord of the sum of two angles, by their squared chords, while the sum
   of these is below 4 *)
Definition csum (a b : R) : R := let X := a * (1 - b / 4) in let Y := b * (1 - a / 4) in X + Y + 2 * sqrt (X * Y).
Definition cdiff (a b : R) : R := let X := a * (1 - b / 4) in let Y := b * (1 - a / 4) in X + Y - 2 * sqrt (X * Y).

Lemma feq_0 (b : f64) : finite b -> feq b f0 = true <-> B2R b = 0.
Proof. intros F. destruct (feq_R b f0 F eq_refl) as [E|E]; change (B2R f0) with 0 in E; split; intros; auto; congruence. Qed.

Lemma csum_sq a b : 0 <= a <= 4 -> 0 <= b <= 4 -> a + b <= 4 -> 0 <= csum a b <= 4 /\ a + b <= csum a b.
Proof.
  intros Ha Hb L. unfold csum. set (X := a * (1 - b / 4)). set (Y := b * (1 - a / 4)).
  assert (0 <= X) by (unfold X; nra). assert (0 <= Y) by (unfold Y; nra).
  assert (P : 0 <= X * Y) by nra. pose proof (sqrt_sqrt _ P) as Q. pose proof (sqrt_pos (X * Y)). set (T := sqrt (X * Y)) in *.
  (* 4 T^2 = XY * 4 and a + b <= 4 *)
  assert (E : T * T = a * b * (1 - a / 4) * (1 - b / 4)) by (rewrite Q; unfold X, Y; ring).
  assert (LB : a * b / 4 <= T).
  { apply Rnot_lt_le. intros C. assert (T * T < (a * b / 4) * (a * b / 4)) by nra.
    assert (a * b * ((a * b) / 16) <= a * b * ((1 - a / 4) * (1 - b / 4))); [|lra].
    apply Rmult_le_compat_l; [nra|]. lra. }
  assert (UB : T <= (4 - X - Y) / 2).
  { apply Rnot_lt_le. intros C. assert (0 <= 4 - X - Y) by (unfold X, Y; nra).
    assert (((4 - X - Y) / 2) * ((4 - X - Y) / 2) < T * T) by nra.
    assert (T * T <= ((4 - X - Y) / 2) * ((4 - X - Y) / 2)); [|lra]. rewrite E. unfold X, Y.
    replace ((4 - a * (1 - b / 4) - b * (1 - a / 4)) / 2 * ((4 - a * (1 - b / 4) - b * (1 - a / 4)) / 2)) with (a * b * (1 - a / 4) * (1 - b / 4) + ((4 - a - b) / 2) * ((4 - a - b) / 2)) by field.
    nra. }
  split; [lra|]. unfold X, Y. unfold X, Y in *. lra.
Qed.

Lemma chord_add_err (a b : f64) : finite a -> finite b -> 0 <= B2R a <= 4 -> 0 <= B2R b <= 4 ->
  finite (chord_add a b) /\ 0 <= B2R (chord_add a b) <= 4 /\
  (4 <= B2R a + B2R b -> B2R (chord_add a b) = 4) /\
  (B2R a + B2R b <= 4 -> Rabs (B2R (chord_add a b) - csum (B2R a) (B2R b)) <= 8 * eps * csum (B2R a) (B2R b) + pow2 (-515)).
Proof.
  intros Fa Fb Ba Bb. destruct c4_val as [F4 V4]. unfold chord_add, fge, STRAIGHT.
  pose proof (bpow_gt_0 radix2 (-515)) as P515.
  destruct (feq b f0) eqn:E0.
  { apply (feq_0 b Fb) in E0. rewrite E0. split; [exact Fa|]. split; [exact Ba|]. split; [lra|]. intros _.
    assert (csum (B2R a) 0 = B2R a) as ->.
    { unfold csum. replace (B2R a * (1 - 0 / 4) * (0 * (1 - B2R a / 4))) with 0 by field. rewrite sqrt_0. field. }
    rewrite Rminus_eq_0, Rabs_R0. lra. }
  assert (E0' : B2R b <> 0) by (intros Z; apply (feq_0 b Fb) in Z; congruence).
  pose proof (fadd_result a b Fa Fb) as R.
  destruct (result_half _ _ 3 ltac:(lia) R) as (Fs & Vs & Es); [change (pow2 3) with 8; apply Rabs_le; lra|].
  change (pow2 (3 - 54)) with (/ 2251799813685248) in Es.
  destruct (fle_R c4 (fadd a b) F4 Fs) as [L|L]; rewrite V4 in L.
  { split; [exact F4|]. rewrite V4. split; [lra|]. split; [auto|]. intros L4.
    destruct (csum_sq (B2R a) (B2R b) Ba Bb L4) as [C1 C2]. abs_le. apply Rabs_le. lra. }
  assert (L4 : B2R a + B2R b < 4).
  { apply Rnot_le_lt. intros C. apply (rnd_lower c4) in C; lra. }
  destruct (part_err a b Fa Fb Ba Bb) as (Fx & BX & Bx & Ex). destruct (part_err b a Fb Fa Bb Ba) as (Fy & BY & By & Ey). cbv zeta in *.
  destruct (combine _ _ _ _ Fx Fy BX BY Bx By Ex Ey) as (Fs' & Fr & Bs & Br & Es' & Er). cbv zeta in *.
  destruct (csum_sq (B2R a) (B2R b) Ba Bb ltac:(lra)) as [C1 C2].
  set (s := fadd (fmul a _) _) in *. set (r := fmul f2 _) in *.
  pose proof (fadd_result s r Fs' Fr) as R2.
  destruct (result_rel _ _ R2) as (Ft & Vt & Et); [rewrite Rabs_pos_eq by lra; apply big_1000; lra|]. rewrite (Rabs_pos_eq (B2R s + B2R r)) in Et by lra.
  assert (0 <= B2R (fadd s r)) by (rewrite Vt; apply rnd_nonneg; lra).
  destruct (fmin_R c4 (fadd s r) F4 Ft) as [Fm Vm]. split; [exact Fm|]. rewrite Vm, V4.
  assert (BM : 0 <= Rmin 4 (B2R (fadd s r)) <= 4) by (split; [apply Rmin_glb; lra|apply Rmin_l]).
  split; [exact BM|]. split; [lra|]. intros _. unfold csum in *. cbv zeta in *.
  set (X := B2R a * (1 - B2R b / 4)) in *. set (Y := B2R b * (1 - B2R a / 4)) in *. pose proof (sqrt_pos (X * Y)) as SP. set (T := sqrt (X * Y)) in *.
  assert (P1 : 4 * pow2 (-519) <= pow2 (-515)).
  { change (-515)%Z with (4 + -519)%Z. rewrite bpow_plus. change (pow2 4) with 16. pose proof (bpow_gt_0 radix2 (-519)). lra. }
  assert (P2 : 100 * mu <= pow2 (-519)).
  { apply Rle_trans with (pow2 (7 + -1050)); [rewrite bpow_plus; change (pow2 7) with 128; pose proof mu_pos; lra|apply bpow_le; lia]. }
  pose proof mu_pos.
  assert (Rabs (B2R (fadd s r) - (X + Y + 2 * T)) <= 8 * eps * (X + Y + 2 * T) + pow2 (-515)) by (abs_le; apply Rabs_le; lra).
  abs_le. apply Rabs_le. unfold Rmin. destruct (Rle_dec 4 (B2R (fadd s r))); lra.
Qed.

Lemma chord_sub_err (a b : f64) : finite a -> finite b -> 0 <= B2R a <= 4 -> 0 <= B2R b <= 4 ->
  finite (chord_sub a b) /\ 0 <= B2R (chord_sub a b) /\
  (B2R a <= B2R b -> B2R (chord_sub a b) = 0) /\
  (B2R b <= B2R a -> Rabs (B2R (chord_sub a b) - cdiff (B2R a) (B2R b)) <= 48 * eps).
Proof.
  intros Fa Fb Ba Bb. destruct f0_val as [F0 V0]. unfold chord_sub.
  assert (D0 : forall x, 0 <= x <= 4 -> cdiff x x = 0).
  { intros x Hx. unfold cdiff. rewrite sqrt_square by nra. ring. }
  destruct (feq b f0) eqn:E0.
  { apply (feq_0 b Fb) in E0. rewrite E0. split; [exact Fa|]. split; [lra|]. split; [lra|]. intros _.
    assert (cdiff (B2R a) 0 = B2R a) as ->.
    { unfold cdiff. replace (B2R a * (1 - 0 / 4) * (0 * (1 - B2R a / 4))) with 0 by field. rewrite sqrt_0. field. }
    rewrite Rminus_eq_0, Rabs_R0. lra. }
  destruct (fle_R a b Fa Fb) as [L|L].
  { split; [exact F0|]. rewrite V0. split; [lra|]. split; [auto|]. intros L'. replace (B2R a) with (B2R b) by lra. rewrite D0 by lra. rewrite Rminus_eq_0, Rabs_R0. lra. }
  destruct (part_err a b Fa Fb Ba Bb) as (Fx & BX & Bx & Ex). destruct (part_err b a Fb Fa Bb Ba) as (Fy & BY & By & Ey). cbv zeta in *.
  destruct (combine _ _ _ _ Fx Fy BX BY Bx By Ex Ey) as (Fs' & Fr & Bs & Br & Es' & Er). cbv zeta in *.
  set (s := fadd (fmul a _) _) in *. set (r := fmul f2 _) in *.
  pose proof (fsub_result s r Fs' Fr) as R2.
  destruct (result_rel _ _ R2) as (Ft & Vt & Et); [apply Rle_trans with 8; [apply Rabs_le; lra|apply big_1000; lra]|].
  assert (0 <= B2R a * B2R b) by nra. assert (XY4 : B2R a * (1 - B2R b / 4) + B2R b * (1 - B2R a / 4) <= 4) by nra.
  destruct (fmax_R f0 (fsub s r) F0 Ft) as [Fm Vm]. split; [exact Fm|]. rewrite Vm, V0.
  split; [apply Rmax_l|]. split; [lra|]. intros _. unfold cdiff. cbv zeta.
  set (X := B2R a * (1 - B2R b / 4)) in *. set (Y := B2R b * (1 - B2R a / 4)) in *.
  assert (P : 0 <= X * Y) by nra. pose proof (sqrt_sqrt _ P) as Q. pose proof (sqrt_pos (X * Y)) as SP. set (T := sqrt (X * Y)) in *.
  assert (T2 : 2 * T <= X + Y).
  { apply Rnot_lt_le. intros C. assert ((X + Y) * (X + Y) < (2 * T) * (2 * T)) by (apply Rmult_le_0_lt_compat; lra).
    pose proof (Rle_0_sqr (X - Y)) as Sq. unfold Rsqr in Sq. lra. }
  assert (P1 : pow2 (-519) <= / 1000000000000000000000000000000).
  { apply Rle_trans with (pow2 (-120)); [apply bpow_le; lia|]. change (pow2 (-120)) with (/ 1329227995784915872903807060280344576). apply Rinv_le_contravar; lra. }
  pose proof mu_small. pose proof mu_pos. pose proof (bpow_gt_0 radix2 (-519)).
  assert (E1 : Rabs (B2R s - B2R r - (X + Y - 2 * T)) <= 39 * eps) by (abs_le; apply Rabs_le; lra).
  assert (Et' : Rabs (B2R s - B2R r) <= 5) by (abs_le; apply Rabs_le; lra).
  assert (E2 : Rabs (B2R (fsub s r) - (X + Y - 2 * T)) <= 48 * eps).
  { assert (eps * Rabs (B2R s - B2R r) <= eps * 5) by (apply Rmult_le_compat_l; lra).
    set (z := Rabs (B2R s - B2R r)) in *. clearbody z. abs_le. apply Rabs_le. lra. }
  abs_le. apply Rabs_le. unfold Rmax. destruct (Rle_dec 0 (B2R (fsub s r))); lra.
Qed.

(** ** Angles *)
Lemma chord_range t : 0 <= chord t <= 4.
Proof. unfold chord. pose proof (sin2_cos2 (t / 2)) as E. unfold Rsqr in E. nra. Qed.
Lemma half_pos t : 0 <= t <= PI -> 0 <= sin (t / 2) /\ 0 <= cos (t / 2).
Proof. intros H. split; [apply sin_ge_0|apply cos_ge_0]; lra. Qed.
Lemma parts t u : 0 <= t <= PI -> 0 <= u <= PI ->
  chord t * (1 - chord u / 4) = (2 * sin (t / 2) * cos (u / 2)) * (2 * sin (t / 2) * cos (u / 2)).
Proof.
  intros _ _. unfold chord. pose proof (sin2_cos2 (u / 2)) as E. unfold Rsqr in E.
  replace (1 - 4 * (sin (u / 2) * sin (u / 2)) / 4) with (cos (u / 2) * cos (u / 2)) by lra. ring.
Qed.
Lemma csum_chord t u : 0 <= t <= PI -> 0 <= u <= PI -> csum (chord t) (chord u) = chord (t + u).
Proof.
  intros Ht Hu. unfold csum. rewrite (parts t u), (parts u t) by auto.
  destruct (half_pos t Ht), (half_pos u Hu). set (p := 2 * sin (t / 2) * cos (u / 2)). set (q := 2 * sin (u / 2) * cos (t / 2)).
  assert (0 <= p) by (unfold p; apply Rmult_le_pos; lra). assert (0 <= q) by (unfold q; apply Rmult_le_pos; lra).
  replace (p * p * (q * q)) with ((p * q) * (p * q)) by ring. rewrite sqrt_square by nra.
  unfold chord. replace ((t + u) / 2) with (t / 2 + u / 2) by field. rewrite sin_plus. unfold p, q. ring.
Qed.
Lemma cdiff_chord t u : 0 <= t <= PI -> 0 <= u <= PI -> cdiff (chord t) (chord u) = chord (t - u).
Proof.
  intros Ht Hu. unfold cdiff. rewrite (parts t u), (parts u t) by auto.
  destruct (half_pos t Ht), (half_pos u Hu). set (p := 2 * sin (t / 2) * cos (u / 2)). set (q := 2 * sin (u / 2) * cos (t / 2)).
  assert (0 <= p) by (unfold p; apply Rmult_le_pos; lra). assert (0 <= q) by (unfold q; apply Rmult_le_pos; lra).
  replace (p * p * (q * q)) with ((p * q) * (p * q)) by ring. rewrite sqrt_square by nra.
  unfold chord. replace ((t - u) / 2) with (t / 2 - u / 2) by field. rewrite sin_minus. unfold p, q. ring.
Qed.
Lemma chord_incr t u : 0 <= t -> t <= u -> u <= PI -> chord t <= chord u.
Proof.
  intros. unfold chord. destruct (half_pos t ltac:(lra)), (half_pos u ltac:(lra)).
  assert (sin (t / 2) <= sin (u / 2)) by (apply sin_incr_1; lra). nra.
Qed.
Lemma chord_incr_lt t u : 0 <= t -> t < u -> u <= PI -> chord t < chord u.
Proof.
  intros. unfold chord. destruct (half_pos t ltac:(lra)), (half_pos u ltac:(lra)).
  assert (sin (t / 2) < sin (u / 2)) by (apply sin_increasing_1; lra). nra.
Qed.
Lemma chord_supplement t : chord (PI - t) = 4 - chord t.
Proof.
  unfold chord. replace ((PI - t) / 2) with (PI / 2 - t / 2) by field. rewrite sin_shift. pose proof (sin2_cos2 (t / 2)) as E. unfold Rsqr in E. lra.
Qed.
Lemma chord_PI : chord PI = 4.
Proof. unfold chord. rewrite sin_PI2. ring. Qed.
Lemma chord_0 : chord 0 = 0.
Proof. unfold chord. replace (0 / 2) with 0 by field. rewrite sin_0. ring. Qed.
Lemma chord_sum_4 t u : 0 <= t <= PI -> 0 <= u <= PI -> (chord t + chord u <= 4 <-> t + u <= PI).
Proof.
  intros Ht Hu. pose proof (chord_supplement t) as S. split; intros H.
  - apply Rnot_lt_le. intros C. pose proof (chord_incr_lt (PI - t) u ltac:(lra) ltac:(lra) ltac:(lra)). lra.
  - pose proof (chord_incr u (PI - t) ltac:(lra) ltac:(lra) ltac:(lra)). lra.
Qed.
(* every squared length from 0 to 4 is that of an angle *)
Lemma chord_onto r : 0 <= r <= 4 -> exists t, 0 <= t <= PI /\ chord t = r.
Proof.
  intros H. assert (S : 0 <= sqrt r / 2 <= 1).
  { pose proof (sqrt_pos r). split; [lra|]. assert (sqrt r <= 2); [|lra]. rewrite <- (sqrt_square 2) by lra. apply sqrt_le_1; lra. }
  exists (2 * asin (sqrt r / 2)). pose proof (asin_bound (sqrt r / 2)).
  assert (0 <= asin (sqrt r / 2)). { apply Rnot_lt_le. intros C. pose proof (sin_lt_0_var (asin (sqrt r / 2)) ltac:(pose proof PI_RGT_0; lra) C). rewrite sin_asin in *; lra. }
  split; [lra|]. unfold chord. replace (2 * asin (sqrt r / 2) / 2) with (asin (sqrt r / 2)) by field. rewrite sin_asin by lra.
  replace (4 * (sqrt r / 2 * (sqrt r / 2))) with (sqrt r * sqrt r) by field. apply sqrt_sqrt. lra.
Qed.
