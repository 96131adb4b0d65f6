(** Rounding facts about the operators of f64. *)
From Coq Require Import Reals Lra.
From Flocq Require Import Core.
From Verif Require Import F64 F64Facts IntervalSpec.
Open Scope R_scope.

Definition rnd (x : R) : R := round radix2 (FLT_exp (-1074) 53) ZnearestE x.

Lemma rnd_le x y : x <= y -> rnd x <= rnd y.
Proof. apply round_le; [apply FLT_exp_valid; reflexivity|apply valid_rnd_N]. Qed.
Lemma rnd_fix (x : f64) : rnd (B2R x) = B2R x.
Proof. apply round_generic; [apply valid_rnd_N|]. apply (generic_format_B2R 53 1024). Qed.
Lemma rnd_0 : rnd 0 = 0.
Proof. apply round_0, valid_rnd_N. Qed.
Lemma B2R_max (x : f64) : Rabs (B2R x) < bpow radix2 1024.
Proof. apply abs_B2R_lt_emax. Qed.
Lemma ev_fin x : finite x -> ev x = Fin (B2R x).
Proof. unfold finite. destruct x; try discriminate; reflexivity. Qed.
Lemma finite_number x : finite x -> number x.
Proof. unfold finite, number. destruct x; try discriminate; reflexivity. Qed.

Lemma sign_true (x : f64) : finite x -> Bsign x = true -> B2R x <= 0.
Proof.
  destruct x as [s|s| |s m e B]; try discriminate; cbn [Bsign B2R]; intros _ ->; try lra.
  apply Rlt_le, F2R_lt_0. reflexivity.
Qed.
Lemma sign_false (x : f64) : finite x -> Bsign x = false -> 0 <= B2R x.
Proof.
  destruct x as [s|s| |s m e B]; try discriminate; cbn [Bsign B2R]; intros _ ->; try lra.
  apply Rlt_le, F2R_gt_0. reflexivity.
Qed.

(** [z] is what an operation with exact value [r] returns. *)
Definition result (z : f64) (r : R) : Prop :=
  (finite z /\ B2R z = rnd r /\ Rabs (rnd r) < bpow radix2 1024) \/
  (exists s, z = B754_infinity s /\ bpow radix2 1024 <= Rabs (rnd r) /\ if s then r <= 0 else 0 <= r).

Lemma B2SF_inf (x : f64) s : B2SF x = SpecFloat.S754_infinity s -> x = B754_infinity s.
Proof. destruct x; cbn; intros H; try discriminate. congruence. Qed.

Lemma fadd_result x y : finite x -> finite y -> result (fadd x y) (B2R x + B2R y).
Proof.
  intros Fx Fy. unfold result, fadd. pose proof (Bplus_correct 53 1024 _ _ mode_NE x y Fx Fy) as H.
  unfold finite in *. fold (f64) in *.
  change (round radix2 (SpecFloat.fexp 53 1024) (round_mode mode_NE) (B2R x + B2R y)) with (rnd (B2R x + B2R y)) in H.
  destruct (Rlt_bool_spec (Rabs (rnd (B2R x + B2R y))) (bpow radix2 1024)) as [L|L].
  - left. tauto.
  - right. destruct H as [H S]. exists (Bsign x). split; [apply B2SF_inf, H|]. split; auto.
    destruct (Bsign x) eqn:E.
    + pose proof (sign_true x Fx E). pose proof (sign_true y Fy (eq_sym S)). lra.
    + pose proof (sign_false x Fx E). pose proof (sign_false y Fy (eq_sym S)). lra.
Qed.
Lemma fsub_result x y : finite x -> finite y -> result (fsub x y) (B2R x - B2R y).
Proof.
  intros Fx Fy. unfold result, fsub. pose proof (Bminus_correct 53 1024 _ _ mode_NE x y Fx Fy) as H.
  unfold finite in *. fold (f64) in *.
  change (round radix2 (SpecFloat.fexp 53 1024) (round_mode mode_NE) (B2R x - B2R y)) with (rnd (B2R x - B2R y)) in H.
  destruct (Rlt_bool_spec (Rabs (rnd (B2R x - B2R y))) (bpow radix2 1024)) as [L|L].
  - left. tauto.
  - right. destruct H as [H S]. exists (Bsign x). split; [apply B2SF_inf, H|]. split; auto.
    assert (S' : Bsign y = negb (Bsign x)) by (rewrite S; destruct (Bsign y); reflexivity).
    destruct (Bsign x) eqn:E.
    + pose proof (sign_true x Fx E). pose proof (sign_false y Fy S'). lra.
    + pose proof (sign_false x Fx E). pose proof (sign_true y Fy S'). lra.
Qed.
Lemma fmul_result x y : finite x -> finite y -> result (fmul x y) (B2R x * B2R y).
Proof.
  intros Fx Fy. unfold result, fmul. pose proof (Bmult_correct 53 1024 _ _ mode_NE x y) as H.
  unfold finite in *. fold (f64) in *.
  change (round radix2 (SpecFloat.fexp 53 1024) (round_mode mode_NE) (B2R x * B2R y)) with (rnd (B2R x * B2R y)) in H.
  destruct (Rlt_bool_spec (Rabs (rnd (B2R x * B2R y))) (bpow radix2 1024)) as [L|L].
  - left. destruct H as (A & B & _). rewrite B, Fx, Fy. tauto.
  - right. exists (xorb (Bsign x) (Bsign y)). split; [apply B2SF_inf, H|]. split; auto.
    destruct (Bsign x) eqn:E, (Bsign y) eqn:E'; cbn [xorb];
    repeat match goal with
    | H : Bsign ?z = true |- _ => apply sign_true in H; auto
    | H : Bsign ?z = false |- _ => apply sign_false in H; auto
    end; nra.
Qed.
Lemma fdiv_result x y : finite x -> finite y -> B2R y <> 0 -> result (fdiv x y) (B2R x / B2R y).
Proof.
  intros Fx Fy Ny. unfold result, fdiv. pose proof (Bdiv_correct 53 1024 _ _ mode_NE x y Ny) as H.
  unfold finite in *. fold (f64) in *.
  change (round radix2 (SpecFloat.fexp 53 1024) (round_mode mode_NE) (B2R x / B2R y)) with (rnd (B2R x / B2R y)) in H.
  destruct (Rlt_bool_spec (Rabs (rnd (B2R x / B2R y))) (bpow radix2 1024)) as [L|L].
  - left. destruct H as (A & B & _). rewrite B, Fx. tauto.
  - right. exists (xorb (Bsign x) (Bsign y)). split; [apply B2SF_inf, H|]. split; auto.
    unfold Rdiv.
    assert (I : (0 < B2R y -> 0 < / B2R y) /\ (B2R y < 0 -> / B2R y < 0)).
    { split; intros; [apply Rinv_0_lt_compat|apply Rinv_lt_0_compat]; auto. }
    destruct (Bsign x) eqn:E, (Bsign y) eqn:E'; cbn [xorb];
    repeat match goal with
    | H : Bsign ?z = true |- _ => apply sign_true in H; auto
    | H : Bsign ?z = false |- _ => apply sign_false in H; auto
    end;
    (assert (0 < / B2R y \/ / B2R y < 0) by (destruct (Rlt_le_dec 0 (B2R y)); [left; tauto|right; apply I; lra]));
    nra.
Qed.
Lemma fsqrt_val x : finite x -> 0 <= B2R x -> finite (fsqrt x) /\ B2R (fsqrt x) = rnd (sqrt (B2R x)).
Proof.
  intros Fx P. unfold fsqrt, finite. destruct (Bsqrt_correct 53 1024 _ _ mode_NE x) as (A & B & _).
  split; [|exact A]. fold f64 in *. rewrite B. destruct x as [s|s| |s m e H]; try discriminate Fx; try reflexivity.
  destruct s; auto. exfalso. cbn [B2R] in P.
  pose proof (F2R_lt_0 radix2 (Float radix2 (cond_Zopp true (Z.pos m)) e) eq_refl). lra.
Qed.

(** Rounding is monotone, so a bound by a double survives it. *)
Lemma result_number z r : result z r -> number z.
Proof. intros [(F & _)|(s & -> & _)]; [apply finite_number; auto|reflexivity]. Qed.
Lemma result_le z r p : result z r -> finite p -> r <= B2R p -> ele (ev z) (ev p).
Proof.
  intros [(F & E & _)|(s & -> & L & S)] Fp H; pose proof (rnd_le _ _ H) as M; rewrite rnd_fix in M.
  - rewrite !ev_fin by auto. cbn. lra.
  - destruct s; cbn [ev ele]; auto. rewrite ev_fin by auto.
    pose proof (B2R_max p). apply Rabs_def2 in H0. exfalso.
    assert (0 <= rnd r). { rewrite <- rnd_0. apply rnd_le. exact S. }
    rewrite Rabs_pos_eq in L by auto. lra.
Qed.
Lemma result_ge z r p : result z r -> finite p -> B2R p <= r -> ele (ev p) (ev z).
Proof.
  intros [(F & E & _)|(s & -> & L & S)] Fp H; pose proof (rnd_le _ _ H) as M; rewrite rnd_fix in M.
  - rewrite !ev_fin by auto. cbn. lra.
  - destruct s; cbn [ev]; [|rewrite ev_fin by auto; exact I]. rewrite ev_fin by auto.
    pose proof (B2R_max p). apply Rabs_def2 in H0. exfalso.
    assert (rnd r <= 0). { rewrite <- rnd_0. apply rnd_le. exact S. }
    rewrite Rabs_left1 in L by auto. lra.
Qed.
