(** Lengths of vectors and the error of cross products. *)
From Coq Require Import ZArith Reals Lra Lia Psatz Bool.
From Flocq Require Import Core.
From Verif Require Import F64 F64Facts IntervalSpec F64Arith F64Error VectorModel PredicatesFloat PredicatesError PredicatesSound CapSpec CapError CapEdgeFloat CapEdgeMain TrigProofs.
Open Scope R_scope.

Definition padd (a b : pos) : pos := Pos (px3 a + px3 b) (py3 a + py3 b) (pz3 a + pz3 b).
Definition psub (a b : pos) : pos := Pos (px3 a - px3 b) (py3 a - py3 b) (pz3 a - pz3 b).
Definition pmul (k : R) (a : pos) : pos := Pos (k * px3 a) (k * py3 a) (k * pz3 a).
Definition len (a : pos) : R := sqrt (rdot a a).

Lemma pos_eq a b : px3 a = px3 b -> py3 a = py3 b -> pz3 a = pz3 b -> a = b.
Proof. destruct a, b. cbn. intros; subst; reflexivity. Qed.
Lemma dot_self a : 0 <= rdot a a.
Proof. unfold rdot. pose proof (Rle_0_sqr (px3 a)). pose proof (Rle_0_sqr (py3 a)). pose proof (Rle_0_sqr (pz3 a)). unfold Rsqr in *. lra. Qed.
Lemma len_pos a : 0 <= len a. Proof. apply sqrt_pos. Qed.
Lemma len_sq a : len a * len a = rdot a a. Proof. apply sqrt_sqrt, dot_self. Qed.
Lemma chd_len a b : chd a b = len (psub a b). Proof. reflexivity. Qed.
Lemma len_le a r : 0 <= r -> rdot a a <= r * r -> len a <= r.
Proof. intros P H. unfold len. rewrite <- (sqrt_square r) by exact P. apply sqrt_le_1_alt, H. Qed.
Lemma len_ge a r : 0 <= r -> r * r <= rdot a a -> r <= len a.
Proof. intros P H. unfold len. rewrite <- (sqrt_square r) by exact P. apply sqrt_le_1_alt, H. Qed.
Lemma len_tri a b : len (padd a b) <= len a + len b.
Proof.
  pose proof (chd_tri (padd a b) b org) as T. rewrite !chd_len in T. replace (psub (padd a b) org) with (padd a b) in T by (apply pos_eq; cbn; ring). replace (psub (padd a b) b) with a in T by (apply pos_eq; cbn; ring). replace (psub b org) with b in T by (apply pos_eq; cbn; ring). exact T.
Qed.
Lemma len_opp a b : len (psub a b) = len (psub b a). Proof. rewrite <- !chd_len. apply chd_sym. Qed.
Lemma len_sub a b : Rabs (len a - len b) <= len (psub a b).
Proof.
  pose proof (len_tri (psub a b) b) as T1. pose proof (len_tri (psub b a) a) as T2. rewrite (len_opp b a) in T2. replace (padd (psub a b) b) with a in T1 by (apply pos_eq; cbn; ring). replace (padd (psub b a) a) with b in T2 by (apply pos_eq; cbn; ring). apply Rabs_le. lra.
Qed.
Lemma len_mul k a : len (pmul k a) = Rabs k * len a.
Proof. unfold len. rewrite <- sqrt_Rsqr_abs, <- sqrt_mult; [|apply Rle_0_sqr|apply dot_self]. f_equal. unfold rdot, pmul, Rsqr. cbn [px3 py3 pz3]. ring. Qed.
Lemma len_comp a : Rabs (px3 a) <= len a /\ Rabs (py3 a) <= len a /\ Rabs (pz3 a) <= len a.
Proof.
  unfold len, rdot. pose proof (Rle_0_sqr (px3 a)). pose proof (Rle_0_sqr (py3 a)). pose proof (Rle_0_sqr (pz3 a)). unfold Rsqr in *.
  repeat split; rewrite <- sqrt_Rsqr_abs; apply sqrt_le_1_alt; unfold Rsqr; lra.
Qed.
Lemma len_RV v : len (RV v) = sqrt (sqn v). Proof. reflexivity. Qed.
(* Lagrange's identity *)
Lemma cross_dot a b : rdot (rcross a b) (rcross a b) = rdot a a * rdot b b - rdot a b * rdot a b.
Proof. unfold rdot, rcross. cbn [px3 py3 pz3]. ring. Qed.
Lemma len_cross a b : len (rcross a b) <= len a * len b.
Proof.
  apply len_le; [apply Rmult_le_pos; apply len_pos|]. rewrite cross_dot. replace (len a * len b * (len a * len b)) with ((len a * len a) * (len b * len b)) by ring. rewrite !len_sq. pose proof (Rle_0_sqr (rdot a b)) as Q. unfold Rsqr in Q. lra.
Qed.
Lemma len_cross_perp a b : rdot a b = 0 -> len (rcross a b) = len a * len b.
Proof.
  intros Z. apply Rle_antisym; [apply len_cross|]. apply len_ge; [apply Rmult_le_pos; apply len_pos|]. rewrite cross_dot, Z. replace (len a * len b * (len a * len b)) with ((len a * len a) * (len b * len b)) by ring. rewrite !len_sq. lra.
Qed.
Lemma cross_near p q p' q' : len (psub (rcross p q) (rcross p' q')) <= len (psub p p') * len q + len p' * len (psub q q').
Proof.
  replace (psub (rcross p q) (rcross p' q')) with (padd (rcross (psub p p') q) (rcross p' (psub q q'))) by (apply pos_eq; unfold rcross; cbn [px3 py3 pz3 psub padd]; ring).
  eapply Rle_trans; [apply len_tri|]. apply Rplus_le_compat; apply len_cross.
Qed.

(** ** Rounding *)
Lemma parts_le a e : 0 <= e -> Rabs (px3 a) <= e -> Rabs (py3 a) <= e -> Rabs (pz3 a) <= e -> len a <= 2 * e.
Proof.
  intros P A B C. apply len_le; [lra|]. unfold rdot. pose proof (sq_abs_le _ _ P A). pose proof (sq_abs_le _ _ P B). pose proof (sq_abs_le _ _ P C). pose proof (Rle_0_sqr e) as Q. unfold Rsqr in Q. lra.
Qed.
Lemma pair_le a b c d P Q : 0 <= P -> 0 <= Q -> a * a + c * c <= P * P -> b * b + d * d <= Q * Q -> Rabs (a * b) + Rabs (c * d) <= P * Q.
Proof.
  intros HP HQ H1 H2. rewrite !Rabs_mult. pose proof (Rabs_pos a) as A. pose proof (Rabs_pos b) as B. pose proof (Rabs_pos c) as C. pose proof (Rabs_pos d) as D.
  rewrite <- (sqr_abs a), <- (sqr_abs c) in H1. rewrite <- (sqr_abs b), <- (sqr_abs d) in H2. set (x := Rabs a) in *. set (y := Rabs b) in *. set (z := Rabs c) in *. set (w := Rabs d) in *.
  apply Rsqr_incr_0; [|apply Rplus_le_le_0_compat; apply Rmult_le_pos; assumption|apply Rmult_le_pos; assumption]. unfold Rsqr.
  apply Rle_trans with ((x * x + z * z) * (y * y + w * w)).
  - pose proof (Rle_0_sqr (x * w - z * y)) as S. unfold Rsqr in S. lra.
  - replace (P * Q * (P * Q)) with ((P * P) * (Q * Q)) by ring. pose proof (Rle_0_sqr x). pose proof (Rle_0_sqr y). pose proof (Rle_0_sqr z). pose proof (Rle_0_sqr w). unfold Rsqr in *. apply Rmult_le_compat; lra.
Qed.
Lemma comp_rel (a b c d : f64) M : finite a -> finite b -> finite c -> finite d -> Rabs (B2R a * B2R b) + Rabs (B2R c * B2R d) <= M -> M <= 32 ->
  finite (fsub (fmul a b) (fmul c d)) /\ Rabs (B2R (fsub (fmul a b) (fmul c d)) - (B2R a * B2R b - B2R c * B2R d)) <= 21 / 10 * (u * M) + 4 * h.
Proof.
  intros Fa Fb Fc Fd HM B. pose proof (Rabs_pos (B2R a * B2R b)) as P1. pose proof (Rabs_pos (B2R c * B2R d)) as P2. pose proof h_tiny as HT. pose proof h_pos as HP.
  assert (PW : pow2 6 = 64) by reflexivity.
  destruct (result_val _ _ 6 ltac:(lia) (fmul_result _ _ Fa Fb) ltac:(lra)) as (F1 & V1 & _). destruct (result_val _ _ 6 ltac:(lia) (fmul_result _ _ Fc Fd) ltac:(lra)) as (F2 & V2 & _).
  pose proof (PredicatesError.rnd_rel (B2R a * B2R b)) as R1. pose proof (PredicatesError.rnd_rel (B2R c * B2R d)) as R2. rewrite <- V1 in R1. rewrite <- V2 in R2.
  set (x := B2R a * B2R b) in *. set (y := B2R c * B2R d) in *. set (x' := B2R (fmul a b)) in *. set (y' := B2R (fmul c d)) in *.
  assert (N3 : Rabs (x' - y') <= M * (1 + u) + 2 * h).
  { replace (x' - y') with ((x' - x) + x + - (y' - y) + - y) by ring. eapply Rle_trans; [apply Rabs_triang|]. rewrite Rabs_Ropp. eapply Rle_trans; [apply Rplus_le_compat_r, Rabs_triang|]. rewrite Rabs_Ropp. eapply Rle_trans; [apply Rplus_le_compat_r, Rplus_le_compat_r, Rabs_triang|]. lra. }
  destruct (result_val _ _ 6 ltac:(lia) (fsub_result _ _ F1 F2)) as (F3 & V3 & _). { fold x' y'. lra. }
  split; [exact F3|]. pose proof (PredicatesError.rnd_rel (x' - y')) as R3. fold x' y' in V3. rewrite <- V3 in R3. set (z := B2R (fsub _ _)) in *.
  replace (z - (x - y)) with ((z - (x' - y')) + (x' - x) + - (y' - y)) by ring. eapply Rle_trans; [apply Rabs_triang|]. rewrite Rabs_Ropp. eapply Rle_trans; [apply Rplus_le_compat_r, Rabs_triang|]. lra.
Qed.
Lemma cross_rel p q : fvec p -> fvec q -> len (RV p) <= 4 -> len (RV q) <= 4 ->
  fvec (cross p q) /\ len (psub (RV (cross p q)) (rcross (RV p) (RV q))) <= 5 * u * (len (RV p) * len (RV q)) + 8 * h.
Proof.
  intros (P1 & P2 & P3) (Q1 & Q2 & Q3) LP LQ. pose proof (len_pos (RV p)) as GP. pose proof (len_pos (RV q)) as GQ. pose proof (len_sq (RV p)) as SP. pose proof (len_sq (RV q)) as SQ.
  set (A := len (RV p)) in *. set (B := len (RV q)) in *. unfold rdot, RV in SP, SQ. cbn [px3 py3 pz3] in SP, SQ.
  pose proof (Rle_0_sqr (X p)). pose proof (Rle_0_sqr (Y p)). pose proof (Rle_0_sqr (Z p)). pose proof (Rle_0_sqr (X q)). pose proof (Rle_0_sqr (Y q)). pose proof (Rle_0_sqr (Z q)). unfold Rsqr in *.
  assert (AB : 0 <= A * B) by (apply Rmult_le_pos; assumption). assert (AB2 : A * B <= 16) by (replace 16 with (4 * 4) by ring; apply Rmult_le_compat; assumption). pose proof h_pos as HP.
  destruct (comp_rel _ _ _ _ (A * B) P2 Q3 P3 Q2 ltac:(apply pair_le; lra) ltac:(lra)) as [F1 E1].
  destruct (comp_rel _ _ _ _ (A * B) P3 Q1 P1 Q3 ltac:(apply pair_le; lra) ltac:(lra)) as [F2 E2].
  destruct (comp_rel _ _ _ _ (A * B) P1 Q2 P2 Q1 ltac:(apply pair_le; lra) ltac:(lra)) as [F3 E3].
  split; [repeat split; assumption|]. apply Rle_trans with (2 * (21 / 10 * (u * (A * B)) + 4 * h)); [|lra].
  apply parts_le; [lra|exact E1|exact E2|exact E3].
Qed.

(* sums and differences of vectors *)
Lemma add_rel a b : fvec a -> fvec b -> len (RV a) <= 2 -> len (RV b) <= 2 ->
  fvec (vadd a b) /\ len (psub (RV (vadd a b)) (padd (RV a) (RV b))) <= 2 * (u * len (padd (RV a) (RV b)) + h).
Proof.
  intros (A1 & A2 & A3) (B1 & B2 & B3) LA LB. destruct (len_comp (RV a)) as (C1 & C2 & C3). destruct (len_comp (RV b)) as (D1 & D2 & D3). destruct (len_comp (padd (RV a) (RV b))) as (G1 & G2 & G3).
  pose proof (len_pos (padd (RV a) (RV b))) as GP. set (S := len (padd (RV a) (RV b))) in *. cbn [px3 py3 pz3 RV padd] in *. pose proof h_pos as HP.
  assert (PW : pow2 3 = 8) by reflexivity.
  assert (K : forall x y : f64, finite x -> finite y -> Rabs (B2R x) <= 2 -> Rabs (B2R y) <= 2 -> Rabs (B2R x + B2R y) <= S -> finite (fadd x y) /\ Rabs (B2R (fadd x y) - (B2R x + B2R y)) <= u * S + h).
  { intros x y Fx Fy Bx By HS. destruct (result_val _ _ 3 ltac:(lia) (fadd_result _ _ Fx Fy)) as (F & V & _). { eapply Rle_trans; [apply Rabs_triang|lra]. }
    split; [exact F|]. rewrite V. pose proof (PredicatesError.rnd_rel (B2R x + B2R y)). lra. }
  destruct (K _ _ A1 B1 ltac:(lra) ltac:(lra) G1) as [F1 E1]. destruct (K _ _ A2 B2 ltac:(lra) ltac:(lra) G2) as [F2 E2]. destruct (K _ _ A3 B3 ltac:(lra) ltac:(lra) G3) as [F3 E3].
  split; [repeat split; assumption|]. apply parts_le; [lra|exact E1|exact E2|exact E3].
Qed.
Lemma sub_rel a b : fvec a -> fvec b -> len (RV a) <= 2 -> len (RV b) <= 2 ->
  fvec (vsub a b) /\ len (psub (RV (vsub a b)) (psub (RV a) (RV b))) <= 2 * (u * len (psub (RV a) (RV b)) + h).
Proof.
  intros (A1 & A2 & A3) (B1 & B2 & B3) LA LB. destruct (len_comp (RV a)) as (C1 & C2 & C3). destruct (len_comp (RV b)) as (D1 & D2 & D3). destruct (len_comp (psub (RV a) (RV b))) as (G1 & G2 & G3).
  pose proof (len_pos (psub (RV a) (RV b))) as GP. set (S := len (psub (RV a) (RV b))) in *. cbn [px3 py3 pz3 RV psub] in *. pose proof h_pos as HP.
  assert (PW : pow2 3 = 8) by reflexivity.
  assert (K : forall x y : f64, finite x -> finite y -> Rabs (B2R x) <= 2 -> Rabs (B2R y) <= 2 -> Rabs (B2R x - B2R y) <= S -> finite (fsub x y) /\ Rabs (B2R (fsub x y) - (B2R x - B2R y)) <= u * S + h).
  { intros x y Fx Fy Bx By HS. destruct (result_val _ _ 3 ltac:(lia) (fsub_result _ _ Fx Fy)) as (F & V & _). { unfold Rminus. eapply Rle_trans; [apply Rabs_triang|rewrite Rabs_Ropp; lra]. }
    split; [exact F|]. rewrite V. pose proof (PredicatesError.rnd_rel (B2R x - B2R y)). lra. }
  destruct (K _ _ A1 B1 ltac:(lra) ltac:(lra) G1) as [F1 E1]. destruct (K _ _ A2 B2 ltac:(lra) ltac:(lra) G2) as [F2 E2]. destruct (K _ _ A3 B3 ltac:(lra) ltac:(lra) G3) as [F3 E3].
  split; [repeat split; assumption|]. apply parts_le; [lra|exact E1|exact E2|exact E3].
Qed.
Lemma len_psub a b : len (psub a b) <= len a + len b.
Proof. replace (psub a b) with (padd a (pmul (-1) b)) by (apply pos_eq; cbn; ring). eapply Rle_trans; [apply len_tri|]. rewrite len_mul, Rabs_left by lra. lra. Qed.

(* the product of the sum and the difference of two vectors of nearly the same length *)
Lemma stable_cross a b : fvec a -> fvec b -> Rabs (len (RV a) - 1) <= KR -> Rabs (len (RV b) - 1) <= KR ->
  let v := cross (vadd a b) (vsub b a) in let N := pmul 2 (rcross (RV a) (RV b)) in
  fvec v /\ len (psub (RV v) N) <= 10 * u * (len N + 1 / 2 ^ 43) + 64 * h.
Proof.
  intros FA FB HA HB. cbv zeta. unfold KR in *. apply Rabs_le_inv in HA, HB. pose proof h_tiny as HT. pose proof h_pos as HP.
  destruct (add_rel a b FA FB ltac:(lra) ltac:(lra)) as [FS ES]. destruct (sub_rel b a FB FA ltac:(lra) ltac:(lra)) as [FD ED].
  pose proof (len_tri (RV a) (RV b)) as TS. pose proof (len_psub (RV b) (RV a)) as TD.
  set (s := padd (RV a) (RV b)) in *. set (d := psub (RV b) (RV a)) in *. pose proof (len_pos s) as PS. pose proof (len_pos d) as PD.
  pose proof (len_sub (RV (vadd a b)) s) as QS. pose proof (len_sub (RV (vsub b a)) d) as QD. apply Rabs_le_inv in QS, QD.
  assert (LS : len (RV (vadd a b)) <= len s * (1 + 2 * u) + 2 * h) by lra. assert (LD : len (RV (vsub b a)) <= len d * (1 + 2 * u) + 2 * h) by lra.
  destruct (cross_rel _ _ FS FD ltac:(lra) ltac:(lra)) as [FV EV]. split; [exact FV|].
  pose proof (cross_near (RV (vadd a b)) (RV (vsub b a)) s d) as CN.
  assert (EN : rcross s d = pmul 2 (rcross (RV a) (RV b))) by (unfold s, d, rcross, pmul, padd, psub; apply pos_eq; cbn [px3 py3 pz3]; ring).
  rewrite EN in CN. set (N := pmul 2 (rcross (RV a) (RV b))) in *.
  (* the lengths of the sum and the difference *)
  assert (SD : len s * len d <= len N + 1 / 2 ^ 43).
  { assert (Q : (len s * len d) * (len s * len d) <= (len N + 1 / 2 ^ 43) * (len N + 1 / 2 ^ 43)).
    { replace (len s * len d * (len s * len d)) with ((len s * len s) * (len d * len d)) by ring. rewrite !len_sq. pose proof (cross_dot s d) as CD. rewrite EN, <- len_sq in CD.
      assert (DT : rdot s d = len (RV b) * len (RV b) - len (RV a) * len (RV a)) by (rewrite !len_sq; unfold s, d, rdot, padd, psub; cbn [px3 py3 pz3]; ring).
      assert (DB : Rabs (rdot s d) <= 1 / 2 ^ 43). { rewrite DT. replace (len (RV b) * len (RV b) - len (RV a) * len (RV a)) with ((len (RV b) - len (RV a)) * (len (RV b) + len (RV a))) by ring. rewrite Rabs_mult. apply Rle_trans with (54 / 1000000000000000 * (201 / 100)); [|lra]. apply Rmult_le_compat; try apply Rabs_pos; apply Rabs_le; lra. }
      pose proof (sq_abs_le (rdot s d) (1 / 2 ^ 43) ltac:(lra) DB) as DQ. pose proof (len_pos N) as PN. assert (0 <= len N * (1 / 2 ^ 43)) by (apply Rmult_le_pos; lra). lra. }
    apply Rsqr_incr_0_var in Q; [exact Q|]. pose proof (len_pos N). lra. }
  set (SDv := len s * len d) in *. assert (P0 : 0 <= SDv) by (apply Rmult_le_pos; assumption).
  set (S' := len (RV (vadd a b))) in *. set (D' := len (RV (vsub b a))) in *. assert (PS' : 0 <= S') by apply len_pos. assert (PD' : 0 <= D') by apply len_pos.
  assert (M1 : S' * D' <= SDv * (1 + 5 * u) + 10 * h).
  { apply Rle_trans with ((len s * (1 + 2 * u) + 2 * h) * (len d * (1 + 2 * u) + 2 * h)); [apply Rmult_le_compat; assumption|].
    replace ((len s * (1 + 2 * u) + 2 * h) * (len d * (1 + 2 * u) + 2 * h)) with (SDv * ((1 + 2 * u) * (1 + 2 * u)) + 2 * h * ((len s + len d) * (1 + 2 * u) + 2 * h)) by (unfold SDv; ring).
    apply Rplus_le_compat; [apply Rmult_le_compat_l; [exact P0|lra]|]. apply Rle_trans with (2 * h * 5); [apply Rmult_le_compat_l; lra|lra]. }
  assert (M2 : len (psub (RV (vadd a b)) s) * D' <= SDv * (2 * u + 5 * (u * u)) + 10 * h).
  { apply Rle_trans with ((2 * (u * len s + h)) * (len d * (1 + 2 * u) + 2 * h)); [apply Rmult_le_compat; try assumption; apply len_pos|].
    replace ((2 * (u * len s + h)) * (len d * (1 + 2 * u) + 2 * h)) with (SDv * (2 * u + 4 * (u * u)) + h * (4 * (u * len s) + 2 * (len d * (1 + 2 * u)) + 4 * h)) by (unfold SDv; ring).
    apply Rplus_le_compat; [apply Rmult_le_compat_l; [exact P0|lra]|]. apply Rle_trans with (h * 10); [apply Rmult_le_compat_l; lra|lra]. }
  assert (M3 : len s * len (psub (RV (vsub b a)) d) <= SDv * (2 * u) + 10 * h).
  { apply Rle_trans with (len s * (2 * (u * len d + h))); [apply Rmult_le_compat_l; assumption|].
    replace (len s * (2 * (u * len d + h))) with (SDv * (2 * u) + h * (2 * len s)) by (unfold SDv; ring). apply Rplus_le_compat_l. apply Rle_trans with (h * 10); [apply Rmult_le_compat_l; lra|lra]. }
  pose proof (len_tri (psub (RV (cross (vadd a b) (vsub b a))) (rcross (RV (vadd a b)) (RV (vsub b a)))) (psub (rcross (RV (vadd a b)) (RV (vsub b a))) N)) as T.
  replace (padd (psub (RV (cross (vadd a b) (vsub b a))) (rcross (RV (vadd a b)) (RV (vsub b a)))) (psub (rcross (RV (vadd a b)) (RV (vsub b a))) N)) with (psub (RV (cross (vadd a b) (vsub b a))) N) in T by (apply pos_eq; cbn; ring).
  eapply Rle_trans; [exact T|]. assert (u * (S' * D') <= u * (SDv * (1 + 5 * u) + 10 * h)) by (apply Rmult_le_compat_l; lra).
  apply Rle_trans with (5 * (u * (SDv * (1 + 5 * u) + 10 * h)) + 8 * h + (SDv * (2 * u + 5 * (u * u)) + 10 * h + (SDv * (2 * u) + 10 * h))); [lra|].
  apply Rle_trans with (10 * u * SDv + 64 * h); [lra|]. apply Rplus_le_compat_r, Rmult_le_compat_l; lra.
Qed.
