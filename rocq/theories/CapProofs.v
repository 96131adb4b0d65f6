(** Caps: distances of points and containment. *)
From Coq Require Import Reals Lra Lia Psatz Bool List.
From Flocq Require Import Core.
From Verif Require Import F64 F64Facts IntervalSpec F64Arith F64Error F64Neg R1Proofs S1Proofs VectorModel PredicatesError PredicatesFloat PredicatesSound
  StuvModel CapSpec CapModel StuvError ChordProofs.
Open Scope R_scope.

(** ** Squared distances are between 0 and 4, whatever the points *)
Definition nn (z : f64) : Prop := number z -> (0 <= rank z)%Z.
Lemma result_nn z r : result z r -> 0 <= r -> nn z.
Proof.
  intros R H N. pose proof (result_ge z r f0 R eq_refl H) as E. apply ev_rank in E; auto. reflexivity.
Qed.
Lemma nn_sq x : nn (fmul x x).
Proof.
  destruct (is_finite x) eqn:F.
  - apply (result_nn _ (B2R x * B2R x)); [apply fmul_result; exact F|]. pose proof (Rle_0_sqr (B2R x)). exact H.
  - destruct x as [s|s| |s m e B]; try discriminate F; intros N; [|discriminate N]. destruct s; vm_compute; discriminate.
Qed.
Lemma nn_add x y : nn x -> nn y -> nn (fadd x y).
Proof.
  intros Hx Hy. destruct (is_finite x) eqn:Fx; [destruct (is_finite y) eqn:Fy|].
  - apply (result_nn _ (B2R x + B2R y)); [apply fadd_result; assumption|].
    specialize (Hx (finite_number x Fx)). specialize (Hy (finite_number y Fy)). rewrite !rank_R by assumption.
    apply IZR_le in Hx, Hy. pose proof bpow_m1074_pos. nra.
  - destruct y as [s|s| |s m e B]; try discriminate Fy; intros N.
    + destruct s; [exfalso; specialize (Hy eq_refl); revert Hy; vm_compute; congruence|].
      destruct x; try discriminate Fx; vm_compute; discriminate.
    + exfalso. destruct x; try discriminate Fx; discriminate N.
  - destruct x as [s|s| |s m e B]; try discriminate Fx; intros N.
    + destruct s; [exfalso; specialize (Hx eq_refl); revert Hx; vm_compute; congruence|].
      destruct y as [t|t| |t m e B]; try (vm_compute; discriminate); try (exfalso; discriminate N).
      destruct t; [exfalso; discriminate N|vm_compute; discriminate].
    + exfalso. destruct y; discriminate N.
Qed.
Lemma nn_norm2 v : nn (norm2 v).
Proof. apply nn_add; [apply nn_add|]; apply nn_sq. Qed.
Lemma clip_range z : nn z -> finite (fmin c4 z) /\ 0 <= B2R (fmin c4 z) <= 4.
Proof.
  intros H. destruct c4_val as [F4 V4]. unfold fmin. rewrite (finite_number c4 F4). destruct (is_nan z) eqn:N; [rewrite V4; split; [exact F4|lra]|].
  specialize (H N). rewrite fle_rank by (unfold num; auto). destruct (Z.leb_spec (rank z) (rank c4)) as [L|L]; [|rewrite V4; split; [exact F4|lra]].
  assert (F : is_finite z = true).
  { destruct (nan_false_cases z N) as [(s & ->)|F]; auto. exfalso. revert H L. destruct s; vm_compute; intuition congruence. }
  split; [exact F|]. rewrite rank_R by auto. pose proof bpow_m1074_pos. apply IZR_le in H, L. rewrite <- V4, (rank_R c4) by exact F4. split.
  - apply Rmult_le_pos; lra.
  - apply Rmult_le_compat_r; lra.
Qed.
Lemma chordangle_range p q : finite (chordangle p q) /\ 0 <= B2R (chordangle p q) <= 4.
Proof. apply clip_range, nn_norm2. Qed.
Lemma fsub_self x : finite x -> finite (fsub x x) /\ B2R (fsub x x) = 0.
Proof.
  intros F. pose proof (fsub_result x x F F) as R. rewrite Rminus_eq_0 in R. destruct (result_exact _ _ f0 R eq_refl) as [G V]. auto.
Qed.
Lemma zero_sq (x : f64) : finite x -> B2R x = 0 -> finite (fmul x x) /\ B2R (fmul x x) = 0.
Proof.
  intros F V. pose proof (fmul_result x x F F) as R. rewrite V, Rmult_0_l in R. destruct (result_exact _ _ f0 R eq_refl) as [G W]. auto.
Qed.
Lemma zero_add (x y : f64) : finite x -> finite y -> B2R x = 0 -> B2R y = 0 -> finite (fadd x y) /\ B2R (fadd x y) = 0.
Proof.
  intros F G V W. pose proof (fadd_result x y F G) as R. rewrite V, W, Rplus_0_l in R. destruct (result_exact _ _ f0 R eq_refl) as [A B]. auto.
Qed.
Lemma chordangle_self p : fvec p -> B2R (chordangle p p) = 0.
Proof.
  intros (Fx & Fy & Fz). unfold chordangle, norm2, vsub, dot. cbn [vx vy vz].
  destruct (fsub_self _ Fx) as [F1 V1]. destruct (fsub_self _ Fy) as [F2 V2]. destruct (fsub_self _ Fz) as [F3 V3].
  destruct (zero_sq _ F1 V1) as [G1 W1]. destruct (zero_sq _ F2 V2) as [G2 W2]. destruct (zero_sq _ F3 V3) as [G3 W3].
  destruct (zero_add _ _ G1 G2 W1 W2) as [H1 U1]. destruct (zero_add _ _ H1 G3 U1 W3) as [H2 U2].
  destruct c4_val as [F4 V4]. destruct (fmin_R c4 _ F4 H2) as [_ ->]. rewrite U2, V4. apply Rmin_right. lra.
Qed.

(** ** Points *)
Definition radius_ok (c : cap) : Prop := finite (radius c) /\ B2R (radius c) <= 4.

Lemma empty_R c : finite (radius c) -> BoolSpec (B2R (radius c) < 0) (0 <= B2R (radius c)) (cap_is_empty c).
Proof.
  intros F. unfold cap_is_empty. destruct (flt_R (radius c) f0 F eq_refl) as [L|L]; change (B2R f0) with 0 in L; constructor; lra.
Qed.
Lemma full_R c : finite (radius c) -> BoolSpec (B2R (radius c) = 4) (B2R (radius c) <> 4) (cap_is_full c).
Proof.
  intros F. destruct c4_val as [F4 V4]. unfold cap_is_full, STRAIGHT. destruct (feq_R (radius c) c4 F F4) as [L|L]; rewrite V4 in L; constructor; auto.
Qed.

Lemma fle_g_true x y : number x -> number y -> fle x y = true <-> g x <= g y.
Proof. intros Nx Ny. destruct (fle_g x y Nx Ny); split; intros; auto; congruence. Qed.

Lemma add_point_contains c p : fvec p -> cap_contains_point (cap_add_point c p) p = true.
Proof.
  intros F. unfold cap_add_point. destruct (cap_is_empty c).
  - unfold cap_contains_point, cap_from_point. cbn [center radius]. destruct (chordangle_range p p) as [G _].
    destruct (fle_R (chordangle p p) f0 G eq_refl) as [L|L]; [reflexivity|]. rewrite chordangle_self in L by auto. change (B2R f0) with 0 in L. lra.
  - unfold cap_contains_point. cbn [center radius]. destruct (chordangle_range (center c) p) as [G _]. set (d := chordangle (center c) p) in *.
    pose proof (finite_number d G) as Nd. unfold fmax. rewrite Nd. destruct (is_nan (radius c)) eqn:N.
    + destruct (fle_R d d G G); [reflexivity|lra].
    + destruct (fle d (radius c)) eqn:E; [exact E|]. destruct (fle_R d d G G); [reflexivity|lra].
Qed.
Lemma add_point_keeps c p q : cap_contains_point c q = true -> cap_contains_point (cap_add_point c p) q = true.
Proof.
  unfold cap_contains_point. intros H. destruct (chordangle_range (center c) q) as [G B].
  assert (N : is_nan (radius c) = false).
  { destruct (is_nan (radius c)) eqn:N; auto. rewrite fle_nan in H by auto. discriminate. }
  unfold cap_add_point. destruct (cap_is_empty c) eqn:E.
  - exfalso. unfold cap_is_empty in E. rewrite flt_rank in E by (unfold num; auto). rewrite fle_rank in H by (unfold num; auto; apply finite_number, G).
    assert (0 <= rank (chordangle (center c) q))%Z.
    { apply (ev_rank f0 _ eq_refl (finite_number _ G)). rewrite (ev_fin _ G). change (ev f0) with (Fin 0). cbn [ele]. lra. }
    change (rank f0) with 0%Z in E. lia.
  - cbn [center radius]. destruct (chordangle_range (center c) p) as [G' _].
    pose proof (fmax_g (chordangle (center c) p) (radius c) (finite_number _ G') N) as [Nm Vm].
    apply fle_g_true; auto; [apply finite_number, G|]. rewrite Vm. apply fle_g_true in H; auto; [|apply finite_number, G].
    eapply Rle_trans; [exact H|]. apply Rmax_r.
Qed.

(** ** Sums of chord angles: units and commutativity *)
Lemma chord_add_zero_r (a b : f64) : finite b -> B2R b = 0 -> chord_add a b = a.
Proof. intros F V. unfold chord_add. rewrite (proj2 (feq_0 b F) V). reflexivity. Qed.
Lemma mul_zero (x y : f64) : finite x -> finite y -> B2R x * B2R y = 0 -> finite (fmul x y) /\ B2R (fmul x y) = 0.
Proof. intros Fx Fy E. pose proof (fmul_result x y Fx Fy) as R. rewrite E in R. destruct (result_exact _ _ f0 R eq_refl) as [G W]. auto. Qed.
Lemma chord_add_zero_l (a b : f64) : finite a -> finite b -> B2R a = 0 -> 0 <= B2R b <= 4 ->
  finite (chord_add a b) /\ B2R (chord_add a b) = B2R b.
Proof.
  intros Fa Fb Va Bb. destruct c4_val as [F4 V4]. destruct quarter_val as [Fq Vq]. destruct f1_val as [F1 V1]. destruct f2_val as [F2 V2].
  unfold chord_add, fge, STRAIGHT. destruct (feq_R b f0 Fb eq_refl) as [E|E]; change (B2R f0) with 0 in E.
  { rewrite E, Va. auto. }
  pose proof (fadd_result a b Fa Fb) as R. rewrite Va, Rplus_0_l in R. destruct (result_exact _ _ b R eq_refl) as [Fs Vs].
  destruct (fle_R c4 (fadd a b) F4 Fs) as [L|L]; rewrite V4, Vs in L; [rewrite V4; split; [exact F4|lra]|].
  destruct (part_err a b Fa Fb ltac:(lra) Bb) as (Fx & _ & _ & _). cbv zeta in Fx. destruct (part_err b a Fb Fa Bb ltac:(lra)) as (Fy & _ & _ & _). cbv zeta in Fy.
  destruct (mul_zero quarter a Fq Fa ltac:(rewrite Va; ring)) as [Fqa Vqa].
  pose proof (fsub_result f1 _ F1 Fqa) as R1. rewrite Vqa, Rminus_0_r in R1. destruct (result_exact _ _ f1 R1 eq_refl) as [F1a V1a]. rewrite V1 in V1a.
  pose proof (fmul_result b _ Fb F1a) as R2. rewrite V1a, Rmult_1_r in R2. destruct (result_exact _ _ b R2 eq_refl) as [Fb' Vb'].
  assert (Vx : B2R (fmul a (fsub f1 (fmul quarter b))) = 0).
  { destruct (is_finite (fsub f1 (fmul quarter b))) eqn:G.
    - apply mul_zero; auto. rewrite Va. ring.
    - exfalso. revert Fx. unfold finite in *. destruct a as [s|s| |s m e H]; try discriminate Fa; destruct (fsub f1 (fmul quarter b)) as [t|t| |t m' e' H']; try discriminate G; discriminate. }
  set (x := fmul a _) in *. set (y := fmul b _) in *.
  pose proof (fadd_result x y Fx Fb') as R3. rewrite Vx, Rplus_0_l, Vb' in R3. destruct (result_exact _ _ b R3 eq_refl) as [Fxy Vxy].
  destruct (mul_zero x y Fx Fb' ltac:(rewrite Vx; ring)) as [Fm Vm].
  destruct (fsqrt_val _ Fm ltac:(lra)) as [Fsq Vsq]. rewrite Vm, sqrt_0, rnd_0 in Vsq.
  destruct (mul_zero f2 _ F2 Fsq ltac:(rewrite Vsq; ring)) as [Fr Vr].
  pose proof (fadd_result _ _ Fxy Fr) as R4. rewrite Vxy, Vr, Rplus_0_r in R4. destruct (result_exact _ _ b R4 eq_refl) as [Fz Vz].
  destruct (fmin_R c4 _ F4 Fz) as [Fn ->]. split; [exact Fn|]. rewrite V4, Vz. apply Rmin_right. lra.
Qed.
Lemma same_B2R x y : same x y -> B2R x = B2R y.
Proof. intros [->|[A B]]; [reflexivity|]. destruct x, y; try discriminate; reflexivity. Qed.
Lemma same_finite x y : same x y -> finite x -> finite y.
Proof. intros [->|[A B]] F; [exact F|]. destruct y; try discriminate; reflexivity. Qed.
Lemma chord_add_comm (a b : f64) : finite a -> finite b -> 0 <= B2R a <= 4 -> 0 <= B2R b <= 4 ->
  B2R (chord_add a b) = B2R (chord_add b a).
Proof.
  intros Fa Fb Ba Bb. destruct (Req_dec (B2R a) 0) as [Za|Za].
  { rewrite (chord_add_zero_r b a Fa Za). apply chord_add_zero_l; auto. }
  destruct (Req_dec (B2R b) 0) as [Zb|Zb].
  { rewrite (chord_add_zero_r a b Fb Zb). symmetry. apply chord_add_zero_l; auto. }
  destruct c4_val as [F4 V4]. unfold chord_add, fge, STRAIGHT.
  destruct (feq_R b f0 Fb eq_refl) as [E|_]; [contradiction|]. destruct (feq_R a f0 Fa eq_refl) as [E|_]; [contradiction|].
  pose proof (fadd_result a b Fa Fb) as R.
  destruct (result_half _ _ 3 ltac:(lia) R) as (Fs & Vs & _); [change (pow2 3) with 8; apply Rabs_le; lra|].
  pose proof (fadd_comm a b) as C. pose proof (same_finite _ _ C Fs) as Fs'. pose proof (same_B2R _ _ C) as CV.
  destruct (fle_R c4 (fadd a b) F4 Fs) as [L|L]; destruct (fle_R c4 (fadd b a) F4 Fs') as [L'|L']; try lra. clear L L'.
  destruct (part_err a b Fa Fb Ba Bb) as (Fx & BX & Bx & Ex). destruct (part_err b a Fb Fa Bb Ba) as (Fy & BY & By & Ey). cbv zeta in *.
  destruct (combine _ _ _ _ Fx Fy BX BY Bx By Ex Ey) as (Fxy & Fr & Bxy & Br & _). destruct (combine _ _ _ _ Fy Fx BY BX By Bx Ey Ex) as (Fyx & Fr' & Byx & Br' & _). cbv zeta in *.
  set (x := fmul a _) in *. set (y := fmul b _) in *.
  assert (E1 : B2R (fadd x y) = B2R (fadd y x)) by (apply same_B2R, fadd_comm).
  assert (E2 : B2R (fmul f2 (fsqrt (fmul x y))) = B2R (fmul f2 (fsqrt (fmul y x)))).
  { apply same_B2R. pose proof (fmul_comm x y) as [->|[A B]]; [left; reflexivity|].
    apply (fmul_same f2 f2); [apply same_refl|]. destruct (fmul x y), (fmul y x); try discriminate. right. split; reflexivity. }
  pose proof (fadd_result _ _ Fxy Fr) as R1. pose proof (fadd_result _ _ Fyx Fr') as R2. rewrite <- E1, <- E2 in R2.
  pose proof (result_same _ _ _ R1 R2) as SM.
  destruct (result_rel _ _ R1) as (Fz & _); [rewrite Rabs_pos_eq by lra; apply big_1000; lra|].
  destruct (fmin_R c4 _ F4 Fz) as [_ ->]. destruct (fmin_R c4 _ F4 (same_finite _ _ SM Fz)) as [_ ->]. rewrite (same_B2R _ _ SM). reflexivity.
Qed.

(** ** Containment of caps *)
Lemma contains_center c : fvec (center c) -> finite (radius c) -> 0 <= B2R (radius c) -> cap_contains_point c (center c) = true.
Proof.
  intros F Fr B. unfold cap_contains_point. destruct (chordangle_range (center c) (center c)) as [G _].
  destruct (fle_R _ _ G Fr) as [L|L]; [reflexivity|]. rewrite chordangle_self in L by auto. lra.
Qed.
Lemma contains_wider a r : fvec (center a) -> finite (radius a) -> B2R (radius a) <= 4 -> number r -> fle (radius a) r = true ->
  cap_contains (Cap (center a) r) a = true.
Proof.
  intros F Fr B Nr L. unfold cap_contains. destruct (cap_is_full (Cap (center a) r)) eqn:E; [reflexivity|].
  destruct (empty_R a Fr) as [N|N]; [reflexivity|]. cbn [orb]. unfold fge. cbn [radius center].
  destruct (chordangle_range (center a) (center a)) as [G _].
  destruct (chord_add_zero_l _ _ G Fr (chordangle_self _ F) ltac:(lra)) as [Fs Vs].
  apply fle_g_true; auto; [apply finite_number, Fs|]. apply fle_g_true in L; auto; [|apply finite_number, Fr].
  eapply Rle_trans; [|exact L]. unfold g. rewrite (ev_fin _ Fs), (ev_fin _ Fr), Vs. lra.
Qed.
Lemma fle_refl x : number x -> fle x x = true.
Proof. intros N. apply fle_g_true; auto. lra. Qed.
Lemma contains_refl a : fvec (center a) -> finite (radius a) -> B2R (radius a) <= 4 -> cap_contains a a = true.
Proof.
  intros F Fr B. destruct a as [c r]. apply (contains_wider (Cap c r) r); auto; [apply finite_number, Fr|apply fle_refl, finite_number, Fr].
Qed.
Lemma expanded_up d e : finite d -> finite e -> 0 <= B2R d <= 4 -> 0 <= B2R e <= 4 ->
  finite (chord_expanded d e) /\ B2R d <= B2R (chord_expanded d e) <= 4.
Proof.
  intros Fd Fe Bd Be. destruct c4_val as [F4 V4]. destruct f0_val as [F0 V0]. unfold chord_expanded, chord_is_special.
  destruct (flt_R d f0 Fd F0) as [L|L]; [lra|]. assert (is_infinite d = false) as -> by (destruct d; try discriminate Fd; reflexivity). cbn [orb].
  pose proof (fadd_result d e Fd Fe) as R. destruct (result_half _ _ 3 ltac:(lia) R) as (Fs & Vs & _); [change (pow2 3) with 8; apply Rabs_le; lra|].
  assert (LOW : B2R d <= B2R (fadd d e)). { rewrite Vs. apply (rnd_lower d); [reflexivity|lra]. }
  destruct (fmin_R c4 _ F4 Fs) as [Fm Vm]. destruct (fmax_R f0 _ F0 Fm) as [Fx Vx]. split; [exact Fx|]. rewrite Vx, Vm, V0, V4.
  assert (B2R d <= Rmin 4 (B2R (fadd d e)) <= 4) by (split; [apply Rmin_glb; lra|apply Rmin_l]). rewrite Rmax_right; lra.
Qed.
Lemma DBL_EPSILON_val : finite DBL_EPSILON /\ B2R DBL_EPSILON = / 4503599627370496.
Proof. destruct (lit_val 1 (-52) ltac:(lia) ltac:(lia)) as [F V]. split; [exact F|]. unfold DBL_EPSILON. rewrite V. change (bpow radix2 (-52)) with (/ 4503599627370496). lra. Qed.
Lemma cap_add_radius a b : finite (radius b) -> 0 <= B2R (radius b) <= 4 ->
  let dist := chord_add (chordangle (center a) (center b)) (radius b) in
  finite dist /\ 0 <= B2R dist <= 4 /\ finite (chord_expanded dist (fmul DBL_EPSILON dist)) /\
  B2R dist <= B2R (chord_expanded dist (fmul DBL_EPSILON dist)) <= 4.
Proof.
  intros Fb Bb. cbv zeta. destruct (chordangle_range (center a) (center b)) as [G B].
  destruct (chord_add_err _ _ G Fb B Bb) as (Fd & Bd & _). set (d := chord_add _ _) in *. split; [exact Fd|]. split; [exact Bd|].
  destruct DBL_EPSILON_val as [Fe Ve]. pose proof (fmul_result _ _ Fe Fd) as R.
  assert (P : 0 <= B2R DBL_EPSILON * B2R d <= 4 / 4503599627370496) by (rewrite Ve; lra).
  destruct (result_rel _ _ R) as (Fm & Vm & Em); [rewrite Rabs_pos_eq by lra; apply big_1000; lra|].
  apply expanded_up; auto. split; [rewrite Vm; apply rnd_nonneg; lra|].
  rewrite (Rabs_pos_eq (B2R DBL_EPSILON * B2R d)) in Em by lra. pose proof mu_small. apply Rabs_le_inv in Em. lra.
Qed.
Lemma add_contains_other a b : fvec (center b) -> finite (radius b) -> B2R (radius b) <= 4 -> cap_contains (cap_add a b) b = true.
Proof.
  intros Fv Fb Bb. unfold cap_add. destruct (cap_is_empty a) eqn:EA; [apply contains_refl; auto|].
  unfold cap_contains. destruct (empty_R b Fb) as [N|N]; [rewrite orb_true_r; reflexivity|].
  rewrite orb_false_r. destruct (cap_is_full _); [reflexivity|]. cbn [center radius]. cbv zeta.
  destruct (cap_add_radius a b Fb ltac:(lra)) as (Fd & Bd & Fx & Bx). cbv zeta in *.
  set (d := chord_add _ _) in *. set (x := chord_expanded _ _) in *. unfold fge.
  destruct (is_nan (radius a)) eqn:N1.
  - unfold fmax. rewrite (finite_number x Fx), N1. destruct (fle_R d x Fd Fx); [reflexivity|lra].
  - destruct (fmax_g x (radius a) (finite_number _ Fx) N1) as [Nm Vm]. apply fle_g_true; auto; [apply finite_number, Fd|]. rewrite Vm.
    eapply Rle_trans; [|apply Rmax_l]. apply fle_g_true; [apply finite_number, Fd|apply finite_number, Fx|]. destruct (fle_R d x Fd Fx); [reflexivity|lra].
Qed.
Lemma add_radius_le a b : number (radius a) -> cap_is_empty a = false -> number (radius b) -> B2R (radius b) <= 4 -> finite (radius b) ->
  center (cap_add a b) = center a /\ number (radius (cap_add a b)) /\ fle (radius a) (radius (cap_add a b)) = true.
Proof.
  intros Na EA Nb Bb Fb. unfold cap_add. rewrite EA. destruct (empty_R b Fb) as [N|N]; [split; [reflexivity|split; [exact Na|apply fle_refl; auto]]|].
  cbn [center radius]. cbv zeta. destruct (cap_add_radius a b Fb ltac:(lra)) as (Fd & Bd & Fx & Bx). cbv zeta in *.
  set (x := chord_expanded _ _) in *. destruct (fmax_g x (radius a) (finite_number _ Fx) Na) as [Nm Vm]. split; [reflexivity|]. split; [exact Nm|].
  apply fle_g_true; auto. rewrite Vm. apply Rmax_r.
Qed.
Lemma add_contains_self a b : fvec (center a) -> finite (radius a) -> B2R (radius a) <= 4 -> finite (radius b) -> B2R (radius b) <= 4 ->
  cap_contains (cap_add a b) a = true.
Proof.
  intros Fv Fa Ba Fb Bb. destruct (cap_is_empty a) eqn:EA.
  { unfold cap_contains. rewrite EA, orb_true_r. reflexivity. }
  destruct (add_radius_le a b (finite_number _ Fa) EA (finite_number _ Fb) Bb Fb) as (C & N & L).
  destruct (cap_add a b) as [c r]. cbn [center radius] in *. subst c. apply contains_wider; auto.
Qed.
Lemma empty_no_point c p : cap_is_empty c = true -> cap_contains_point c p = false.
Proof.
  intros E. unfold cap_contains_point. destruct (fle _ _) eqn:L; [|reflexivity]. exfalso. destruct (chordangle_range (center c) p) as [G B].
  assert (N : is_nan (radius c) = false) by (destruct (is_nan (radius c)) eqn:N; auto; rewrite fle_nan in L by auto; discriminate).
  unfold cap_is_empty in E. rewrite flt_rank in E by (unfold num; auto). rewrite fle_rank in L by (unfold num; auto; apply finite_number, G).
  assert (0 <= rank (chordangle (center c) p))%Z.
  { apply (ev_rank f0 _ eq_refl (finite_number _ G)). rewrite (ev_fin _ G). change (ev f0) with (Fin 0). cbn [ele]. lra. }
  change (rank f0) with 0%Z in E. lia.
Qed.
Lemma full_all_points c p : cap_is_full c = true -> cap_contains_point c p = true.
Proof.
  intros E. unfold cap_contains_point. destruct (chordangle_range (center c) p) as [G B]. destruct c4_val as [F4 V4].
  assert (F : finite (radius c)).
  { unfold cap_is_full, STRAIGHT in E. unfold finite. destruct (radius c) as [s|[]| |s m e H]; try reflexivity; discriminate E. }
  destruct (full_R c F) as [V|V]; [|discriminate E]. destruct (fle_R _ _ G F); [reflexivity|lra].
Qed.
Lemma add_keeps a b q : finite (radius b) -> B2R (radius b) <= 4 -> cap_contains_point a q = true -> cap_contains_point (cap_add a b) q = true.
Proof.
  intros Fb Bb H. destruct (cap_is_empty a) eqn:EA; [rewrite empty_no_point in H by auto; discriminate|].
  assert (N : is_nan (radius a) = false).
  { destruct (is_nan (radius a)) eqn:N; auto. unfold cap_contains_point in H. rewrite fle_nan in H by auto. discriminate. }
  destruct (add_radius_le a b N EA (finite_number _ Fb) Bb Fb) as (C & N' & L). unfold cap_contains_point in *. rewrite C.
  destruct (chordangle_range (center a) q) as [G _]. apply fle_g_true; auto; [apply finite_number, G|].
  apply fle_g_true in H; auto; [|apply finite_number, G]. apply fle_g_true in L; auto. lra.
Qed.
