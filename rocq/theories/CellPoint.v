(** From points to cells and back. *)
From Coq Require Import Reals Lra Lia.
From Flocq Require Import Core.
From Verif Require Import Base Spec F64 F64Facts IntervalSpec F64Arith F64Error S1Proofs R1Model VectorModel StuvModel
  CellIdModel CellIdArith HilbertModel HilbertSpec HilbertGeom NeighborModel NeighborProofs
  CellSpec CellModel StuvError CellLattice CellProofs.
Open Scope R_scope.

Definition fin3 (p : vec) : Prop := finite (vx p) /\ finite (vy p) /\ finite (vz p).

(** ** The face of a point *)
Lemma face_bounds p : (0 <= StuvModel.face p < 6)%Z.
Proof.
  unfold StuvModel.face, vabs. cbn [vx vy vz]. destruct (fgt (fabs (vy p)) (fabs (vx p)));
  match goal with |- context [fgt ?a ?b] => destruct (fgt a b) end;
  match goal with |- context [flt ?a ?b] => destruct (flt a b) end; lia.
Qed.
Lemma face_zero_cases f : (0 <= f < 6)%Z -> f = 0%Z \/ f = 1%Z \/ f = 2%Z \/ f = 3%Z \/ f = 4%Z \/ f = 5%Z.
Proof. lia. Qed.
Lemma valid_face_some f p : (0 <= f < 6)%Z -> exists u v, valid_face_xyz_to_uv f p = Some (u, v).
Proof. intros H. destruct (face_zero_cases f H) as [-> | [-> | [-> | [-> | [-> | ->]]]]]; cbn; eauto. Qed.

Lemma face_major p : num (vx p) -> num (vy p) -> num (vz p) ->
  let f := StuvModel.face p in
  fle (fabs (vx p)) (fabs (axis_comp f p)) = true /\ fle (fabs (vy p)) (fabs (axis_comp f p)) = true /\
  fle (fabs (vz p)) (fabs (axis_comp f p)) = true /\
  (if (f <? 3)%Z then fle f0 (axis_comp f p) else flt (axis_comp f p) f0) = true.
Proof.
  intros Nx Ny Nz. assert (N0 : num f0) by reflexivity. assert (R0 : rank f0 = 0%Z) by reflexivity.
  destruct (fabs_num _ Nx) as [Ax Rx]. destruct (fabs_num _ Ny) as [Ay Ry]. destruct (fabs_num _ Nz) as [Az Rz].
  assert (G : forall f c, axis_comp f p = c -> num c -> num (fabs c) -> rank (fabs c) = Z.abs (rank c) ->
    (Z.abs (rank (vx p)) <= Z.abs (rank c) /\ Z.abs (rank (vy p)) <= Z.abs (rank c) /\ Z.abs (rank (vz p)) <= Z.abs (rank c))%Z ->
    (if f <? 3 then 0 <= rank c else rank c < 0)%Z ->
    fle (fabs (vx p)) (fabs (axis_comp f p)) = true /\ fle (fabs (vy p)) (fabs (axis_comp f p)) = true /\
    fle (fabs (vz p)) (fabs (axis_comp f p)) = true /\
    (if (f <? 3)%Z then fle f0 (axis_comp f p) else flt (axis_comp f p) f0) = true).
  { intros f c E Nc Ac Rc (L1 & L2 & L3) S. rewrite E. rewrite !fle_rank, Rx, Ry, Rz, Rc, flt_rank, R0, !Z.leb_le by auto.
    split; [exact L1|]. split; [exact L2|]. split; [exact L3|]. destruct (f <? 3)%Z; [apply Z.leb_le|apply Z.ltb_lt]; exact S. }
  unfold StuvModel.face, vabs, fgt. cbn [vx vy vz]. cbv zeta.
  rewrite (flt_rank _ _ Ax Ay), Rx, Ry.
  destruct (Z.ltb_spec (Z.abs (rank (vx p))) (Z.abs (rank (vy p)))).
  - rewrite (flt_rank _ _ Ay Az), Ry, Rz. destruct (Z.ltb_spec (Z.abs (rank (vy p))) (Z.abs (rank (vz p)))).
    + rewrite (flt_rank _ _ Nz N0), R0. destruct (Z.ltb_spec (rank (vz p)) 0); apply (G _ (vz p)); auto; try reflexivity; try lia; cbn; lia.
    + rewrite (flt_rank _ _ Ny N0), R0. destruct (Z.ltb_spec (rank (vy p)) 0); apply (G _ (vy p)); auto; try reflexivity; try lia; cbn; lia.
  - rewrite (flt_rank _ _ Ax Az), Rx, Rz. destruct (Z.ltb_spec (Z.abs (rank (vx p))) (Z.abs (rank (vz p)))).
    + rewrite (flt_rank _ _ Nz N0), R0. destruct (Z.ltb_spec (rank (vz p)) 0); apply (G _ (vz p)); auto; try reflexivity; try lia; cbn; lia.
    + rewrite (flt_rank _ _ Nx N0), R0. destruct (Z.ltb_spec (rank (vx p)) 0); apply (G _ (vx p)); auto; try reflexivity; try lia; cbn; lia.
Qed.

(* the face when one component is strictly the largest *)
Lemma face_unique p f : fin3 p -> (0 <= f < 6)%Z ->
  ((f mod 3)%Z <> 0%Z -> Rabs (B2R (vx p)) < Rabs (B2R (axis_comp f p))) ->
  ((f mod 3)%Z <> 1%Z -> Rabs (B2R (vy p)) < Rabs (B2R (axis_comp f p))) ->
  ((f mod 3)%Z <> 2%Z -> Rabs (B2R (vz p)) < Rabs (B2R (axis_comp f p))) ->
  (if (f <? 3)%Z then 0 < B2R (axis_comp f p) else B2R (axis_comp f p) < 0) -> StuvModel.face p = f.
Proof.
  intros (Fx & Fy & Fz) Hf Hx Hy Hz S. destruct (fabs_val _ Fx) as [Ax Vx]. destruct (fabs_val _ Fy) as [Ay Vy]. destruct (fabs_val _ Fz) as [Az Vz].
  assert (F0 : finite f0) by reflexivity. assert (V0 : B2R f0 = 0) by reflexivity.
  unfold StuvModel.face, vabs, fgt. cbn [vx vy vz].
  assert (CC : forall n, n = 0%Z \/ n = 3%Z -> f = n -> Rabs (B2R (vy p)) < Rabs (B2R (vx p)) /\ Rabs (B2R (vz p)) < Rabs (B2R (vx p)) /\ axis_comp f p = vx p).
  { intros n [-> | ->] ->; (split; [apply Hy; discriminate|split; [apply Hz; discriminate|reflexivity]]). }
  assert (CC' : forall n, n = 1%Z \/ n = 4%Z -> f = n -> Rabs (B2R (vx p)) < Rabs (B2R (vy p)) /\ Rabs (B2R (vz p)) < Rabs (B2R (vy p)) /\ axis_comp f p = vy p).
  { intros n [-> | ->] ->; (split; [apply Hx; discriminate|split; [apply Hz; discriminate|reflexivity]]). }
  assert (CC'' : forall n, n = 2%Z \/ n = 5%Z -> f = n -> Rabs (B2R (vx p)) < Rabs (B2R (vz p)) /\ Rabs (B2R (vy p)) < Rabs (B2R (vz p)) /\ axis_comp f p = vz p).
  { intros n [-> | ->] ->; (split; [apply Hx; discriminate|split; [apply Hy; discriminate|reflexivity]]). }
  destruct (face_zero_cases f Hf) as [E | [E | [E | [E | [E | E]]]]].
  - destruct (CC 0%Z ltac:(auto) E) as (L1 & L2 & A). rewrite A in S. subst f. cbn [Z.ltb Z.compare Pos.compare Pos.compare_cont] in S.
    destruct (flt_R _ _ Ax Ay); [lra|]. destruct (flt_R _ _ Ax Az); [lra|]. destruct (flt_R _ _ Fx F0); [lra|reflexivity].
  - destruct (CC' 1%Z ltac:(auto) E) as (L1 & L2 & A). rewrite A in S. subst f. cbn [Z.ltb Z.compare Pos.compare Pos.compare_cont] in S.
    destruct (flt_R _ _ Ax Ay); [|lra]. destruct (flt_R _ _ Ay Az); [lra|]. destruct (flt_R _ _ Fy F0); [lra|reflexivity].
  - destruct (CC'' 2%Z ltac:(auto) E) as (L1 & L2 & A). rewrite A in S. subst f. cbn [Z.ltb Z.compare Pos.compare Pos.compare_cont] in S.
    destruct (flt_R _ _ Ax Ay); [destruct (flt_R _ _ Ay Az)|destruct (flt_R _ _ Ax Az)]; try lra; (destruct (flt_R _ _ Fz F0); [lra|reflexivity]).
  - destruct (CC 3%Z ltac:(auto) E) as (L1 & L2 & A). rewrite A in S. subst f. cbn [Z.ltb Z.compare Pos.compare Pos.compare_cont] in S.
    destruct (flt_R _ _ Ax Ay); [lra|]. destruct (flt_R _ _ Ax Az); [lra|]. destruct (flt_R _ _ Fx F0); [reflexivity|lra].
  - destruct (CC' 4%Z ltac:(auto) E) as (L1 & L2 & A). rewrite A in S. subst f. cbn [Z.ltb Z.compare Pos.compare Pos.compare_cont] in S.
    destruct (flt_R _ _ Ax Ay); [|lra]. destruct (flt_R _ _ Ay Az); [lra|]. destruct (flt_R _ _ Fy F0); [reflexivity|lra].
  - destruct (CC'' 5%Z ltac:(auto) E) as (L1 & L2 & A). rewrite A in S. subst f. cbn [Z.ltb Z.compare Pos.compare Pos.compare_cont] in S.
    destruct (flt_R _ _ Ax Ay); [destruct (flt_R _ _ Ay Az)|destruct (flt_R _ _ Ax Az)]; try lra; (destruct (flt_R _ _ Fz F0); [reflexivity|lra]).
Qed.

(** ** The (u,v) coordinates *)
Lemma quotient (x y : f64) : finite x -> finite y -> B2R y <> 0 -> Rabs (B2R x) <= Rabs (B2R y) ->
  finite (fdiv x y) /\ B2R (fdiv x y) = rnd (B2R x / B2R y) /\ -1 <= B2R (fdiv x y) <= 1.
Proof.
  intros Fx Fy N L. pose proof (fdiv_result x y Fx Fy N) as R. destruct f1_val as [F1 V1]. destruct (fneg_val f1 F1) as [Fn Vn].
  assert (B : Rabs (B2R x / B2R y) <= 1).
  { unfold Rdiv. rewrite Rabs_mult, Rabs_inv. apply (Rmult_le_reg_r (Rabs (B2R y))); [apply Rabs_pos_lt, N|].
    rewrite Rmult_assoc, Rinv_l, Rmult_1_r, Rmult_1_l; [exact L|]. apply Rabs_no_R0, N. }
  destruct (result_half _ _ 0 ltac:(lia) R) as (F & V & _); [exact B|]. split; [exact F|]. split; [exact V|]. rewrite V. apply Rabs_le_inv in B.
  split; [apply (rnd_lower (fneg f1)); lra|apply (rnd_upper f1); lra].
Qed.
Definition nonzero (p : vec) : Prop := B2R (vx p) <> 0 \/ B2R (vy p) <> 0 \/ B2R (vz p) <> 0.

Lemma fin_num x : finite x -> num x.
Proof. unfold finite, num. destruct x; auto; discriminate. Qed.
Lemma xyz_uv p : fin3 p -> nonzero p -> exists u v : f64, xyz_to_face_uv p = Some (StuvModel.face p, u, v) /\ finite u /\ finite v /\ -1 <= B2R u <= 1 /\ -1 <= B2R v <= 1 /\
  face_xyz_to_uv (StuvModel.face p) p = Some (Some (u, v)).
Proof.
  intros (Fx & Fy & Fz) NZ. destruct (face_major p (fin_num _ Fx) (fin_num _ Fy) (fin_num _ Fz)) as (Mx & My & Mz & S).
  pose proof (face_bounds p) as Hf. set (f := StuvModel.face p) in *.
  destruct (fabs_val _ Fx) as [Ax Vx]. destruct (fabs_val _ Fy) as [Ay Vy]. destruct (fabs_val _ Fz) as [Az Vz].
  assert (Fc : finite (axis_comp f p)). { unfold axis_comp. destruct (f mod 3 =? 0)%Z; [exact Fx|]. destruct (f mod 3 =? 1)%Z; [exact Fy|exact Fz]. }
  destruct (fabs_val _ Fc) as [Ac Vc].
  assert (Bx : Rabs (B2R (vx p)) <= Rabs (B2R (axis_comp f p))) by (revert Mx; destruct (fle_R _ _ Ax Ac) as [G|G]; [rewrite Vx, Vc in G; auto|discriminate]).
  assert (By : Rabs (B2R (vy p)) <= Rabs (B2R (axis_comp f p))) by (revert My; destruct (fle_R _ _ Ay Ac) as [G|G]; [rewrite Vy, Vc in G; auto|discriminate]).
  assert (Bz : Rabs (B2R (vz p)) <= Rabs (B2R (axis_comp f p))) by (revert Mz; destruct (fle_R _ _ Az Ac) as [G|G]; [rewrite Vz, Vc in G; auto|discriminate]).
  assert (NC : B2R (axis_comp f p) <> 0).
  { intros E. rewrite E, Rabs_R0 in *. pose proof (Rabs_pos (B2R (vx p))). pose proof (Rabs_pos (B2R (vy p))). pose proof (Rabs_pos (B2R (vz p))).
    destruct NZ as [N|[N|N]]; apply Rabs_pos_lt in N; lra. }
  assert (SS : if (f <? 3)%Z then 0 < B2R (axis_comp f p) else B2R (axis_comp f p) < 0).
  { destruct (f <? 3)%Z.
    - revert S. destruct (fle_R f0 _ eq_refl Fc) as [G|G]; [|discriminate]. change (B2R f0) with 0 in G. intros _. lra.
    - revert S. destruct (flt_R _ f0 Fc eq_refl) as [G|G]; [|discriminate]. intros _. exact G. }
  clear Mx My Mz S. destruct (fneg_val _ Fx) as [Fnx Vnx]. destruct (fneg_val _ Fy) as [Fny Vny].
  assert (Bnx : Rabs (B2R (fneg (vx p))) <= Rabs (B2R (axis_comp f p))) by (rewrite Vnx, Rabs_Ropp; exact Bx).
  assert (Bny : Rabs (B2R (fneg (vy p))) <= Rabs (B2R (axis_comp f p))) by (rewrite Vny, Rabs_Ropp; exact By).
  assert (Q : exists u v : f64, valid_face_xyz_to_uv f p = Some (u, v) /\ finite u /\ finite v /\ -1 <= B2R u <= 1 /\ -1 <= B2R v <= 1).
  { unfold valid_face_xyz_to_uv. destruct (face_zero_cases f Hf) as [E | [E | [E | [E | [E | E]]]]]; rewrite E in *; cbn [Z.eqb Pos.eqb];
    unfold axis_comp in *; cbn [Z.modulo Z.div_eucl Z.eqb Z.pos_div_eucl Z.leb Z.compare Pos.compare Pos.compare_cont Z.add Z.mul Z.sub Z.pos_sub Pos.eqb] in *;
    (eexists; eexists; split; [reflexivity|]; split; [|split; [|split]]; apply quotient; assumption). }
  destruct Q as (u & v & E & Q). exists u, v. unfold xyz_to_face_uv. fold f. rewrite E. split; [reflexivity|].
  destruct Q as (Q1 & Q2 & Q3 & Q4). repeat (split; [assumption|]).
  unfold face_xyz_to_uv. rewrite E. unfold fge.
  assert (P : forall c, finite c -> 0 < B2R c -> fle c f0 = false).
  { intros c F L. destruct (fle_R c f0 F eq_refl) as [G|G]; [change (B2R f0) with 0 in G; lra|reflexivity]. }
  assert (P' : forall c, finite c -> B2R c < 0 -> fle f0 c = false).
  { intros c F L. destruct (fle_R f0 c eq_refl F) as [G|G]; [change (B2R f0) with 0 in G; lra|reflexivity]. }
  destruct (face_zero_cases f Hf) as [E' | [E' | [E' | [E' | [E' | E']]]]]; rewrite E' in *; cbn [Z.eqb Pos.eqb];
    change (axis_comp 0 p) with (vx p) in *; change (axis_comp 1 p) with (vy p) in *; change (axis_comp 2 p) with (vz p) in *;
    change (axis_comp 3 p) with (vx p) in *; change (axis_comp 4 p) with (vy p) in *; change (axis_comp 5 p) with (vz p) in *;
    cbn [Z.ltb Z.compare Pos.compare Pos.compare_cont] in SS; first [rewrite P by assumption | rewrite P' by assumption]; reflexivity.
Qed.

(** ** Normalising a point of the cube *)
Definition cube_pt (r : vec) : Prop := fin3 r /\
  Rabs (B2R (vx r)) <= 1 /\ Rabs (B2R (vy r)) <= 1 /\ Rabs (B2R (vz r)) <= 1 /\
  (Rabs (B2R (vx r)) = 1 \/ Rabs (B2R (vy r)) = 1 \/ Rabs (B2R (vz r)) = 1).

Lemma square_val (x : f64) : finite x -> Rabs (B2R x) <= 1 ->
  finite (fmul x x) /\ 0 <= B2R (fmul x x) <= 1 /\ (Rabs (B2R x) = 1 -> B2R (fmul x x) = 1).
Proof.
  intros F B. pose proof (fmul_result x x F F) as R. destruct f1_val as [F1 V1].
  assert (S : B2R x * B2R x = Rabs (B2R x) * Rabs (B2R x)) by (unfold Rabs; destruct (Rcase_abs _); ring).
  pose proof (Rabs_pos (B2R x)) as P. assert (L : 0 <= B2R x * B2R x <= 1) by (rewrite S; nra).
  destruct (result_half _ _ 0 ltac:(lia) R) as (Fz & V & _); [rewrite Rabs_pos_eq; apply L|].
  split; [exact Fz|]. rewrite V. split; [split; [rewrite <- rnd_0; apply rnd_le; lra|apply (rnd_upper f1); lra]|].
  intros E. rewrite S, E. replace (1 * 1) with (B2R f1) by lra. rewrite rnd_fix. exact V1.
Qed.
Lemma f2_val : finite f2 /\ B2R f2 = 2. Proof. exact (of_int_val 2 ltac:(lia)). Qed.
Lemma norm_range r : cube_pt r -> finite (norm r) /\ 1 <= B2R (norm r) <= 7 / 4.
Proof.
  intros ((Fx & Fy & Fz) & Bx & By & Bz & O). destruct f1_val as [F1 V1]. destruct f2_val as [F2 V2]. destruct f3_val as [F3 V3].
  destruct (square_val _ Fx Bx) as (Gx & Sx & Ox). destruct (square_val _ Fy By) as (Gy & Sy & Oy). destruct (square_val _ Fz Bz) as (Gz & Sz & Oz).
  unfold norm, norm2, dot. set (a := fmul (vx r) (vx r)) in *. set (b := fmul (vy r) (vy r)) in *. set (d := fmul (vz r) (vz r)) in *.
  pose proof (fadd_result a b Gx Gy) as R1. destruct (result_half _ _ 1 ltac:(lia) R1) as (G1 & W1 & _); [rewrite Rabs_pos_eq; change (pow2 1) with 2; lra|].
  assert (S1 : 0 <= B2R (fadd a b) <= 2 /\ (B2R a = 1 \/ B2R b = 1 -> 1 <= B2R (fadd a b))).
  { rewrite W1. split; [split; [rewrite <- rnd_0; apply rnd_le; lra|apply (rnd_upper f2); lra]|]. intros [E|E]; apply (rnd_lower f1); lra. }
  pose proof (fadd_result _ d G1 Gz) as R2. destruct (result_half _ _ 2 ltac:(lia) R2) as (G2 & W2 & _); [rewrite Rabs_pos_eq; change (pow2 2) with 4; lra|].
  assert (S2 : 1 <= B2R (fadd (fadd a b) d) <= 3).
  { rewrite W2. split; [|apply (rnd_upper f3); lra]. apply (rnd_lower f1); [exact V1|].
    destruct O as [O|[O|O]]; [specialize (Ox O)|specialize (Oy O)|specialize (Oz O)]; lra. }
  destruct (fsqrt_val _ G2 ltac:(lra)) as [Fs Vs]. split; [exact Fs|]. rewrite Vs. split.
  - apply (rnd_lower f1); [exact V1|]. rewrite <- sqrt_1. apply sqrt_le_1; lra.
  - destruct (lit_val 7 (-2) ltac:(lia) ltac:(lia)) as [_ V7]. change (bpow radix2 (-2)) with (/ 4) in V7.
    apply (rnd_upper (lit 7 (-2))); [lra|]. rewrite <- (sqrt_square (7 / 4)) by lra. apply sqrt_le_1; lra.
Qed.
Definition scale_of (r : vec) : f64 := fdiv f1 (norm r).
Lemma scale_range r : cube_pt r -> finite (scale_of r) /\ 57 / 100 <= B2R (scale_of r) <= 1.
Proof.
  intros H. destruct (norm_range r H) as [F B]. destruct f1_val as [F1 V1]. unfold scale_of.
  pose proof (fdiv_result f1 (norm r) F1 F ltac:(lra)) as R. rewrite V1 in R.
  assert (L : 4 / 7 <= 1 / B2R (norm r) <= 1).
  { unfold Rdiv. rewrite !Rmult_1_l. split.
    - replace (4 * / 7) with (/ (7 / 4)) by lra. apply Rinv_le; lra.
    - rewrite <- Rinv_1. apply Rinv_le; lra. }
  destruct (result_half _ _ 0 ltac:(lia) R) as (Fz & V & E); [rewrite Rabs_pos_eq; change (pow2 0) with 1; lra|].
  split; [exact Fz|]. split; [|rewrite V; apply (rnd_upper f1); lra]. change (pow2 (0 - 54)) with (/ 18014398509481984) in E. apply Rabs_le_inv in E. lra.
Qed.
Lemma normalize_cube r : cube_pt r -> VectorModel.normalize r = vscale r (scale_of r).
Proof.
  intros ((Fx & Fy & Fz) & _ & _ & _ & O). unfold VectorModel.normalize.
  assert (K : forall x, finite x -> Rabs (B2R x) = 1 -> feq x f0 = false).
  { intros x F E. destruct (feq_R x f0 F eq_refl) as [G|G]; [|reflexivity]. change (B2R f0) with 0 in G. rewrite G, Rabs_R0 in E. lra. }
  destruct O as [O|[O|O]]; [rewrite (K _ Fx O)|rewrite (K _ Fy O)|rewrite (K _ Fz O)]; rewrite ?andb_false_r; reflexivity.
Qed.
(* a scaled component *)
Lemma comp_val (x c : f64) : finite x -> Rabs (B2R x) <= 1 -> finite c -> 57 / 100 <= B2R c <= 1 ->
  finite (fmul x c) /\ Rabs (B2R (fmul x c) - B2R x * B2R c) <= eps / 2 /\ Rabs (B2R (fmul x c)) <= B2R c /\
  (Rabs (B2R x) = 1 -> B2R (fmul x c) = B2R x * B2R c) /\
  (Rabs (B2R x) <= 1 - / 4294967296 -> Rabs (B2R (fmul x c)) < B2R c).
Proof.
  intros Fx Bx Fc Bc. pose proof (fmul_result x c Fx Fc) as R.
  assert (L : Rabs (B2R x * B2R c) <= B2R c). { rewrite Rabs_mult, (Rabs_pos_eq (B2R c)) by lra. pose proof (Rabs_pos (B2R x)). nra. }
  destruct (result_half _ _ 0 ltac:(lia) R) as (F & V & E); [change (pow2 0) with 1; lra|].
  change (pow2 (0 - 54)) with (/ 18014398509481984) in E. split; [exact F|]. split; [lra|].
  assert (BB : Rabs (B2R (fmul x c)) <= B2R c).
  { apply Rabs_le_inv in L. rewrite V. apply Rabs_le. split; [|apply (rnd_upper c); lra].
    destruct (fneg_val c Fc) as [_ Vn]. apply (rnd_lower (fneg c)); lra. }
  split; [exact BB|]. split.
  - intros A. rewrite V. assert (B2R x = 1 \/ B2R x = -1) as [-> | ->] by (unfold Rabs in A; destruct (Rcase_abs _); lra).
    + rewrite Rmult_1_l. apply rnd_fix.
    + replace (-1 * B2R c) with (- B2R c) by ring. rewrite rnd_opp, rnd_fix. reflexivity.
  - intros A. apply Rle_lt_trans with (Rabs (B2R x * B2R c) + / 18014398509481984).
    + replace (B2R (fmul x c)) with (B2R x * B2R c + (B2R (fmul x c) - B2R x * B2R c)) by ring.
      eapply Rle_trans; [apply Rabs_triang|]. lra.
    + rewrite Rabs_mult, (Rabs_pos_eq (B2R c)) by lra. pose proof (Rabs_pos (B2R x)). nra.
Qed.
(* y is a scaled component x; dividing it again by the component of absolute value 1 *)
Definition scaled (y : f64) (x c : R) : Prop := finite y /\ Rabs (B2R y - x * c) <= eps / 2 /\ Rabs (B2R y) <= c /\
  (Rabs x <= 1 - / 4294967296 -> Rabs (B2R y) < c).
Lemma scaled_comp (x c : f64) : finite x -> Rabs (B2R x) <= 1 -> finite c -> 57 / 100 <= B2R c <= 1 -> scaled (fmul x c) (B2R x) (B2R c).
Proof. intros Fx Bx Fc Bc. destruct (comp_val x c Fx Bx Fc Bc) as (F & E & B & _ & S). repeat (split; [assumption|]). assumption. Qed.
Lemma scaled_neg (y : f64) x c : scaled y x c -> scaled (fneg y) (- x) c.
Proof.
  intros (F & E & B & S). destruct (fneg_val y F) as [Fn Vn]. unfold scaled. rewrite Vn, !Rabs_Ropp. split; [exact Fn|].
  split; [|split; [exact B|exact S]]. replace (- B2R y - - x * c) with (- (B2R y - x * c)) by ring. rewrite Rabs_Ropp. exact E.
Qed.
Lemma back_val (y d : f64) x c s : scaled y x c -> finite d -> B2R d = s * c -> s = 1 \/ s = -1 -> 57 / 100 <= c <= 1 ->
  finite (fdiv y d) /\ Rabs (B2R (fdiv y d) - s * x) <= 14 / 10 * eps.
Proof.
  intros (F1 & E1 & B1 & _) F2 E2 Hs Bc. assert (An : Rabs s = 1) by (destruct Hs as [-> | ->]; [apply Rabs_R1|rewrite Rabs_left; lra]).
  assert (N : B2R d <> 0) by (rewrite E2; destruct Hs as [-> | ->]; lra).
  assert (Ad : Rabs (B2R d) = c) by (rewrite E2, Rabs_mult, An, (Rabs_pos_eq c) by lra; ring).
  destruct (quotient y d F1 F2 N ltac:(rewrite Ad; exact B1)) as (F & V & _). split; [exact F|].
  assert (Q : Rabs (B2R y / B2R d - s * x) <= 88 / 100 * eps).
  { assert (Q1 : B2R y / B2R d - s * x = s * ((B2R y - x * c) / c)).
    { rewrite E2. destruct Hs as [-> | ->]; field; lra. }
    rewrite Q1, Rabs_mult, An, Rmult_1_l. unfold Rdiv. rewrite Rabs_mult, Rabs_inv, (Rabs_pos_eq c) by lra.
    apply (Rmult_le_reg_r c); [lra|]. rewrite Rmult_assoc, Rinv_l, Rmult_1_r by lra. lra. }
  assert (B : Rabs (B2R y / B2R d) <= 1).
  { unfold Rdiv. rewrite Rabs_mult, Rabs_inv, Ad. apply (Rmult_le_reg_r c); [lra|]. rewrite Rmult_assoc, Rinv_l, Rmult_1_r by lra. lra. }
  pose proof (rnd_half _ 0 ltac:(lia) B) as E. rewrite <- V in E. change (pow2 (0 - 54)) with (/ 18014398509481984) in E.
  apply Rabs_le_inv in E, Q. apply Rabs_le. lra.
Qed.

Lemma face_uv_cube f u v : (0 <= f < 6)%Z -> finite u -> finite v -> Rabs (B2R u) <= 1 -> Rabs (B2R v) <= 1 ->
  exists r, face_uv_to_xyz f u v = Some r /\ cube_pt r.
Proof.
  intros Hf Fu Fv Bu Bv. destruct f1_val as [F1 V1]. destruct (fneg_val f1 F1) as [Fn Vn]. destruct (fneg_val u Fu) as [Fnu Vnu]. destruct (fneg_val v Fv) as [Fnv Vnv].
  assert (A1 : Rabs (B2R f1) = 1) by (rewrite V1; apply Rabs_R1). assert (A2 : Rabs (B2R (fneg f1)) = 1) by (rewrite Vn, Rabs_Ropp; exact A1).
  assert (A3 : Rabs (B2R (fneg u)) <= 1) by (rewrite Vnu, Rabs_Ropp; exact Bu). assert (A4 : Rabs (B2R (fneg v)) <= 1) by (rewrite Vnv, Rabs_Ropp; exact Bv).
  assert (A1' : Rabs (B2R f1) <= 1) by lra. assert (A2' : Rabs (B2R (fneg f1)) <= 1) by lra.
  unfold face_uv_to_xyz. destruct (face_zero_cases f Hf) as [-> | [-> | [-> | [-> | [-> | ->]]]]]; cbn [Z.eqb Pos.eqb];
  (eexists; split; [reflexivity|]; unfold cube_pt, fin3; cbn [vx vy vz]; split; [auto|]; repeat (split; [assumption|]); auto).
Qed.

Lemma Some_inj {A} (a b : A) : Some a = Some b -> a = b. Proof. congruence. Qed.
(* the (u,v) coordinates of the normalised point, on its own face, and the face found
   when the point is well inside *)
Lemma point_back f (u v : f64) r : (0 <= f < 6)%Z -> finite u -> finite v -> Rabs (B2R u) <= 1 -> Rabs (B2R v) <= 1 ->
  face_uv_to_xyz f u v = Some r ->
  exists u' v' : f64, face_xyz_to_uv f (VectorModel.normalize r) = Some (Some (u', v')) /\
    valid_face_xyz_to_uv f (VectorModel.normalize r) = Some (u', v') /\
    finite u' /\ finite v' /\ Rabs (B2R u' - B2R u) <= 14 / 10 * eps /\ Rabs (B2R v' - B2R v) <= 14 / 10 * eps /\
    (Rabs (B2R u) <= 1 - / 4294967296 -> Rabs (B2R v) <= 1 - / 4294967296 -> StuvModel.face (VectorModel.normalize r) = f).
Proof.
  intros Hf Fu Fv Bu Bv E. destruct (face_uv_cube f u v Hf Fu Fv Bu Bv) as (r' & E' & C). rewrite E in E'. injection E' as <-.
  rewrite (normalize_cube r C). destruct (scale_range r C) as [Fc Bc]. set (c := scale_of r) in *. clearbody c.
  destruct f1_val as [F1 V1]. destruct (fneg_val f1 F1) as [Fn Vn]. rewrite V1 in Vn. destruct (fneg_val u Fu) as [Fnu Vnu]. destruct (fneg_val v Fv) as [Fnv Vnv].
  assert (A3 : Rabs (B2R (fneg u)) <= 1) by (rewrite Vnu, Rabs_Ropp; exact Bu). assert (A4 : Rabs (B2R (fneg v)) <= 1) by (rewrite Vnv, Rabs_Ropp; exact Bv).
  assert (A1 : Rabs (B2R f1) = 1) by (rewrite V1; apply Rabs_R1). assert (A2 : Rabs (B2R (fneg f1)) = 1) by (rewrite Vn, Rabs_Ropp, Rabs_R1; reflexivity).
  destruct (comp_val f1 c F1 ltac:(lra) Fc Bc) as (G1 & _ & _ & W1 & _). specialize (W1 A1). rewrite V1 in W1.
  destruct (comp_val (fneg f1) c Fn ltac:(lra) Fc Bc) as (G2 & _ & _ & W2 & _). specialize (W2 A2). rewrite Vn in W2.
  pose proof (scaled_comp u c Fu Bu Fc Bc) as Su. pose proof (scaled_comp v c Fv Bv Fc Bc) as Sv.
  pose proof (scaled_comp (fneg u) c Fnu A3 Fc Bc) as Snu. pose proof (scaled_comp (fneg v) c Fnv A4 Fc Bc) as Snv.
  rewrite Vnu in Snu. rewrite Vnv in Snv.
  pose proof (scaled_neg _ _ _ Snu) as Snnu. pose proof (scaled_neg _ _ _ Snv) as Snnv. pose proof (scaled_neg _ _ _ Su) as Sun. pose proof (scaled_neg _ _ _ Sv) as Svn.
  rewrite Ropp_involutive in Snnu, Snnv.
  assert (P : fle (fmul f1 c) f0 = false).
  { destruct (fle_R _ f0 G1 eq_refl) as [G|G]; [change (B2R f0) with 0 in G; lra|reflexivity]. }
  assert (P' : fle f0 (fmul (fneg f1) c) = false).
  { destruct (fle_R f0 _ eq_refl G2) as [G|G]; [change (B2R f0) with 0 in G; lra|reflexivity]. }
  assert (D1 : forall y x, scaled y x (B2R c) -> finite (fdiv y (fmul f1 c)) /\ Rabs (B2R (fdiv y (fmul f1 c)) - x) <= 14 / 10 * eps).
  { intros y x S. destruct (back_val y (fmul f1 c) x (B2R c) 1 S G1 W1 ltac:(lra) Bc) as [F' E']. rewrite Rmult_1_l in E'. auto. }
  assert (D2 : forall y x, scaled y (- x) (B2R c) -> finite (fdiv y (fmul (fneg f1) c)) /\ Rabs (B2R (fdiv y (fmul (fneg f1) c)) - x) <= 14 / 10 * eps).
  { intros y x S. destruct (back_val y (fmul (fneg f1) c) (- x) (B2R c) (-1) S G2 W2 ltac:(lra) Bc) as [F' E']. replace (-1 * - x) with x in E' by ring. auto. }
  assert (Aa : Rabs (B2R (fmul f1 c)) = B2R c) by (rewrite W1, Rmult_1_l, Rabs_pos_eq by lra; reflexivity).
  assert (Ab : Rabs (B2R (fmul (fneg f1) c)) = B2R c) by (rewrite W2, Rabs_mult, Rabs_left, (Rabs_pos_eq (B2R c)) by lra; ring).
  assert (LU : Rabs (B2R u) <= 1 - / 4294967296 -> Rabs (B2R (fmul u c)) < B2R c /\ Rabs (B2R (fmul (fneg u) c)) < B2R c).
  { intros L. split; [apply Su, L|]. apply Snu. rewrite Rabs_Ropp. exact L. }
  assert (LV : Rabs (B2R v) <= 1 - / 4294967296 -> Rabs (B2R (fmul v c)) < B2R c /\ Rabs (B2R (fmul (fneg v) c)) < B2R c).
  { intros L. split; [apply Sv, L|]. apply Snv. rewrite Rabs_Ropp. exact L. }
  unfold face_xyz_to_uv, valid_face_xyz_to_uv, fge. unfold face_uv_to_xyz in E.
  assert (FF : finite (fmul u c) /\ finite (fmul v c) /\ finite (fmul (fneg u) c) /\ finite (fmul (fneg v) c)) by (repeat split; [apply Su|apply Sv|apply Snu|apply Snv]).
  destruct FF as (FF1 & FF2 & FF3 & FF4).
  destruct (face_zero_cases f Hf) as [-> | [-> | [-> | [-> | [-> | ->]]]]]; cbn [Z.eqb Pos.eqb] in E |- *; apply Some_inj in E; subst r;
  unfold vscale; cbn [vx vy vz]; rewrite ?P, ?P'; eexists; eexists; (split; [reflexivity|]; split; [reflexivity|]);
  (split; [first [eapply D1; eassumption|eapply D2; eassumption]|]); (split; [first [eapply D1; eassumption|eapply D2; eassumption]|]);
  (split; [first [apply D1; assumption|apply D2; assumption]|]); (split; [first [apply D1; assumption|apply D2; assumption]|]);
  (intros LLu LLv; destruct (LU LLu) as [LU1 LU2]; destruct (LV LLv) as [LV1 LV2]; apply face_unique; [unfold fin3; cbn [vx vy vz]; auto|lia| | | |];
   unfold axis_comp; change (0 mod 3)%Z with 0%Z; change (1 mod 3)%Z with 1%Z; change (2 mod 3)%Z with 2%Z;
   change (3 mod 3)%Z with 0%Z; change (4 mod 3)%Z with 1%Z; change (5 mod 3)%Z with 2%Z;
   cbn [Z.eqb Pos.eqb Z.ltb Z.compare Pos.compare Pos.compare_cont vx vy vz];
   try (intros _; lra); try (intros N; exfalso; apply N; reflexivity); lra).
Qed.

(** ** Containment of points *)
Lemma eps_val : finite DBL_EPSILON /\ B2R DBL_EPSILON = 2 * eps.
Proof. destruct (lit_val 1 (-52) ltac:(lia) ltac:(lia)) as [F V]. split; [exact F|]. unfold DBL_EPSILON. rewrite V. change (bpow radix2 (-52)) with (/ 4503599627370496). lra. Qed.
Lemma lower_margin k : (0 <= k < 2 ^ 31)%Z -> finite (fsub (uvl k) DBL_EPSILON) /\ B2R (fsub (uvl k) DBL_EPSILON) <= B2R (uvl k) - 3 / 2 * eps.
Proof.
  intros H. destruct eps_val as [Fe Ve]. destruct (uvl_val k ltac:(lia)) as (F & _ & B). pose proof (fsub_result _ _ F Fe) as R. rewrite Ve in R.
  destruct uvl_ends as (E0 & E1 & _). pose proof (uvl_gap k (2 ^ 31) ltac:(lia) ltac:(lia)) as G1. rewrite E1 in G1.
  destruct (Z.eq_dec k 0) as [->|N].
  - rewrite E0 in *. destruct (result_format _ _ (- (2 ^ 52 + 1)) (-52) R ltac:(lia) ltac:(lia)) as [Fz Vz].
    { rewrite opp_IZR, plus_IZR. change (IZR (2 ^ 52)) with 4503599627370496. change (bpow radix2 (-52)) with (/ 4503599627370496). lra. }
    split; [exact Fz|]. rewrite Vz. lra.
  - pose proof (uvl_gap 0 k ltac:(lia) ltac:(lia)) as G0. rewrite E0 in G0.
    destruct (result_half _ _ 0 ltac:(lia) R) as (Fz & _ & E); [apply Rabs_le; change (pow2 0) with 1; lra|].
    split; [exact Fz|]. change (pow2 (0 - 54)) with (/ 18014398509481984) in E. apply Rabs_le_inv in E. lra.
Qed.
Lemma upper_margin k : (0 < k <= 2 ^ 31)%Z -> finite (fadd (uvl k) DBL_EPSILON) /\ B2R (uvl k) + 3 / 2 * eps <= B2R (fadd (uvl k) DBL_EPSILON).
Proof.
  intros H. destruct eps_val as [Fe Ve]. destruct (uvl_val k ltac:(lia)) as (F & _ & B). pose proof (fadd_result _ _ F Fe) as R. rewrite Ve in R.
  destruct uvl_ends as (E0 & E1 & _). pose proof (uvl_gap 0 k ltac:(lia) ltac:(lia)) as G0. rewrite E0 in G0.
  destruct (Z.eq_dec k (2 ^ 31)) as [->|N].
  - rewrite E1 in *. destruct (result_format _ _ (2 ^ 52 + 1) (-52) R ltac:(lia) ltac:(lia)) as [Fz Vz].
    { rewrite plus_IZR. change (IZR (2 ^ 52)) with 4503599627370496. change (bpow radix2 (-52)) with (/ 4503599627370496). lra. }
    split; [exact Fz|]. rewrite Vz. lra.
  - pose proof (uvl_gap k (2 ^ 31) ltac:(lia) ltac:(lia)) as G1. rewrite E1 in G1.
    destruct (result_half _ _ 0 ltac:(lia) R) as (Fz & _ & E); [apply Rabs_le; change (pow2 0) with 1; lra|].
    split; [exact Fz|]. change (pow2 (0 - 54)) with (/ 18014398509481984) in E. apply Rabs_le_inv in E. lra.
Qed.
Lemma not_empty (lo hi : f64) : finite lo -> finite hi -> B2R lo <= B2R hi -> r1_is_empty (R1 lo hi) = false.
Proof. intros F G L. unfold r1_is_empty, fgt. cbn [lo1 hi1]. destruct (flt_R hi lo G F) as [P|P]; [lra|reflexivity]. Qed.
Lemma expanded_line a b : (0 <= a < b)%Z -> (b <= 2 ^ 31)%Z ->
  exists lo hi : f64, r1_expanded (R1 (uvl a) (uvl b)) DBL_EPSILON = R1 lo hi /\ r1_is_empty (R1 lo hi) = false /\
    forall (x : f64) k, (a <= k <= b)%Z -> finite x -> Rabs (B2R x - B2R (uvl k)) <= 14 / 10 * eps -> r1_contains (R1 lo hi) x = true.
Proof.
  intros H H'. destruct (lower_margin a ltac:(lia)) as [F1 L1]. destruct (upper_margin b ltac:(lia)) as [F2 L2].
  destruct (uvl_val a ltac:(lia)) as (Fa & _). destruct (uvl_val b ltac:(lia)) as (Fb & _). pose proof (uvl_gap a b ltac:(lia) ltac:(lia)) as G.
  exists (fsub (uvl a) DBL_EPSILON), (fadd (uvl b) DBL_EPSILON). unfold r1_expanded. rewrite (not_empty _ _ Fa Fb ltac:(lra)).
  split; [reflexivity|]. split; [apply not_empty; auto; lra|]. intros x k Hk Fx E. unfold r1_contains. cbn [lo1 hi1]. apply Rabs_le_inv in E.
  assert (B2R (uvl a) <= B2R (uvl k)).
  { destruct (Z.eq_dec a k) as [->|]; [lra|]. pose proof (uvl_gap a k ltac:(lia) ltac:(lia)). lra. }
  assert (B2R (uvl k) <= B2R (uvl b)).
  { destruct (Z.eq_dec k b) as [->|]; [lra|]. pose proof (uvl_gap k b ltac:(lia) ltac:(lia)). lra. }
  destruct (fle_R _ x F1 Fx) as [P|P]; [|lra]. destruct (fle_R x _ Fx F2) as [Q|Q]; [reflexivity|lra].
Qed.
Lemma contains_near c p (u v : f64) k l : wf c -> face_xyz_to_uv (face_of c) p = Some (Some (u, v)) -> finite u -> finite v ->
  (2 * sq_i (sq c) <= k <= 2 * (sq_i (sq c) + side (lv c)))%Z -> (2 * sq_j (sq c) <= l <= 2 * (sq_j (sq c) + side (lv c)))%Z ->
  Rabs (B2R u - B2R (uvl k)) <= 14 / 10 * eps -> Rabs (B2R v - B2R (uvl l)) <= 14 / 10 * eps ->
  cell_contains_point (cell_of c) p = Some true.
Proof.
  intros W E Fu Fv Hk Hl Eu Ev. unfold cell_contains_point, cell_of. cbn [c_face c_uv]. rewrite E.
  destruct (sq_aligned c W) as ((_ & P & _ & _ & B1 & B2 & B3 & B4) & _ & S). unfold r2_expanded_by_margin, r2_expanded, uvrect. cbn [rx ry px py]. rewrite S in *.
  change (2 ^ 30)%Z with 1073741824%Z in *.
  destruct (expanded_line (2 * sq_i (sq c)) (2 * (sq_i (sq c) + side (lv c))) ltac:(lia) ltac:(lia)) as (a & b & -> & N1 & C1).
  destruct (expanded_line (2 * sq_j (sq c)) (2 * (sq_j (sq c) + side (lv c))) ltac:(lia) ltac:(lia)) as (a' & b' & -> & N2 & C2).
  rewrite N1, N2. cbn [orb]. unfold r2_contains_point. cbn [rx ry px py]. rewrite (C1 u k), (C2 v l) by auto. reflexivity.
Qed.

(** ** Centres and vertices *)
Lemma centre_ok c : wf c -> exists p x,
  point_from_cellid (code c) = Some p /\ cell_center (cell_of c) = Some p /\ cellid_from_point p = Some x /\
  contains (code c) x = Some true /\ (lv c = 30%Z -> x = code c) /\ cell_contains_point (cell_of c) p = Some true.
Proof.
  intros W. pose proof (face_of_range c W) as Hf. destruct (center_ok c W) as [E _].
  destruct (sq_aligned c W) as ((_ & P & Di & Dj & B1 & B2 & B3 & B4) & F & S). rewrite S in *. change (2 ^ 30)%Z with 1073741824%Z in *.
  set (k := (2 * sq_i (sq c) + side (lv c))%Z) in *. set (l := (2 * sq_j (sq c) + side (lv c))%Z) in *.
  assert (Hk : (0 < k < 2 ^ 31)%Z) by lia. assert (Hl : (0 < l < 2 ^ 31)%Z) by lia.
  destruct (uvl_val k ltac:(lia)) as (Fk & _ & Bk). destruct (uvl_val l ltac:(lia)) as (Fl & _ & Bl).
  destruct (face_uv_cube (face_of c) (uvl k) (uvl l) Hf Fk Fl ltac:(apply Rabs_le; lra) ltac:(apply Rabs_le; lra)) as (r & Er & C).
  assert (ER : raw_point (code c) = Some r). { unfold raw_point. rewrite E, !as_u64_pos, !siti_lat by lia. exact Er. }
  assert (ins : forall n, (0 < n < 2 ^ 31)%Z -> Rabs (B2R (uvl n)) <= 1 - / 4294967296).
  { intros n Hn. destruct uvl_ends as (E0 & E1 & _). pose proof (uvl_gap 0 n ltac:(lia) ltac:(lia)) as G0. pose proof (uvl_gap n (2 ^ 31) ltac:(lia) ltac:(lia)) as G1.
    rewrite E0 in G0. rewrite E1 in G1. apply Rabs_le. lra. }
  destruct (point_back (face_of c) (uvl k) (uvl l) r Hf Fk Fl ltac:(apply Rabs_le; lra) ltac:(apply Rabs_le; lra) Er) as (u & v & X1 & X2 & Fu & Fv & Eu & Ev & Ff).
  specialize (Ff (ins k Hk) (ins l Hl)). set (p := VectorModel.normalize r) in *.
  assert (EP : point_from_cellid (code c) = Some p) by (unfold point_from_cellid; rewrite ER; reflexivity).
  pose proof (column_near u k Fu Hk ltac:(lra)) as Ck. pose proof (column_near v l Fv Hl ltac:(lra)) as Cl.
  pose proof (st_to_ij_range (uv_to_st u)) as Ri. pose proof (st_to_ij_range (uv_to_st v)) as Rj.
  set (i := st_to_ij (uv_to_st u)) in *. set (j := st_to_ij (uv_to_st v)) in *.
  assert (I : in_square (sq c) (face_of c) i j).
  { unfold in_square. rewrite S, F. split; [reflexivity|]. unfold k, l in Ck, Cl.
    destruct (Z.eq_dec (lv c) 30) as [E30|N30].
    - rewrite E30 in *. change (side 30) with 1%Z in *. lia.
    - pose proof W as [HL _]. destruct (side_half (lv c) ltac:(lia)) as [_ S2]. pose proof (proj1 (side_NN (lv c + 1) ltac:(lia))). lia. }
  destruct (sq_correct c W) as (_ & _ & H). destruct (proj1 (H (face_of c) i j Hf Ri Rj) I) as (m & Em & Lm).
  assert (Wl : wf (leaf m)) by (apply leaf_wf; apply (leaves_bounds c); auto).
  exists p, (code (leaf m)). split; [exact EP|]. split; [exact EP|].
  split; [unfold cellid_from_point, xyz_to_face_uv; rewrite Ff, X2; exact Em|]. split.
  - destruct (contains_code c (leaf m) W Wl) as (b & -> & Hb). f_equal. apply Hb. apply (ancestor_leaves c (leaf m) W Wl).
    intros m' M. unfold leaves, leaf in M. cbn [lv ix] in M. change (4 ^ (30 - 30))%Z with 1%Z in M. replace m' with m by lia. exact Lm.
  - split.
    + intros E30. f_equal. unfold leaves in Lm. rewrite E30 in Lm. change (4 ^ (30 - 30))%Z with 1%Z in Lm. destruct c as [lc xc]. cbn [lv ix] in *. unfold leaf. f_equal; lia.
    + apply (contains_near c p u v k l); auto; lia.
Qed.
