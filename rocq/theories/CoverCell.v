(** Leaves and the cells around a vertex: how far a leaf outside them is, and how
    far a point can be from its leaf. *)
From Coq Require Import ZArith Reals Lra Lia Psatz List.
From Flocq Require Import Core.
From Verif Require Import Base Spec F64 F64Facts IntervalSpec F64Arith F64Error S1Proofs VectorModel StuvModel R1Model
  CellIdModel CellIdArith CellIdProofs HilbertModel HilbertSpec HilbertGeom NeighborSpec NeighborModel NeighborLists PropsNeighbor
  CellSpec CellModel StuvError CellLattice CellProofs CellPoint CellVertex
  PredicatesFloat CapSpec CapModel CapError CapCell CapEdge CapEdgeFloat CapEdgeMain CoverGeom.
Import ListNotations.
Open Scope R_scope.

(** ** A square without the corner V is beyond a line next to V *)
Lemma grid_dec S V A y : gridside S -> ongrid S V -> ongrid S A -> (A + 2 * S <= N)%Z -> gv A <= y <= gv (A + 2 * S) ->
  V = A \/ V = (A + 2 * S)%Z \/ out S V y.
Proof.
  intros P (V1 & (a & V2)) (A1 & (b & A2)) H Y. destruct (P) as (R & _).
  destruct (Z.eq_dec V A) as [|N1]; [auto|]. destruct (Z.eq_dec V (A + 2 * S)) as [|N2]; [auto|]. right. right.
  assert (D : (V + 2 * S <= A \/ A + 4 * S <= V)%Z).
  { assert (a <> b) by (intros ->; lia). assert (a <> b - 1)%Z by (intros ->; lia). assert (a <= b - 2 \/ b + 1 <= a)%Z as [|] by lia; [right|left]; nia. }
  destruct D as [D|D]; [left|right]; (split; [lia|]).
  - apply Rle_trans with (gv A); [apply gv_mono; lia|lra].
  - apply Rle_trans with (gv (A + 2 * S)); [lra|apply gv_mono; lia].
Qed.
Lemma grid_dec_neg S V A y : gridside S -> ongrid S V -> ongrid S A -> (A + 2 * S <= N)%Z -> gv A <= y <= gv (A + 2 * S) ->
  V = (- A)%Z \/ V = (- (A + 2 * S))%Z \/ out S V (- y).
Proof.
  intros P GV GA H Y. pose proof (ongrid_neg S V P GV) as GN. destruct (P) as (R & _).
  destruct (grid_dec S (- V) A y P GN GA H Y) as [E|[E|O]]; [left; lia|right; left; lia|right; right].
  rewrite <- (Z.opp_involutive V). apply out_neg; [lia|destruct GV; lia|exact O].
Qed.
Lemma face_dec S V : gridside S -> ongrid S V -> V = N \/ out S V 1.
Proof.
  intros P (V1 & (a & V2)). destruct (P) as (R & _). destruct (Z.eq_dec V N) as [|D]; [auto|]. right. left.
  assert (1 <= a)%Z by nia. assert (2 * S <= a * (2 * S))%Z by nia. split; [lia|]. apply gv_range. lia.
Qed.
Lemma face_dec_neg S V : gridside S -> ongrid S V -> V = (- N)%Z \/ out S V (-1).
Proof.
  intros P GV. pose proof (ongrid_neg S V P GV) as GN. destruct (P) as (R & _).
  destruct (face_dec S (- V) P GN) as [E|O]; [left; lia|right]. rewrite <- (Z.opp_involutive V). replace (-1) with (- (1)) by ring. apply out_neg; [lia|destruct GV; lia|exact O].
Qed.

Definition outs (S : BinInt.Z) (V : BinInt.Z * BinInt.Z * BinInt.Z) (w : pos) : Prop :=
  let '(V1, V2, V3) := V in out S V1 (px3 w) \/ out S V2 (py3 w) \/ out S V3 (pz3 w).
Definition ongrid3 (S : BinInt.Z) (V : BinInt.Z * BinInt.Z * BinInt.Z) : Prop := let '(V1, V2, V3) := V in ongrid S V1 /\ ongrid S V2 /\ ongrid S V3.

Lemma grid_line S a : gridside S -> (S | a)%Z -> (0 <= a <= N)%Z -> ongrid S (2 * a - N).
Proof.
  intros P (q & Q) H. destruct (P) as (R & (d & D)). split; [lia|]. exists (d - q)%Z. lia.
Qed.
Lemma ongrid_N S : gridside S -> ongrid S N /\ ongrid S (- N).
Proof. intros P. assert (G : ongrid S N) by (split; [lia|exists 0%Z; lia]). split; [exact G|apply ongrid_neg; assumption]. Qed.
Lemma cube_point_grid S f i j : gridside S -> (0 <= f < 6)%Z -> (S | i)%Z -> (S | j)%Z -> (0 <= i <= N)%Z -> (0 <= j <= N)%Z -> ongrid3 S (cube_point f i j).
Proof.
  intros P Hf Di Dj Hi Hj. pose proof (grid_line S i P Di Hi) as Gi. pose proof (grid_line S j P Dj Hj) as Gj. destruct (ongrid_N S P) as [Gn Gm].
  pose proof (ongrid_neg S _ P Gi) as Ni. pose proof (ongrid_neg S _ P Gj) as Nj.
  destruct (face_zero_cases f Hf) as [-> | [-> | [-> | [-> | [-> | ->]]]]]; unfold cube_point, ongrid3; cbn [Z.eqb Pos.eqb]; repeat split; try (apply Gi); try (apply Gj); try (apply Gn); try (apply Gm); try (apply Ni); try (apply Nj).
Qed.

Lemma corner_out S g a b x y V : gridside S -> ongrid3 S V -> (0 <= g < 6)%Z -> (S | a)%Z -> (S | b)%Z ->
  (0 <= a)%Z -> (a + S <= N)%Z -> (0 <= b)%Z -> (b + S <= N)%Z ->
  gv (2 * a - N) <= x <= gv (2 * (a + S) - N) -> gv (2 * b - N) <= y <= gv (2 * (b + S) - N) ->
  ~ corner_of (Square g a b S) V -> outs S V (face_pos g x y).
Proof.
  intros P G Hg Da Db A0 A1 B0 B1 X Y NC. destruct V as [[V1 V2] V3]. destruct G as (G1 & G2 & G3).
  pose proof (grid_line S a P Da ltac:(destruct (P); lia)) as Ga. pose proof (grid_line S b P Db ltac:(destruct (P); lia)) as Gb.
  replace (2 * (a + S) - N)%Z with (2 * a - N + 2 * S)%Z in X by lia. replace (2 * (b + S) - N)%Z with (2 * b - N + 2 * S)%Z in Y by lia.
  assert (HA : (2 * a - N + 2 * S <= N)%Z) by lia. assert (HB : (2 * b - N + 2 * S <= N)%Z) by lia.
  assert (CO : forall al be, (al = 0 \/ al = 1)%Z -> (be = 0 \/ be = 1)%Z -> (V1, V2, V3) = cube_point g (a + al * S) (b + be * S) -> False).
  { intros al be Ha Hb E. apply NC. exists al, be. auto. }
  pose proof (fun V G => grid_dec S V _ x P G Ga HA X) as DX. pose proof (fun V G => grid_dec S V _ y P G Gb HB Y) as DY.
  pose proof (fun V G => grid_dec_neg S V _ x P G Ga HA X) as EX. pose proof (fun V G => grid_dec_neg S V _ y P G Gb HB Y) as EY.
  pose proof (fun V G => face_dec S V P G) as D1. pose proof (fun V G => face_dec_neg S V P G) as E1.
  Ltac here := match goal with CO : forall al be, _ -> _ -> _ -> False |- _ => first [solve [apply (CO 0%Z 0%Z); auto; cbv zeta; f_equal; [f_equal; lia|lia]] | solve [apply (CO 0%Z 1%Z); auto; cbv zeta; f_equal; [f_equal; lia|lia]] | solve [apply (CO 1%Z 0%Z); auto; cbv zeta; f_equal; [f_equal; lia|lia]] | solve [apply (CO 1%Z 1%Z); auto; cbv zeta; f_equal; [f_equal; lia|lia]]] end.
  unfold outs. destruct (face_zero_cases g Hg) as [-> | [-> | [-> | [-> | [-> | ->]]]]]; unfold face_pos, cube_point in *; cbn [Z.eqb Pos.eqb px3 py3 pz3] in *.
  - destruct (D1 V1 G1) as [K1|K1]; [|auto]. destruct (DX V2 G2) as [K2|[K2|K2]]; [| |auto]; (destruct (DY V3 G3) as [K3|[K3|K3]]; [| |auto]); exfalso; here.
  - destruct (EX V1 G1) as [K1|[K1|K1]]; [| |auto]; (destruct (D1 V2 G2) as [K2|K2]; [|auto]); (destruct (DY V3 G3) as [K3|[K3|K3]]; [| |auto]); exfalso; here.
  - destruct (EX V1 G1) as [K1|[K1|K1]]; [| |auto]; (destruct (EY V2 G2) as [K2|[K2|K2]]; [| |auto]); (destruct (D1 V3 G3) as [K3|K3]; [|auto]); exfalso; here.
  - destruct (E1 V1 G1) as [K1|K1]; [|auto]. destruct (EY V2 G2) as [K2|[K2|K2]]; [| |auto]; (destruct (EX V3 G3) as [K3|[K3|K3]]; [| |auto]); exfalso; here.
  - destruct (DY V1 G1) as [K1|[K1|K1]]; [| |auto]; (destruct (E1 V2 G2) as [K2|K2]; [|auto]); (destruct (EX V3 G3) as [K3|[K3|K3]]; [| |auto]); exfalso; here.
  - destruct (DY V1 G1) as [K1|[K1|K1]]; [| |auto]; (destruct (DX V2 G2) as [K2|[K2|K2]]; [| |auto]); (destruct (E1 V3 G3) as [K3|K3]; [|auto]); exfalso; here.
Qed.

(** ** The same in the coordinates of the centre's face *)
Lemma outs_loc S f i j w : gridside S -> (0 <= f < 6)%Z -> ongrid S (2 * i - N) -> ongrid S (2 * j - N) ->
  outs S (cube_point f i j) w -> let c := loc f w in out S N (pw c) \/ out S (2 * i - N) (pa c) \/ out S (2 * j - N) (pb c).
Proof.
  intros P Hf (Gi & _) (Gj & _) O. destruct (P) as (R & _).
  assert (T : forall V y, (- N <= V <= N)%Z -> out S (- V) y -> out S V (- y)).
  { intros V y H K. rewrite <- (Z.opp_involutive V). apply out_neg; [lia|lia|exact K]. }
  unfold loc. faces f Hf; unfold outs, cube_point in O; cbn [Z.eqb Pos.eqb] in O; cbn [pw pa pb px3 py3 pz3]; destruct O as [O|[O|O]]; auto.
  all: apply T in O; [auto|lia].
Qed.
Lemma face_pos_cube f x y : (0 <= f < 6)%Z -> -1 <= x <= 1 -> -1 <= y <= 1 ->
  on_cube (px3 (face_pos f x y)) (py3 (face_pos f x y)) (pz3 (face_pos f x y)).
Proof.
  intros Hf X Y. unfold face_pos, on_cube. faces f Hf; cbn [px3 py3 pz3]; repeat split; try lra; auto 8.
Qed.
Lemma loc_cube f w : (0 <= f < 6)%Z -> on_cube (px3 w) (py3 w) (pz3 w) -> on_cube (pw (loc f w)) (pa (loc f w)) (pb (loc f w)).
Proof.
  intros Hf (A & B & C & D). unfold loc, on_cube. faces f Hf; cbn [pw pa pb]; repeat split; try lra.
Qed.

(** ** Leaves away from a vertex *)
Lemma patch_pos c d : wf c -> patch (cell_of c) d -> on_sphere d /\ exists x y t, 0 < t /\
  gv (2 * sq_i (sq c) - N) <= x <= gv (2 * (sq_i (sq c) + sq_side (sq c)) - N) /\
  gv (2 * sq_j (sq c) - N) <= y <= gv (2 * (sq_j (sq c) + sq_side (sq c)) - N) /\ d = shrink t (face_pos (face_of c) x y).
Proof.
  intros W (S & x & y & t & BX & BY & T & E1 & E2 & E3). split; [exact S|]. exists x, y, t.
  cbn [cell_of c_face c_uv uvrect rx ry lo1 hi1] in *. unfold gv.
  rewrite !Z.sub_add. split; [exact T|]. split; [exact BX|]. split; [exact BY|].
  destruct d as [p0 p1 p2]; unfold shrink; cbn [px3 py3 pz3] in *; congruence.
Qed.
Lemma leaf_in c k : wf c -> lv c = 30%Z -> (0 <= k <= 30)%Z -> let p := sq (anc k c) in let q := sq c in
  sq_side q = 1%Z /\ sq_face q = face_of c /\ sq_face p = face_of c /\ sq_side p = side k /\
  (sq_i p <= sq_i q < sq_i p + side k)%Z /\ (sq_j p <= sq_j q < sq_j p + side k)%Z.
Proof.
  intros W L Hk p q. assert (Wa : wf (anc k c)) by (apply wf_anc; auto; lia).
  destruct (sq_aligned c W) as ((F0 & P & _ & _ & B1 & B2 & B3 & B4) & F & S). destruct (sq_aligned _ Wa) as (_ & Fa & Sa). fold q in F0, P, B1, B2, B3, B4, F, S. fold p in Fa, Sa. rewrite L in S. change (side 30) with 1%Z in S.
  assert (I : in_square q (face_of c) (sq_i q) (sq_j q)) by (unfold in_square; rewrite F, S; repeat split; lia).
  apply (sq_anc_in c k) in I; auto; try lia; try (apply face_of_range; auto).
  fold p in I. destruct I as (I1 & I2 & I3). cbn [lv anc] in Sa. rewrite Sa in *. repeat split; try lia.
Qed.
Lemma side_pow k : (0 <= k <= 29)%Z -> pow2side (side k).
Proof. intros H. exists (30 - k)%Z. split; [lia|reflexivity]. Qed.
Lemma quarter_of S a v x : pow2side S -> (S | v)%Z -> (0 <= v <= N)%Z -> (0 <= a < N)%Z -> (Z.abs (2 * v - (2 * a + 1)) <= S)%Z ->
  gv (2 * a - N) <= x <= gv (2 * (a + 1) - N) -> quarter S (2 * v - N) x.
Proof.
  intros P (q & Dv) Hv Ha Ab X. assert (EV : exists h, S = (2 * h)%Z).
  { destruct P as (j & J & ->). exists (2 ^ (j - 1))%Z. change 2%Z with (2 ^ 1)%Z at 2. rewrite <- Z.pow_add_r by lia. f_equal. lia. }
  destruct EV as (h & EV). destruct (pow2side_facts S P) as (R & _).
  split; [|split; intros H].
  - pose proof (gv_range (2 * a - N) ltac:(lia)). pose proof (gv_range (2 * (a + 1) - N) ltac:(lia)). lra.
  - apply Rle_trans with (gv (2 * a - N)); [apply gv_mono; lia|lra].
  - apply Rle_trans with (gv (2 * (a + 1) - N)); [lra|apply gv_mono; lia].
Qed.

Theorem leaf_gap c k : wf c -> lv c = 30%Z -> (0 <= k <= 29)%Z ->
  exists ds, vertex_neighbors (code c) k = Some (map code ds) /\ Forall wf ds /\
  forall e d1 d2, wf e -> lv e = 30%Z -> ~ In (anc k e) ds -> patch (cell_of c) d1 -> patch (cell_of e) d2 -> sig (side k) <= chd d1 d2.
Proof.
  intros W L Hk. pose proof (sq_correct c W) as Q. assert (Wa : wf (anc k c)) by (apply wf_anc; auto; lia). pose proof (sq_correct _ Wa) as Pq.
  destruct (C25_vertex_neighbors c k _ _ W ltac:(lia) Q Pq) as (V & CC & _ & ds & E & _ & _ & DS & _).
  exists ds. split; [exact E|]. split; [apply Forall_forall; intros d Hd; apply DS, Hd|].
  intros e d1 d2 We Le NI P1 P2. pose proof (side_pow k Hk) as PS. pose proof (pow2side_grid _ PS) as PG.
  assert (Wb : wf (anc k e)) by (apply wf_anc; auto; lia).
  assert (NC : ~ corner_of (sq (anc k e)) V).
  { intros K. apply NI, DS. split; [exact Wb|]. split; [reflexivity|]. exists (sq (anc k e)). split; [apply sq_correct; assumption|exact K]. }
  destruct CC as (vi & vj & EV & Ii & Ij & Ni & Nj).
  destruct (leaf_in c k W L ltac:(lia)) as (Sq & Fq & Fp & Sp & Li & Lj). destruct (leaf_in e k We Le ltac:(lia)) as (Sqe & Fqe & Fpe & Spe & Lie & Lje).
  destruct (sq_aligned _ Wa) as ((_ & _ & Da1 & Da2 & A1 & A2 & A3 & A4) & _ & _). destruct (sq_aligned _ Wb) as ((_ & _ & Db1 & Db2 & B1 & B2 & B3 & B4) & _ & _).
  destruct (sq_aligned c W) as ((_ & _ & _ & _ & C1 & C2 & C3 & C4) & _ & _). destruct (sq_aligned e We) as ((_ & _ & _ & _ & E1 & E2 & E3 & E4) & _ & _).
  rewrite Sp in A2, A4, Ii, Ij, Ni, Nj, Da1, Da2. rewrite Spe in B2, B4, Db1, Db2. rewrite Sq in C2, C4, Ni, Nj. rewrite Sqe in E2, E4.
  set (S := side k) in *. cbn [In] in Ii, Ij.
  set (a := sq_i (sq (anc k c))) in *. set (b := sq_j (sq (anc k c))) in *. set (a' := sq_i (sq (anc k e))) in *. set (b' := sq_j (sq (anc k e))) in *.
  destruct (pow2side_facts S PS) as (RS & _).
  assert (Dvi : (S | vi)%Z) by (destruct Ii as [<-|[<-|[]]]; [|apply Z.divide_add_r]; auto; apply Z.divide_refl).
  assert (Dvj : (S | vj)%Z) by (destruct Ij as [<-|[<-|[]]]; [|apply Z.divide_add_r]; auto; apply Z.divide_refl).
  assert (Ai : (Z.abs (2 * vi - (2 * sq_i (sq c) + 1)) <= S)%Z).
  { pose proof (Ni a (or_introl eq_refl)). pose proof (Ni (a + S)%Z (or_intror (or_introl eq_refl))). destruct Ii as [<-|[<-|[]]]; lia. }
  assert (Aj : (Z.abs (2 * vj - (2 * sq_j (sq c) + 1)) <= S)%Z).
  { pose proof (Nj b (or_introl eq_refl)). pose proof (Nj (b + S)%Z (or_intror (or_introl eq_refl))). destruct Ij as [<-|[<-|[]]]; lia. }
  assert (Rvi : (0 <= vi <= N)%Z) by (destruct Ii as [<-|[<-|[]]]; lia). assert (Rvj : (0 <= vj <= N)%Z) by (destruct Ij as [<-|[<-|[]]]; lia).
  destruct (patch_pos c d1 W P1) as (S1 & x & y & t & T0 & X & Y & D1). destruct (patch_pos e d2 We P2) as (S2 & x' & y' & t' & T0' & X' & Y' & D2).
  rewrite Sq in X, Y. rewrite Sqe in X', Y'. pose proof (face_of_range c W) as Hf. pose proof (face_of_range e We) as Hg. set (f := face_of c) in *. set (g := face_of e) in *.
  assert (Qx : quarter S (2 * vi - N) x) by (apply (quarter_of S (sq_i (sq c)) vi x); auto; lia).
  assert (Qy : quarter S (2 * vj - N) y) by (apply (quarter_of S (sq_j (sq c)) vj y); auto; lia).
  assert (G3 : ongrid3 S V) by (rewrite EV, Fp; apply cube_point_grid; auto).
  assert (O : outs S V (face_pos g x' y')).
  { apply (corner_out S g a' b' x' y' V); auto; try lia.
    - pose proof (gv_mono (2 * a' - N) (2 * sq_i (sq e) - N) ltac:(lia) ltac:(lia) ltac:(lia)). pose proof (gv_mono (2 * (sq_i (sq e) + 1) - N) (2 * (a' + S) - N) ltac:(lia) ltac:(lia) ltac:(lia)). lra.
    - pose proof (gv_mono (2 * b' - N) (2 * sq_j (sq e) - N) ltac:(lia) ltac:(lia) ltac:(lia)). pose proof (gv_mono (2 * (sq_j (sq e) + 1) - N) (2 * (b' + S) - N) ltac:(lia) ltac:(lia) ltac:(lia)). lra.
    - replace (Square g a' b' S) with (sq (anc k e)); [exact NC|]. destruct (sq (anc k e)) as [s1 s2 s3 s4]. cbn [sq_face sq_side sq_i sq_j] in *. subst a' b'. congruence. }
  rewrite EV, Fp in O. pose proof (grid_line S vi PG Dvi Rvi) as Gi. pose proof (grid_line S vj PG Dvj Rvj) as Gj.
  apply (outs_loc S f vi vj _ PG Hf Gi Gj) in O. cbv zeta in O.
  assert (RX : -1 <= x' <= 1 /\ -1 <= y' <= 1).
  { pose proof (gv_range (2 * sq_i (sq e) - N) ltac:(lia)). pose proof (gv_range (2 * (sq_i (sq e) + 1) - N) ltac:(lia)).
    pose proof (gv_range (2 * sq_j (sq e) - N) ltac:(lia)). pose proof (gv_range (2 * (sq_j (sq e) + 1) - N) ltac:(lia)). lra. }
  pose proof (loc_cube f _ Hf (face_pos_cube g x' y' Hg (proj1 RX) (proj2 RX))) as OC.
  set (w := loc f (face_pos g x' y')) in *.
  assert (F : far (sig S) (P3 1 x y) (P3 (pw w) (pa w) (pb w))) by (apply (apart S (2 * vi - N) (2 * vj - N)); auto).
  assert (Ew : P3 (pw w) (pa w) (pb w) = w) by (destruct w; reflexivity). rewrite Ew in F.
  assert (L1 : loc f d1 = scale t (P3 1 x y)) by (rewrite D1, loc_shrink, loc_face by auto; reflexivity).
  assert (L2 : loc f d2 = scale t' w) by (rewrite D2, loc_shrink by auto; reflexivity).
  destruct (sig_small S PS) as (SP & _).
  pose proof (far_dist (sig S) _ _ t t' SP F T0 T0') as FD. rewrite <- L1, <- L2 in FD.
  specialize (FD (loc_unit f d1 Hf S1) (loc_unit f d2 Hf S2)). rewrite loc_dt in FD by auto.
  destruct (chd_range d1 d2 S1 S2) as (H1 & H2 & H3). rewrite <- H3, <- H2 in FD. nra.
Qed.

(** ** A point is close to its leaf *)
Lemma quotient_near (a : f64) t : finite a -> result a t -> -1 <= B2R a <= 1 -> Rabs (t - B2R a) <= 2 * eps.
Proof.
  intros F [(_ & E & _)|(s & E & _)] B; [|rewrite E in F; discriminate].
  assert (T : Rabs t <= 2).
  { destruct f2_val as [F2 V2]. destruct (fneg_val _ F2) as [F3 V3]. rewrite V2 in V3. apply Rabs_le. split; apply Rnot_lt_le; intros H.
    - assert (K : rnd t <= rnd (B2R (fneg f2))) by (apply rnd_le; lra). rewrite rnd_fix in K. lra.
    - assert (K : rnd (B2R f2) <= rnd t) by (apply rnd_le; lra). rewrite rnd_fix in K. lra. }
  pose proof (rnd_err t 1 ltac:(lia) T) as R. rewrite E. rewrite <- Rabs_Ropp. replace (- (t - rnd t)) with (rnd t - t) by ring.
  eapply Rle_trans; [exact R|]. change (bpow radix2 (1 - 53)) with (/ 4503599627370496). lra.
Qed.
Lemma near_leaf p : finite_point p -> exists m, cellid_from_point p = Some (code (leaf m)) /\ wf (leaf m) /\
  exists d, patch (cell_of (leaf m)) d /\ chd (direction p) d <= 15 * eps.
Proof.
  intros (Fx & Fy & Fz & NZ). destruct (xyz_uv p (conj Fx (conj Fy Fz)) NZ) as (a & b & E & Fu & Fv & Bu & Bv & EF).
  pose proof (face_bounds p) as Hf. destruct (column a Fu Bu) as (Ri & Lu & Uu). destruct (column b Fv Bv) as (Rj & Lv & Uv).
  set (i := st_to_ij (uv_to_st a)) in *. set (j := st_to_ij (uv_to_st b)) in *.
  destruct (from_face_ij_leaf (StuvModel.face p) i j Hf Ri Rj) as (m & W & Em & Fm & _).
  exists m. split; [unfold cellid_from_point; rewrite E; exact Em|]. split; [exact W|].
  destruct (sq_correct (leaf m) W) as (_ & S & H).
  assert (I : in_square (sq (leaf m)) (StuvModel.face p) i j).
  { apply H; auto. exists m. split; [exact Em|]. unfold leaves, leaf. cbn [lv ix]. change (4 ^ (30 - 30))%Z with 1%Z. lia. }
  destruct I as (_ & Ii & Ij). cbn [lv leaf] in S. change (side 30) with 1%Z in S. rewrite S in Ii, Ij.
  set (f := StuvModel.face p) in *. set (C := loc f (RV p)).
  destruct (face_uv_val f p Hf (conj Fx (conj Fy Fz))) as [N0 N1]. fold C in N0, N1.
  assert (Pw : 0 < pw C) by (apply Rnot_le_lt; intros K; rewrite (N0 K) in EF; discriminate).
  destruct (N1 Pw) as (a' & b' & EF' & Ra & Rb). rewrite EF' in EF. injection EF as -> ->.
  pose proof (quotient_near a _ Fu Ra Bu) as Qa. pose proof (quotient_near b _ Fv Rb Bv) as Qb. apply Rabs_le_inv in Qa, Qb.
  assert (Eu : u0 (cell_rc (leaf m)) = B2R (uvl (2 * i)) /\ u1 (cell_rc (leaf m)) = B2R (uvl (2 * i + 2)) /\ v0 (cell_rc (leaf m)) = B2R (uvl (2 * j)) /\ v1 (cell_rc (leaf m)) = B2R (uvl (2 * j + 2))).
  { unfold cell_rc, uvrect. cbn [u0 u1 v0 v1 rx ry lo1 hi1]. rewrite S. replace (sq_i (sq (leaf m))) with i by lia. replace (sq_j (sq (leaf m))) with j by lia.
    replace (2 * (i + 1))%Z with (2 * i + 2)%Z by lia. replace (2 * (j + 1))%Z with (2 * j + 2)%Z by lia. auto. }
  destruct Eu as (U0 & U1 & V0 & V1).
  assert (SQ : 0 < sqn p).
  { unfold sqn. pose proof (Rle_0_sqr (B2R (vx p))) as Q1. pose proof (Rle_0_sqr (B2R (vy p))) as Q2. pose proof (Rle_0_sqr (B2R (vz p))) as Q3. unfold Rsqr in *.
    destruct NZ as [K|[K|K]]; apply Rsqr_pos_lt in K; unfold Rsqr in K; lra. }
  pose proof (direction_sphere p SQ) as SD. pose proof (sqrt_lt_R0 _ SQ) as LP. set (n := sqrt (sqn p)) in *.
  assert (ED : direction p = shrink (/ n) (RV p)).
  { unfold direction, shrink, RV. cbn [px3 py3 pz3]. unfold n, sqn. unfold Rdiv; f_equal; apply Rmult_comm. }
  assert (IP : 0 < / n) by (apply Rinv_0_lt_compat; lra).
  set (c := loc f (direction p)). assert (Ec : c = scale (/ n) C) by (unfold c, C; rewrite ED, loc_shrink by auto; reflexivity).
  assert (Pc : pw c = / n * pw C /\ pa c = / n * pa C /\ pb c = / n * pb C) by (rewrite Ec; repeat split). destruct Pc as (P1 & P2 & P3).
  assert (Pp : 0 < pw c) by (rewrite P1; apply Rmult_lt_0_compat; lra).
  assert (Ea : pa c = pa C / pw C * pw c) by (rewrite P1, P2; field; lra). assert (Eb : pb c = pb C / pw C * pw c) by (rewrite P1, P3; field; lra).
  set (ta := pa C / pw C) in *. set (tb := pb C / pw C) in *.
  destruct (near_in (cell_rc (leaf m)) c (10 * eps)) as (x & y & BX & BY & D).
  - apply cell_rc_ok; assumption.
  - apply loc_unit; assumption.
  - exact Pp.
  - lra.
  - unfold l0. rewrite Eb, V0. replace (tb * pw c - B2R (uvl (2 * j)) * pw c) with ((tb - B2R (uvl (2 * j))) * pw c) by ring. apply Rmult_le_compat_r; lra.
  - unfold l1. rewrite Ea, U1. replace (B2R (uvl (2 * i + 2)) * pw c - ta * pw c) with ((B2R (uvl (2 * i + 2)) - ta) * pw c) by ring. apply Rmult_le_compat_r; lra.
  - unfold l2. rewrite Eb, V1. replace (B2R (uvl (2 * j + 2)) * pw c - tb * pw c) with ((B2R (uvl (2 * j + 2)) - tb) * pw c) by ring. apply Rmult_le_compat_r; lra.
  - unfold l3. rewrite Ea, U0. replace (ta * pw c - B2R (uvl (2 * i)) * pw c) with ((ta - B2R (uvl (2 * i))) * pw c) by ring. apply Rmult_le_compat_r; lra.
  - destruct (below_patch (leaf m) x y W BX BY) as (PB & LB). exists (below (face_of (leaf m)) x y). split; [exact PB|].
    assert (Ff : face_of (leaf m) = f) by (rewrite Fm; reflexivity). rewrite Ff in LB, PB |- *.
    rewrite <- LB in D. unfold c in D. rewrite loc_dt in D by auto.
    destruct PB as (SB & _). destruct (chd_range _ _ SD SB) as ((H0 & _) & H2 & H3).
    apply Rnot_lt_le. intros K. assert (15 * eps * (15 * eps) < chd (direction p) (below f x y) * chd (direction p) (below f x y)) by (apply Rmult_le_0_lt_compat; lra). lra.
Qed.
