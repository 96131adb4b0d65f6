(** The rim of cells around a cell is as wide as the narrowest cell of its level. *)
From Coq Require Import ZArith Reals Lra Lia Psatz List.
From Flocq Require Import Core.
From Verif Require Import Base Spec F64 F64Facts IntervalSpec F64Arith F64Error S1Proofs VectorModel StuvModel R1Model
  CellIdModel CellIdArith CellIdProofs HilbertModel HilbertSpec HilbertGeom NeighborSpec NeighborModel NeighborLists PropsNeighbor
  CellSpec CellModel StuvError CellLattice CellProofs CellPoint CellVertex
  PredicatesFloat CapSpec CapModel CapError CapCell CapEdge CapEdgeFloat CapEdgeMain CoverGeom CoverCell CoverProofs.
Import ListNotations.
Open Scope R_scope.
Local Notation Z := BinInt.Z.

(** ** A strip of width T beyond the line W, T at most half a face *)
Section Rim.
  Context (T : Z) (P : pow2side T).
  (* between two lines of a grid of step T *)
  Definition within (A : Z) (x : R) : Prop := gv A <= x <= gv (A + T).
  Definition lined (W : Z) : Prop := (- N <= W <= N)%Z /\ (T | W)%Z.

  Lemma T_facts : (2 <= T <= N)%Z /\ (T | N)%Z. Proof. apply pow2side_facts, P. Qed.
  Lemma lined_neg W : lined W -> lined (- W).
  Proof. intros (A & B). split; [lia|apply Z.divide_opp_r; exact B]. Qed.
  Lemma below_rim W x z : lined W -> (W + T <= N)%Z -> -1 <= x <= gv W -> -1 <= z <= 1 ->
    let tb := gv (W + T) in x <= tb /\ sig T * sig T * ((1 + tb * tb) * (1 + x * x + z * z)) <= (tb - x) * (tb - x).
  Proof.
    intros (R & (q & Q)) H X Hz tb. destruct T_facts as (RT & _).
    assert (SD : (0 <= W \/ W + T <= 0)%Z) by (assert (0 <= q \/ q <= -1)%Z as [|] by lia; [left|right]; nia).
    pose proof (strip W (W + T) ltac:(lia) ltac:(lia) H SD) as S. cbv zeta in S. replace (W + T - W)%Z with T in S by lia. fold (sig T) in S. fold tb in S. destruct S as (S0 & S).
    pose proof (gv_mono W (W + T) ltac:(lia) ltac:(lia) H) as M. fold tb in M. pose proof (gv_range (W + T) ltac:(lia)) as RB. fold tb in RB. split; [lra|].
    assert (SS : 0 <= sig T * sig T) by (apply Rmult_le_pos; lra). assert (TB : 0 <= 1 + tb * tb) by (pose proof (Rle_0_sqr tb) as Hs; unfold Rsqr in Hs; lra).
    assert (ZZ : z * z <= 1). { rewrite <- (Rmult_1_r 1). apply Rsqr_le_abs_1. rewrite Rabs_R1. apply Rabs_le. lra. }
    apply Rle_trans with (sig T * sig T * (1 + tb * tb) * (2 + x * x)).
    - rewrite (Rmult_assoc (sig T * sig T)). apply Rmult_le_compat_l; [exact SS|]. apply Rmult_le_compat_l; [exact TB|lra].
    - apply (away tb (gv W) x (sig T * sig T * (1 + tb * tb))); try lra. apply Rmult_le_pos; assumption.
  Qed.
  Lemma rim_std W x z y1 y2 y3 : lined W -> (W + T <= N)%Z -> -1 <= x <= gv W -> -1 <= z <= 1 ->
    0 <= y2 - gv (W + T) * y1 -> far (sig T) (P3 1 x z) (P3 y1 y2 y3).
  Proof.
    intros G H X Hz Y. destruct (below_rim W x z G H X Hz) as (A & B). set (tb := gv (W + T)) in *.
    exists (P3 (- tb) 1 0). unfold dt. cbn [pw pa pb]. repeat split; try nra.
  Qed.
  Lemma rim_side W x z y1 y2 y3 t : lined W -> (W + T <= N)%Z -> -1 <= x <= gv W -> -1 <= z <= 1 ->
    gv (W + T) <= 0 -> t = 1 \/ t = -1 -> 0 <= y2 - gv (W + T) * (t * y3) -> far (sig T) (P3 1 x z) (P3 y1 y2 y3).
  Proof.
    intros G H X Hz TB Ht Y. destruct (below_rim W x z G H X Hz) as (A & B). set (tb := gv (W + T)) in *.
    assert (L : x - tb * (t * z) <= x - tb) by (destruct Ht as [-> | ->]; nra).
    assert (T2 : t * t = 1) by (destruct Ht as [-> | ->]; ring).
    exists (P3 0 1 (- (tb * t))). unfold dt. cbn [pw pa pb]. repeat split; try nra.
  Qed.
  (* beyond the rim on the high side of the second coordinate *)
  Lemma rim_high W x z y1 y2 y3 : lined W -> -1 <= x <= gv W -> -1 <= z <= 1 -> on_cube y1 y2 y3 ->
    (W + T <= N)%Z -> gv (W + T) <= y2 -> far (sig T) (P3 1 x z) (P3 y1 y2 y3).
  Proof.
    intros G Q Hz (Y1 & Y2 & Y3 & F) H L. destruct T_facts as (RT & _). pose proof (gv_range (W + T) ltac:(destruct G; lia)) as RB.
    assert (LB : -1 < gv (W + T)). { rewrite <- (proj2 gv_one). apply gv_strict; destruct G; lia. }
    assert (Std : 0 <= y2 - gv (W + T) * y1 -> far (sig T) (P3 1 x z) (P3 y1 y2 y3)) by (intros K; apply (rim_std W); auto).
    destruct (Rle_dec 0 (gv (W + T))) as [C|C]; [apply Std; nra|].
    destruct F as [-> |[-> |[-> |[-> |[-> | ->]]]]].
    - apply Std; lra.
    - apply back_plane; auto. pose proof (gv_range W ltac:(destruct G; lia)). lra.
    - apply Std; nra.
    - lra.
    - apply (rim_side W x z y1 y2 1 1); auto; lra.
    - apply (rim_side W x z y1 y2 (-1) (-1)); auto; lra.
  Qed.
  Lemma within_range A x : (- N <= A)%Z -> (A + T <= N)%Z -> within A x -> -1 <= x <= 1.
  Proof. intros H1 H2 X. destruct T_facts. unfold within in X. pose proof (gv_range A ltac:(lia)). pose proof (gv_range (A + T) ltac:(lia)). lra. Qed.
  Lemma within_neg A x : (- N <= A)%Z -> (A + T <= N)%Z -> within A x -> within (- (A + T)) (- x).
  Proof.
    intros H1 H2 X. destruct T_facts. unfold within in *. replace (- (A + T) + T)%Z with (- A)%Z by lia. rewrite !gv_neg by lia. lra.
  Qed.
  Definition beyond (A : Z) (y : R) : Prop := ((A + 2 * T <= N)%Z /\ gv (A + 2 * T) <= y) \/ ((- N <= A - T)%Z /\ y <= gv (A - T)).
  Lemma rim_second A x z y1 y2 y3 : lined A -> (A + T <= N)%Z -> within A x -> -1 <= z <= 1 -> on_cube y1 y2 y3 -> beyond A y2 ->
    far (sig T) (P3 1 x z) (P3 y1 y2 y3).
  Proof.
    intros G H X Hz Y [(K & L)|(K & L)]; destruct T_facts as (RT & _); pose proof (within_range A x ltac:(destruct G; lia) H X) as RX.
    - apply (rim_high (A + T)); auto; [split; [destruct G; lia|apply Z.divide_add_r; [apply G|apply Z.divide_refl]]|unfold within in X; lra|lia|]. replace (A + T + T)%Z with (A + 2 * T)%Z by lia. exact L.
    - apply far_flip. unfold flip. cbn [pw pa pb]. apply (rim_high (- A)); auto.
      + apply lined_neg, G.
      + rewrite gv_neg by (destruct G; lia). unfold within in X. lra.
      + apply on_cube_flip, Y.
      + lia.
      + replace (- A + T)%Z with (- (A - T))%Z by lia. rewrite gv_neg by (destruct G; lia). lra.
  Qed.
  (* across the edge of the second coordinate *)
  Lemma rim_edge A x z y1 y3 : lined A -> (A + T <= N)%Z -> within A x -> -1 <= z <= 1 -> on_cube y1 1 y3 ->
    y1 <= gv (N - T) -> far (sig T) (P3 1 x z) (P3 y1 1 y3).
  Proof.
    intros G H X Hz (Y1 & _) L. destruct T_facts as (RT & D). pose proof (within_range A x ltac:(destruct G; lia) H X) as RX.
    destruct (Z_le_dec (A + T + T) N) as [K|K].
    { apply (rim_std (A + T)); auto; [split; [destruct G; lia|apply Z.divide_add_r; [apply G|apply Z.divide_refl]]|unfold within in X; lra|].
      pose proof (gv_range (A + T + T) ltac:(destruct G; lia)). nra. }
    assert (EA : (A + T = N)%Z). { destruct G as (RA & (q & B)). destruct D as (d & D). assert (q + 1 = d)%Z by nia. nia. }
    assert (X1 : gv (N - T) <= x) by (replace (N - T)%Z with A by lia; apply X). pose proof (gv_mono 0 (N - T) ltac:(lia) ltac:(lia) ltac:(lia)) as X2. rewrite gv_zero in X2.
    set (b := gv (N - T)) in *. pose proof (gv_range (N - T) ltac:(lia)) as RB. fold b in RB.
    assert (XX : x * x <= 1) by nra. assert (ZZ : z * z <= 1) by nra.
    exists (P3 (-1) b 0). unfold dt. cbn [pw pa pb]. repeat split; try nra.
    replace (-1 * -1 + b * b + 0 * 0) with (1 + b * b) by ring. replace (1 * 1 + x * x + z * z) with (1 + x * x + z * z) by ring.
    replace ((-1 * 1 + b * x + 0 * z) * (-1 * 1 + b * x + 0 * z)) with ((1 - b * x) * (1 - b * x)) by ring.
    pose proof (strip (- N) (- (N - T)) ltac:(lia) ltac:(lia) ltac:(lia) ltac:(lia)) as S. cbv zeta in S.
    rewrite !gv_neg in S by lia. rewrite (proj1 gv_one) in S. fold b in S. destruct S as (S0 & S).
    replace (- (N - T) - - N)%Z with T in S, S0 by lia. fold (sig T) in S, S0.
    assert (SS : 0 <= sig T * sig T) by (apply Rmult_le_pos; lra).
    apply Rle_trans with (sig T * sig T * ((1 + b * b) * 3)).
    + apply Rmult_le_compat_l; [exact SS|]. apply Rmult_le_compat_l; nra.
    + apply Rle_trans with ((1 - b) * (1 - b)); [lra|]. assert (1 - b <= 1 - b * x) by nra. apply Rmult_le_compat; lra.
  Qed.

  Theorem rim_apart A B x2 x3 y1 y2 y3 : lined A -> lined B -> (A + T <= N)%Z -> (B + T <= N)%Z -> within A x2 -> within B x3 -> on_cube y1 y2 y3 ->
    y1 <= gv (N - T) \/ beyond A y2 \/ beyond B y3 -> far (sig T) (P3 1 x2 x3) (P3 y1 y2 y3).
  Proof.
    intros GA GB HA HB X2 X3 Y O. destruct T_facts as (RT & _).
    pose proof (within_range A x2 ltac:(destruct GA; lia) HA X2) as R2. pose proof (within_range B x3 ltac:(destruct GB; lia) HB X3) as R3.
    assert (NA : lined (- (A + T)) /\ (- (A + T) + T <= N)%Z /\ within (- (A + T)) (- x2)).
    { split; [apply lined_neg; split; [destruct GA; lia|apply Z.divide_add_r; [apply GA|apply Z.divide_refl]]|]. split; [destruct GA; lia|]. apply within_neg; auto. destruct GA; lia. }
    assert (NB : lined (- (B + T)) /\ (- (B + T) + T <= N)%Z /\ within (- (B + T)) (- x3)).
    { split; [apply lined_neg; split; [destruct GB; lia|apply Z.divide_add_r; [apply GB|apply Z.divide_refl]]|]. split; [destruct GB; lia|]. apply within_neg; auto. destruct GB; lia. }
    destruct NA as (NA1 & NA2 & NA3). destruct NB as (NB1 & NB2 & NB3).
    destruct O as [L|[O|O]].
    - assert (LB : gv (N - T) < 1). { rewrite <- (proj1 gv_one). apply gv_strict; lia. }
      pose proof Y as (_ & _ & _ & F). destruct F as [-> |[-> |[-> |[-> |[-> | ->]]]]].
      + lra.
      + apply back_plane; assumption.
      + apply (rim_edge A); auto.
      + apply far_flip. unfold flip. cbn [pw pa pb]. replace (- -1) with 1 by ring. apply on_cube_flip in Y. replace (- -1) with 1 in Y by ring. apply (rim_edge (- (A + T))); auto.
      + apply far_swap. unfold swap. cbn [pw pa pb]. apply on_cube_swap in Y. apply (rim_edge B); auto.
      + apply far_swap. unfold swap. cbn [pw pa pb]. apply on_cube_swap in Y.
        apply far_flip. unfold flip. cbn [pw pa pb]. replace (- -1) with 1 by ring. apply on_cube_flip in Y. replace (- -1) with 1 in Y by ring. apply (rim_edge (- (B + T))); auto.
    - apply (rim_second A); auto.
    - apply far_swap. unfold swap. cbn [pw pa pb]. apply on_cube_swap in Y. apply (rim_second B); auto.
  Qed.
End Rim.

(** ** Opposite faces *)
Lemma far_faces s t x2 x3 y2 y3 : 0 < s -> 0 < t -> -1 <= x2 <= 1 -> -1 <= x3 <= 1 -> -1 <= y2 <= 1 -> -1 <= y3 <= 1 ->
  unit3 (scale s (P3 1 x2 x3)) -> unit3 (scale t (P3 (-1) y2 y3)) -> 4 / 3 <= 2 - 2 * dt (scale s (P3 1 x2 x3)) (scale t (P3 (-1) y2 y3)).
Proof.
  intros Hs Ht X2 X3 Y2 Y3. unfold unit3, dt, scale. cbn [pw pa pb]. intros U V.
  assert (X2s : x2 * x2 <= 1) by nra. assert (X3s : x3 * x3 <= 1) by nra. assert (Y2s : y2 * y2 <= 1) by nra. assert (Y3s : y3 * y3 <= 1) by nra.
  assert (S3 : 1 / 3 <= s * s). { assert (s * s * (x2 * x2 + x3 * x3) <= s * s * 2) by (apply Rmult_le_compat_l; [nra|lra]). lra. }
  assert (T3 : 1 / 3 <= t * t). { assert (t * t * (y2 * y2 + y3 * y3) <= t * t * 2) by (apply Rmult_le_compat_l; [nra|lra]). lra. }
  assert (ST : 1 / 3 <= s * t). { apply Rnot_lt_le. intros K. assert (s * t * (s * t) < 1 / 3 * (1 / 3)) by (apply Rmult_le_0_lt_compat; try lra; apply Rmult_le_pos; lra). assert (1 / 3 * (1 / 3) <= s * s * (t * t)) by (apply Rmult_le_compat; lra). lra. }
  assert (Q2 : 0 <= (s * x2 - t * y2) * (s * x2 - t * y2)) by apply Rle_0_sqr. assert (Q3 : 0 <= (s * x3 - t * y3) * (s * x3 - t * y3)) by apply Rle_0_sqr. lra.
Qed.

(* the part of a subdivision that a point lies in *)
Lemma cut A S x : (0 <= S)%Z -> forall n : nat, gv A <= x <= gv (A + Z.of_nat (Datatypes.S n) * S) -> exists i, (0 <= i <= Z.of_nat n)%Z /\ gv (A + i * S) <= x <= gv (A + (i + 1) * S).
Proof.
  intros HS. induction n as [|n IH]; intros X.
  - exists 0%Z. split; [lia|]. replace (A + 0 * S)%Z with A by lia. replace (A + (0 + 1) * S)%Z with (A + Z.of_nat 1 * S)%Z by lia. exact X.
  - destruct (Rle_dec x (gv (A + Z.of_nat (Datatypes.S n) * S))) as [K|K].
    + destruct IH as (i & Hi & Xi); [lra|]. exists i. split; [lia|exact Xi].
    + exists (Z.of_nat (Datatypes.S n)). split; [lia|]. replace (Z.of_nat (Datatypes.S n) + 1)%Z with (Z.of_nat (Datatypes.S (Datatypes.S n))) by lia. lra.
Qed.
Lemma cut_side i s S x : (0 < S)%Z -> (S | s)%Z -> (0 < s)%Z -> gv (2 * i - N) <= x <= gv (2 * (i + s) - N) ->
  exists a, (S | a - i)%Z /\ (i <= a)%Z /\ (a + S <= i + s)%Z /\ gv (2 * a - N) <= x <= gv (2 * a - N + 2 * S).
Proof.
  intros HS (q & Q) Hs X. assert (Hq : (1 <= q)%Z) by nia. assert (Nq : Z.of_nat (Datatypes.S (Z.to_nat (q - 1))) = q) by lia.
  destruct (cut (2 * i - N) (2 * S) x ltac:(lia) (Z.to_nat (q - 1))) as (r & Hr & Xr).
  - rewrite Nq. replace (2 * i - N + q * (2 * S))%Z with (2 * (i + s) - N)%Z by lia. exact X.
  - exists (i + r * S)%Z. split; [exists r; lia|]. split; [nia|]. split; [nia|].
    replace (2 * (i + r * S) - N)%Z with (2 * i - N + r * (2 * S))%Z by lia. replace (2 * i - N + r * (2 * S) + 2 * S)%Z with (2 * i - N + (r + 1) * (2 * S))%Z by lia. exact Xr.
Qed.

(** ** The gap between a cell and a leaf beyond its rim *)
Lemma in_rim c k m P : wf c -> (lv c <= k <= 30)%Z -> wf (leaf m) -> on_square (sq c) P -> corner_of (sq (anc k (leaf m))) P ->
  leaves c m \/ cells_neighbor from_face_ij c (anc k (leaf m)).
Proof.
  intros W Hk Wm OC CO. pose proof W as (HL & _). assert (Wd : wf (anc k (leaf m))) by (apply wf_anc; auto; cbn [lv leaf]; lia). set (D := anc k (leaf m)) in *.
  assert (TO : touch (sq c) (sq D)).
  { exists P. split; [exact OC|]. destruct CO as (al & be & Ha & Hb & E). exists (sq_i (sq D) + al * sq_side (sq D))%Z, (sq_j (sq D) + be * sq_side (sq D))%Z.
    destruct (sq_aligned D Wd) as ((_ & PS & _) & _). split; [destruct Ha as [-> | ->]; lia|]. split; [destruct Hb as [-> | ->]; lia|exact E]. }
  destruct (sq_correct c W) as (AC & _ & IC). destruct (sq_correct D Wd) as (_ & _ & ID). pose proof (face_of_range c W) as Hf. destruct (sq_aligned c W) as ((_ & _ & _ & _ & B1 & B2 & B3 & B4) & Fc & _).
  destruct (ancestor_dec c D) as [A|A].
  - left. apply (proj1 (ancestor_leaves c D W Wd) A). apply (proj1 (ancestor_leaves D (leaf m) Wd Wm) (anc_is_ancestor (leaf m) k ltac:(cbn [lv leaf]; lia))).
    unfold leaves, leaf. cbn [lv ix]. change (4 ^ (30 - 30))%Z with 1%Z. lia.
  - right. exists (sq c), (sq D). split; [apply sq_correct; exact W|]. split; [apply sq_correct; exact Wd|]. split; [exact TO|].
    intros (f & i & j & I1 & I2). apply A. pose proof I1 as (E1 & E2 & E3).
    assert (Hf' : (0 <= f < 6)%Z) by (rewrite E1, Fc; exact Hf).
    apply IC in I1; try lia. apply ID in I2; try lia. destruct I1 as (m1 & M1 & L1). destruct I2 as (m2 & M2 & L2). rewrite M1 in M2. apply Some_inj in M2.
    assert (Wm1 : wf (leaf m1)) by (apply leaf_wf; apply (leaves_bounds c); auto). assert (Wm2 : wf (leaf m2)) by (apply leaf_wf; apply (leaves_bounds D); auto).
    apply code_inj in M2; auto. assert (m1 = m2) by (unfold leaf in M2; congruence). subst m2.
    pose proof (leaves_anc c m1 W L1) as A1. pose proof (leaves_anc D m1 Wd L2) as A2. cbn [lv D anc] in A2.
    assert (A3 : anc (lv c) D = c). { rewrite <- A1 at 2. rewrite <- A2 at 1. apply anc_anc; cbn [lv leaf]; lia. }
    rewrite <- A3. apply anc_is_ancestor. cbn [lv D anc]. lia.
Qed.

Theorem rim_gap c k m d1 d2 : wf c -> (lv c <= k <= 30)%Z -> wf (leaf m) -> patch (cell_of c) d1 -> patch (cell_of (leaf m)) d2 ->
  ~ leaves c m -> ~ cells_neighbor from_face_ij c (anc k (leaf m)) -> sig (2 * side k) <= chd d1 d2.
Proof.
  intros W Hk Wm P1 P2 NL NN. pose proof W as (HL & _).
  assert (Wd : wf (anc k (leaf m))) by (apply wf_anc; auto; cbn [lv leaf]; lia).
  destruct (leaf_in (leaf m) k Wm eq_refl ltac:(lia)) as (Sqe & Fqe & Fpe & Spe & Lie & Lje).
  destruct (sq_aligned c W) as ((F0 & SP & Da1 & Da2 & A1 & A2 & A3 & A4) & Fc & Sc). destruct (sq_aligned _ Wd) as ((_ & _ & Db1 & Db2 & B1 & B2 & B3 & B4) & _ & _).
  destruct (sq_aligned _ Wm) as ((_ & _ & _ & _ & E1 & E2 & E3 & E4) & _ & _). rewrite Spe in B2, B4, Db1, Db2. rewrite Sqe in E2, E4.
  destruct (patch_pos c d1 W P1) as (S1 & x & y & t & T0 & X & Y & D1). destruct (patch_pos _ d2 Wm P2) as (S2 & x' & y' & t' & T0' & X' & Y' & D2). rewrite Sqe in X', Y'.
  set (S := side k) in *.
  assert (PG : gridside S). { split; [unfold S, side; pose proof (Z.pow_pos_nonneg 2 (30 - k) ltac:(lia) ltac:(lia)); split; [lia|apply Z.pow_le_mono_r; lia]|]. exists (2 ^ k)%Z. unfold S, side. rewrite <- Z.pow_add_r by lia. f_equal. lia. }
  assert (SD : (S | sq_side (sq c))%Z). { rewrite Sc. exists (2 ^ (k - lv c))%Z. unfold S, side. rewrite <- Z.pow_add_r by lia. f_equal. lia. }
  destruct (PG) as (RS & DN).
  destruct (cut_side _ _ S x ltac:(lia) SD ltac:(lia) X) as (a & Da & La & Ha & Xa). destruct (cut_side _ _ S y ltac:(lia) SD ltac:(lia) Y) as (b & Db & Lb & Hb & Yb).
  assert (Sa : (S | a)%Z). { replace a with ((a - sq_i (sq c)) + sq_i (sq c))%Z by lia. apply Z.divide_add_r; [exact Da|]. eapply Z.divide_trans; [exact SD|exact Da1]. }
  assert (Sb : (S | b)%Z). { replace b with ((b - sq_j (sq c)) + sq_j (sq c))%Z by lia. apply Z.divide_add_r; [exact Db|]. eapply Z.divide_trans; [exact SD|exact Da2]. }
  set (D := anc k (leaf m)) in *. set (a' := sq_i (sq D)) in *. set (b' := sq_j (sq D)) in *.
  pose proof (face_of_range c W) as Hf. pose proof (face_of_range _ Wm) as Hg. set (f := face_of c) in *. set (g := face_of (leaf m)) in *.
  assert (RX : -1 <= x' <= 1 /\ -1 <= y' <= 1).
  { pose proof (gv_range (2 * sq_i (sq (leaf m)) - N) ltac:(lia)). pose proof (gv_range (2 * (sq_i (sq (leaf m)) + 1) - N) ltac:(lia)).
    pose proof (gv_range (2 * sq_j (sq (leaf m)) - N) ltac:(lia)). pose proof (gv_range (2 * (sq_j (sq (leaf m)) + 1) - N) ltac:(lia)). lra. }
  pose proof (loc_cube f _ Hf (face_pos_cube g x' y' Hg (proj1 RX) (proj2 RX))) as OC.
  set (w := loc f (face_pos g x' y')) in *. set (T := (2 * S)%Z) in *.
  assert (OUT : forall al be, (al = 0 \/ al = 1)%Z -> (be = 0 \/ be = 1)%Z ->
     out S N (pw w) \/ out S (2 * a - N + al * T) (pa w) \/ out S (2 * b - N + be * T) (pb w)).
  { intros al be Hal Hbe. assert (Rvi : (0 <= a + al * S <= N)%Z) by (destruct Hal as [-> | ->]; lia). assert (Rvj : (0 <= b + be * S <= N)%Z) by (destruct Hbe as [-> | ->]; lia).
    assert (Dvi : (S | a + al * S)%Z) by (apply Z.divide_add_r; [exact Sa|exists al; reflexivity]). assert (Dvj : (S | b + be * S)%Z) by (apply Z.divide_add_r; [exact Sb|exists be; reflexivity]).
    assert (O : outs S (cube_point f (a + al * S) (b + be * S)) (face_pos g x' y')).
    { apply (corner_out S g a' b' x' y' _); auto; try lia.
      - apply cube_point_grid; auto.
      - pose proof (gv_mono (2 * a' - N) (2 * sq_i (sq (leaf m)) - N) ltac:(lia) ltac:(lia) ltac:(lia)). pose proof (gv_mono (2 * (sq_i (sq (leaf m)) + 1) - N) (2 * (a' + S) - N) ltac:(lia) ltac:(lia) ltac:(lia)). lra.
      - pose proof (gv_mono (2 * b' - N) (2 * sq_j (sq (leaf m)) - N) ltac:(lia) ltac:(lia) ltac:(lia)). pose proof (gv_mono (2 * (sq_j (sq (leaf m)) + 1) - N) (2 * (b' + S) - N) ltac:(lia) ltac:(lia) ltac:(lia)). lra.
      - replace (Square g a' b' S) with (sq D).
        + intros K. destruct (fun Q => in_rim c k m (cube_point f (a + al * S) (b + be * S)) W Hk Wm Q K) as [K1|K1]; [|exact (NL K1)|exact (NN K1)].
          exists (a + al * S)%Z, (b + be * S)%Z. split; [destruct Hal as [-> | ->]; lia|]. split; [destruct Hbe as [-> | ->]; lia|]. unfold f. rewrite Fc. reflexivity.
        + destruct (sq D) as [s1 s2 s3 s4]. cbn [sq_face sq_side sq_i sq_j] in *. subst a' b'. congruence. }
    pose proof (grid_line S _ PG Dvi Rvi) as Gi. pose proof (grid_line S _ PG Dvj Rvj) as Gj.
    apply (outs_loc S f _ _ _ PG Hf Gi Gj) in O. cbv zeta in O. fold w in O.
    replace (2 * a - N + al * T)%Z with (2 * (a + al * S) - N)%Z by (unfold T; lia). replace (2 * b - N + be * T)%Z with (2 * (b + be * S) - N)%Z by (unfold T; lia). exact O. }
  assert (Ew : P3 (pw w) (pa w) (pb w) = w) by (destruct w; reflexivity).
  assert (L1 : loc f d1 = scale t (P3 1 x y)) by (rewrite D1, loc_shrink, loc_face by auto; reflexivity).
  assert (L2 : loc f d2 = scale t' w) by (rewrite D2, loc_shrink by auto; reflexivity).
  assert (SQ : sig T * sig T <= 2 - 2 * dt (loc f d1) (loc f d2)).
  { assert (BOTH : forall V y0, (- N <= V)%Z -> (V + T <= N)%Z -> out S V y0 -> out S (V + T) y0 -> beyond T V y0).
    { intros V y0 V0 V1 O1 O2. unfold out in O1, O2. fold T in O1, O2. unfold beyond. replace (V + T + T)%Z with (V + 2 * T)%Z in O2 by lia. replace (V + T - T)%Z with V in O2 by lia.
      destruct O1 as [(_ & O1)|O1]; [|right; exact O1]. destruct O2 as [O2|(_ & O2)]; [left; exact O2|].
      pose proof (gv_strict V (V + T) ltac:(lia) ltac:(lia) ltac:(lia)). lra. }
    assert (COMB : pw w <= gv (N - T) /\ (- N <= N - T)%Z \/ beyond T (2 * a - N) (pa w) \/ beyond T (2 * b - N) (pb w)).
    { pose proof (OUT 0%Z 0%Z ltac:(lia) ltac:(lia)) as O00. pose proof (OUT 0%Z 1%Z ltac:(lia) ltac:(lia)) as O01. pose proof (OUT 1%Z 0%Z ltac:(lia) ltac:(lia)) as O10. pose proof (OUT 1%Z 1%Z ltac:(lia) ltac:(lia)) as O11.
      rewrite !Z.mul_0_l, !Z.add_0_r, ?Z.mul_1_l in *.
      assert (OW : out S N (pw w) -> pw w <= gv (N - T) /\ (- N <= N - T)%Z). { unfold out. fold T. intros [(K & _)|(K1 & K2)]; [unfold T in K; lia|split; [exact K2|exact K1]]. }
      pose proof (BOTH (2 * a - N)%Z (pa w) ltac:(lia) ltac:(unfold T; lia)) as BA. pose proof (BOTH (2 * b - N)%Z (pb w) ltac:(lia) ltac:(unfold T; lia)) as BB. clear OUT BOTH.
      destruct O11 as [O|[O|O]]; [left; auto| |]; destruct O00 as [O'|[O'|O']]; auto; destruct O01 as [O1|[O1|O1]]; auto; destruct O10 as [O2|[O2|O2]]; auto. }
    assert (k = 0 \/ 1 <= k)%Z as [K0|K1] by lia.
    - assert (SN : S = N) by (unfold S; rewrite K0; reflexivity). assert (PM : pw w = -1).
      { destruct COMB as [(C & _)|[[(C & _)|(C & _)]|[(C & _)|(C & _)]]]; try (unfold T in C; lia).
        replace (N - T)%Z with (- N)%Z in C by (unfold T; lia). destruct gv_one as (_ & G1). rewrite G1 in C. destruct OC as (C1 & _). lra. }
      assert (RXY : -1 <= x <= 1 /\ -1 <= y <= 1).
      { pose proof (gv_range (2 * sq_i (sq c) - N) ltac:(lia)). pose proof (gv_range (2 * (sq_i (sq c) + sq_side (sq c)) - N) ltac:(lia)).
        pose proof (gv_range (2 * sq_j (sq c) - N) ltac:(lia)). pose proof (gv_range (2 * (sq_j (sq c) + sq_side (sq c)) - N) ltac:(lia)). lra. }
      pose proof (loc_unit f d1 Hf S1) as U1. pose proof (loc_unit f d2 Hf S2) as U2. rewrite L1 in U1. rewrite L2 in U2. rewrite L1, L2. clear OUT BOTH COMB L2 D2. clearbody w. destruct w as [w1 w2 w3]. cbn [pw pa pb] in *. subst w1.
      destruct OC as (_ & C2 & C3 & _).
      pose proof (far_faces t t' x y w2 w3 T0 T0' (proj1 RXY) (proj2 RXY) C2 C3 U1 U2) as FF.
      apply Rle_trans with (4 / 3); [|exact FF]. destruct S2_3_val as (Z0 & _ & Z2).
      assert (Q : sig T = 2 * S2_3 - 128 * eps) by (unfold sig, T; rewrite SN, mult_IZR; change (IZR N) with RN; field; unfold RN; lra).
      assert (- 1 <= sig T <= 1) by (rewrite Q; lra). nra.
    - assert (PT : pow2side T) by (unfold T, S; replace (2 * side k)%Z with (side (k - 1)); [apply side_pow; lia|unfold side; replace (30 - (k - 1))%Z with (Z.succ (30 - k)) by lia; rewrite Z.pow_succ_r by lia; reflexivity]).
      destruct (T_facts T PT) as (RT & DT).
      assert (LN : forall a0, (S | a0)%Z -> (0 <= a0)%Z -> (a0 + S <= N)%Z -> lined T (2 * a0 - N)).
      { intros a0 (q & Q) K2 K3. split; [lia|]. apply Z.divide_sub_r; [|exact DT]. exists q. unfold T. lia. }
      assert (F : far (sig T) (P3 1 x y) (P3 (pw w) (pa w) (pb w))).
      { apply (rim_apart T PT (2 * a - N) (2 * b - N)); auto; try (apply LN; auto; lia); try (unfold T; lia). tauto. }
      rewrite Ew in F. destruct (sig_small T PT) as (SG & _).
      pose proof (far_dist (sig T) _ _ t t' SG F T0 T0') as FD. rewrite <- L1, <- L2 in FD. exact (FD (loc_unit f d1 Hf S1) (loc_unit f d2 Hf S2)). }
  rewrite loc_dt in SQ by auto. destruct (chd_range d1 d2 S1 S2) as (H1 & H2 & H3). rewrite <- H3, <- H2 in SQ.
  apply Rnot_lt_le. intros K. destruct (Rle_dec (sig T) 0) as [K2|K2]; [lra|nra].
Qed.
