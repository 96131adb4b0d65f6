(** The real geometry behind Cap::cell_union_bound: a point outside the cells around
    a vertex is far from every point of the quarter of a cell next to that vertex.
    Lattice lines of the cube are integers in [-2^30, 2^30]; [gv] is their position
    on the face (CellVertex.v). *)
From Coq Require Import ZArith Reals Lra Lia Psatz.
From Flocq Require Import Core.
From Verif Require Import Base F64 F64Facts IntervalSpec F64Arith F64Error StuvError CellLattice CellVertex CapEdge.
Open Scope R_scope.

Notation N := (2 ^ 30)%Z.
Definition RN : R := 1073741824.

(** ** Lattice lines *)
Definition TT (x : R) : R := (2 * x + x * x) / 3.
Lemma gv_near X : (0 <= X <= N)%Z -> Rabs (gv X - TT (IZR X / RN)) <= 4 * eps.
Proof.
  intros H. unfold gv. destruct (uvl_val (X + N) ltac:(lia)) as (_ & E & _). replace (TT (IZR X / RN)) with (UUk (X + N)); [exact E|].
  unfold UUk. rewrite plus_IZR. change (IZR (2 ^ 30)) with 1073741824. assert (0 <= IZR X) by (apply IZR_le; lia).
  rewrite UU_hi by lra. unfold TT, RN. field.
Qed.
Lemma gv_range X : (- N <= X <= N)%Z -> -1 <= gv X <= 1.
Proof. intros H. unfold gv. destruct (uvl_val (X + N) ltac:(lia)) as (_ & _ & E). exact E. Qed.
Lemma gv_mono X Y : (- N <= X)%Z -> (X <= Y)%Z -> (Y <= N)%Z -> gv X <= gv Y.
Proof.
  intros A B C. destruct (Z.eq_dec X Y) as [->|D]; [lra|]. unfold gv. pose proof (uvl_gap (X + N) (Y + N) ltac:(lia) ltac:(lia)). lra.
Qed.
Lemma gv_zero : gv 0 = 0. Proof. unfold gv. apply uvl_ends. Qed.

(** ** The width of a strip between two lines on one side of the middle *)
Lemma width_poly x y : 0 <= x <= 1 -> 0 <= y <= 1 ->
  2 * ((1 + TT y * TT y) * (2 + TT x * TT x)) <= (2 + x + y) * (2 + x + y).
Proof.
  intros A B. assert (LX : 0 <= TT x <= x) by (unfold TT; nra). assert (LY : 0 <= TT y <= y) by (unfold TT; nra).
  assert (SX : TT x * TT x <= x * x) by nra. assert (SY : TT y * TT y <= y * y) by nra.
  assert (0 <= TT x * TT x) by nra. assert (0 <= TT y * TT y) by nra.
  assert (M : (1 + TT y * TT y) * (2 + TT x * TT x) <= (1 + y * y) * (2 + x * x)) by (apply Rmult_le_compat; lra).
  assert (x * x <= x) by nra. assert (y * y <= y) by nra. assert (0 <= x * y) by nra. assert (x * y <= 1) by nra.
  assert (x * x * (y * y) <= x * y) by (replace (x * x * (y * y)) with (x * y * (x * y)) by ring; nra). nra.
Qed.

Definition S2_3 : R := sqrt 2 / 3.
Lemma S2_3_val : 0 < S2_3 /\ S2_3 * S2_3 = 2 / 9 /\ S2_3 <= 1 / 2.
Proof.
  unfold S2_3. pose proof (sqrt_lt_R0 2 ltac:(lra)). pose proof (sqrt_sqrt 2 ltac:(lra)). split; [lra|]. split; [nra|]. nra.
Qed.

(* one strip: lines at x < x + h, both on the upper side; [s] is the float position *)
Lemma width_real x y : 0 <= x -> x <= y -> y <= 1 ->
  (S2_3 * (y - x)) * (S2_3 * (y - x)) * ((1 + TT y * TT y) * (2 + TT x * TT x)) <= (TT y - TT x) * (TT y - TT x) /\
  (S2_3 * (y - x)) * (S2_3 * (y - x)) * ((1 + TT x * TT x) * (2 + TT y * TT y)) <= (TT y - TT x) * (TT y - TT x).
Proof.
  intros A B C. destruct S2_3_val as (S0 & S1 & _).
  pose proof (width_poly x y ltac:(lra) ltac:(lra)) as P. pose proof (width_poly y x ltac:(lra) ltac:(lra)) as Q.
  assert (E : (TT y - TT x) * (TT y - TT x) = (y - x) * (y - x) / 9 * ((2 + x + y) * (2 + x + y))) by (unfold TT; field).
  replace (S2_3 * (y - x) * (S2_3 * (y - x))) with (2 / 9 * ((y - x) * (y - x))) by (rewrite <- S1; ring). rewrite E.
  assert (0 <= (y - x) * (y - x) / 9) by (apply Rmult_le_pos; [apply Rle_0_sqr|lra]).
  set (w := (y - x) * (y - x) / 9) in *. replace (2 / 9 * ((y - x) * (y - x))) with (w * 2) by (unfold w; field).
  split; rewrite Rmult_assoc; apply Rmult_le_compat_l; lra.
Qed.

Lemma sq_up b B e : -1 <= b <= 1 -> -1 <= B <= 1 -> -e <= b - B <= e -> 0 <= e -> b * b <= B * B + 2 * e.
Proof. intros. assert ((b - B) * (b + B) <= 2 * e) by nra. lra. Qed.
Lemma prod_up b B a A e : 0 <= b <= 1 -> 0 <= a <= 1 -> b <= B + e -> a <= A + e -> 0 <= e <= 1 -> 0 <= B <= 1 -> 0 <= A <= 1 -> (1 + b) * (2 + a) <= (1 + B) * (2 + A) + 6 * e.
Proof. intros. assert ((1 + b) * (2 + a) <= (1 + B + e) * (2 + a)) by (apply Rmult_le_compat_r; lra). assert ((1 + B) * (2 + a) <= (1 + B) * (2 + (A + e))) by (apply Rmult_le_compat_l; lra). nra. Qed.
(* the same for the computed positions *)
Lemma width_float a b A B w : 0 <= w -> w <= 1 / 2 -> -1 <= a <= 1 -> -1 <= b <= 1 -> -1 <= A <= 1 -> -1 <= B <= 1 -> A <= B -> Rabs (a - A) <= 4 * eps -> Rabs (b - B) <= 4 * eps ->
  w * w * ((1 + B * B) * (2 + A * A)) <= (B - A) * (B - A) ->
  128 * eps <= w -> a <= b -> (w - 128 * eps) * (w - 128 * eps) * ((1 + b * b) * (2 + a * a)) <= (b - a) * (b - a).
Proof.
  intros W0 W1 Ra Rb RA RB AB Ea Eb H WE ab.
  assert (G : forall z, 1 <= z -> exists s, 1 <= s /\ s * s = z) by (intros z Hz; exists (sqrt z); split; [rewrite <- sqrt_1; apply sqrt_le_1_alt; lra|apply sqrt_sqrt; lra]).
  apply Rabs_le_inv in Ea. apply Rabs_le_inv in Eb.
  assert (BB : 0 <= b * b <= 1) by nra. assert (AA : 0 <= a * a <= 1) by nra. assert (BB' : 0 <= B * B <= 1) by nra. assert (AA' : 0 <= A * A <= 1) by nra.
  pose proof (sq_up b B (4 * eps) Rb RB ltac:(lra) ltac:(lra)) as D1. pose proof (sq_up a A (4 * eps) Ra RA ltac:(lra) ltac:(lra)) as D2.
  set (z := (1 + b * b) * (2 + a * a)) in *. set (Z := (1 + B * B) * (2 + A * A)) in *.
  assert (Z1 : 1 <= Z <= 6) by (unfold Z; nra). assert (z1 : 1 <= z) by (unfold z; nra).
  pose proof (prod_up (b * b) (B * B) (a * a) (A * A) (8 * eps) BB AA ltac:(lra) ltac:(lra) ltac:(lra) BB' AA') as DZ. fold z Z in DZ.
  destruct (G z z1) as (s & s1 & <-). destruct (G Z ltac:(lra)) as (t & t1 & E2). rewrite <- E2 in *.
  assert (ST : s <= t + 48 * eps).
  { destruct (Rle_dec s (t + 48 * eps)); [assumption|exfalso]. assert ((s - t) * (s + t) <= 48 * eps) by lra. nra. }
  assert (WT : w * t <= B - A).
  { destruct (Rle_dec (w * t) (B - A)); [assumption|exfalso]. assert (0 <= B - A) by lra. assert ((B - A) * (B - A) < (w * t) * (w * t)) by (apply Rmult_le_0_lt_compat; lra). lra. }
  assert (F : (w - 128 * eps) * s <= b - a).
  { assert ((w - 128 * eps) * s <= (w - 128 * eps) * (t + 48 * eps)) by (apply Rmult_le_compat_l; lra). assert (w * (48 * eps) <= 1 / 2 * (48 * eps)) by (apply Rmult_le_compat_r; lra). assert (128 * eps * 1 <= 128 * eps * (t + 48 * eps)) by (apply Rmult_le_compat_l; lra). lra. }
  assert (0 <= (w - 128 * eps) * s) by (apply Rmult_le_pos; lra).
  replace ((w - 128 * eps) * (w - 128 * eps) * (s * s)) with (((w - 128 * eps) * s) * ((w - 128 * eps) * s)) by ring.
  apply Rmult_le_compat; lra.
Qed.

(* the gap between lines a < b on one side of the middle *)
Lemma strip a b : (- N <= a)%Z -> (a + 2 <= b)%Z -> (b <= N)%Z -> (0 <= a \/ b <= 0)%Z ->
  let w := S2_3 * (IZR (b - a) / RN) in
  0 <= w - 128 * eps /\ (w - 128 * eps) * (w - 128 * eps) * ((1 + gv b * gv b) * (2 + gv a * gv a)) <= (gv b - gv a) * (gv b - gv a).
Proof.
  intros Ha Hb Hc Side w. destruct S2_3_val as (S0 & S1 & S3).
  assert (G : 2 <= IZR (b - a) <= RN).
  { split; [apply IZR_le; lia|]. unfold RN. change 1073741824 with (IZR (2 ^ 30)). apply IZR_le. lia. }
  assert (W : S2_3 * (2 / RN) <= w <= 1 / 2).
  { unfold w. split; [apply Rmult_le_compat_l; [lra|]; unfold RN in *; lra|]. assert (IZR (b - a) / RN <= 1) by (unfold RN in *; lra).
    assert (0 <= IZR (b - a) / RN) by (unfold RN in *; lra). nra. }
  assert (WE : 128 * eps <= w). { assert (1 / 8 <= S2_3) by nra. assert (1 / 8 * (2 / RN) <= S2_3 * (2 / RN)) by (apply Rmult_le_compat_r; unfold RN; lra). unfold RN in *. lra. }
  split; [lra|]. destruct Side as [Pos|Neg].
  - pose proof (gv_near a ltac:(lia)) as Ea. pose proof (gv_near b ltac:(lia)) as Eb.
    set (x := IZR a / RN) in *. set (y := IZR b / RN) in *.
    assert (RX : 0 <= x /\ x <= y /\ y <= 1).
    { unfold x, y, RN. assert (0 <= IZR a) by (apply IZR_le; lia). assert (IZR a <= IZR b) by (apply IZR_le; lia).
      assert (IZR b <= 1073741824) by (change 1073741824 with (IZR (2 ^ 30)); apply IZR_le; lia). lra. }
    destruct RX as (X0 & XY & Y1). destruct (width_real x y X0 XY Y1) as [H _].
    assert (Ew : w = S2_3 * (y - x)) by (unfold w, x, y; rewrite minus_IZR; unfold RN; lra).
    apply (width_float (gv a) (gv b) (TT x) (TT y) w); try assumption; try lra.
    + apply gv_range; lia.
    + apply gv_range; lia.
    + unfold TT; nra.
    + unfold TT; nra.
    + unfold TT; nra.
    + rewrite Ew. exact H.
    + apply gv_mono; lia.
  - pose proof (gv_near (- a) ltac:(lia)) as Ea. pose proof (gv_near (- b) ltac:(lia)) as Eb. rewrite gv_neg in Ea, Eb by lia. rewrite opp_IZR in Ea, Eb.
    set (y := - IZR a / RN) in *. set (x := - IZR b / RN) in *.
    assert (RX : 0 <= x /\ x <= y /\ y <= 1).
    { unfold x, y, RN. assert (IZR b <= 0) by (apply IZR_le; lia). assert (IZR a <= IZR b) by (apply IZR_le; lia).
      assert (- 1073741824 <= IZR a) by (change (- 1073741824) with (IZR (- 2 ^ 30)); apply IZR_le; lia). lra. }
    destruct RX as (X0 & XY & Y1). destruct (width_real x y X0 XY Y1) as [_ H].
    assert (Ew : w = S2_3 * (y - x)) by (unfold w, x, y; rewrite minus_IZR; unfold RN; lra).
    apply (width_float (gv a) (gv b) (- TT y) (- TT x) w); try assumption; try lra.
    + apply gv_range; lia.
    + apply gv_range; lia.
    + unfold TT; nra.
    + unfold TT; nra.
    + unfold TT; nra.
    + rewrite <- Rabs_Ropp. replace (- (gv a - - TT y)) with (- gv a - TT y) by ring. exact Ea.
    + rewrite <- Rabs_Ropp. replace (- (gv b - - TT x)) with (- gv b - TT x) by ring. exact Eb.
    + rewrite Ew. replace (- TT x * - TT x) with (TT x * TT x) by ring. replace (- TT y * - TT y) with (TT y * TT y) by ring.
      replace ((- TT x - - TT y) * (- TT x - - TT y)) with ((TT y - TT x) * (TT y - TT x)) by ring. exact H.
    + apply gv_mono; lia.
Qed.

(* moving away from the line makes the angle larger *)
Lemma away tb ta x k : -1 <= x -> x <= ta -> ta <= tb -> tb <= 1 -> 0 <= k -> k * (2 + ta * ta) <= (tb - ta) * (tb - ta) -> k * (2 + x * x) <= (tb - x) * (tb - x).
Proof.
  intros A B C D K H.
  assert (P : (tb - ta) * (tb - ta) * (2 + x * x) <= (tb - x) * (tb - x) * (2 + ta * ta)).
  { assert (E : (tb - x) * (tb - x) * (2 + ta * ta) - (tb - ta) * (tb - ta) * (2 + x * x) = (ta - x) * ((tb - x) * (2 + ta * tb) + (tb - ta) * (2 + x * tb))) by ring.
    assert (-1 <= ta * tb) by nra. assert (-1 <= x * tb) by nra.
    assert (0 <= (ta - x) * ((tb - x) * (2 + ta * tb) + (tb - ta) * (2 + x * tb))).
    { apply Rmult_le_pos; [lra|]. apply Rplus_le_le_0_compat; apply Rmult_le_pos; lra. } lra. }
  assert (0 < 2 + ta * ta) by nra. assert (0 < 2 + x * x) by nra.
  apply Rmult_le_reg_r with (2 + ta * ta); [assumption|].
  apply Rle_trans with ((tb - ta) * (tb - ta) * (2 + x * x)); [|exact P].
  replace (k * (2 + x * x) * (2 + ta * ta)) with (k * (2 + ta * ta) * (2 + x * x)) by ring. apply Rmult_le_compat_r; lra.
Qed.

(** ** A plane between two directions *)
Definition far (s : R) (C Q : p3) : Prop :=
  exists n, 0 < dt n n /\ 0 <= dt n Q /\ dt n C <= 0 /\ s * s * (dt n n * dt C C) <= dt n C * dt n C.

Lemma far_dist s C Q i j : 0 <= s -> far s C Q -> 0 < i -> 0 < j -> unit3 (scale i C) -> unit3 (scale j Q) ->
  s * s <= 2 - 2 * dt (scale i C) (scale j Q).
Proof.
  intros S0 (n & N0 & NQ & NC & H) I J UC UQ.
  assert (Hc : i * i * dt C C = 1) by (unfold unit3 in UC; rewrite <- UC; unfold dt, scale; cbn [pw pa pb]; ring).
  assert (Hn : s * s * dt n n <= (i * dt n C) * (i * dt n C)).
  { apply Rle_trans with (i * i * (s * s * (dt n n * dt C C))).
    - replace (i * i * (s * s * (dt n n * dt C C))) with (s * s * dt n n * (i * i * dt C C)) by ring. rewrite Hc. lra.
    - replace (i * dt n C * (i * dt n C)) with (i * i * (dt n C * dt n C)) by ring. apply Rmult_le_compat_l; [nra|exact H]. }
  set (c := scale i C) in *. set (q := scale j Q) in *.
  set (e := P3 (pw q - pw c) (pa q - pa c) (pb q - pb c)).
  assert (E : dt e e = 2 - 2 * dt c q) by (unfold unit3, dt in *; unfold e; cbn [pw pa pb]; nra).
  assert (Ne : dt n e = j * dt n Q - i * dt n C) by (unfold e, c, q, dt, scale; cbn [pw pa pb]; ring).
  pose proof (cauchy3 n e) as K. rewrite E, Ne in K.
  assert (i * dt n C <= 0) by nra. assert (0 <= j * dt n Q) by nra.
  assert (L : i * dt n C * (i * dt n C) <= (j * dt n Q - i * dt n C) * (j * dt n Q - i * dt n C)) by nra.
  apply Rmult_le_reg_l with (dt n n); [exact N0|]. lra.
Qed.

Definition swap (x : p3) : p3 := P3 (pw x) (pb x) (pa x).
Lemma far_swap s C Q : far s (swap C) (swap Q) -> far s C Q.
Proof. intros (n & A & B & D & E). exists (swap n). unfold dt, swap in *. cbn [pw pa pb] in *. repeat split; lra. Qed.
Lemma far_flip s C Q : far s (flip C) (flip Q) -> far s C Q.
Proof. intros (n & A & B & D & E). exists (flip n). unfold dt, flip in *. cbn [pw pa pb] in *. repeat split; lra. Qed.

(** ** The quarter of a cell next to a vertex, and the cells not touching the vertex *)
Definition sig (S : Z) : R := S2_3 * (IZR S / RN) - 128 * eps.
Definition quarter (S V : Z) (x : R) : Prop :=
  -1 <= x <= 1 /\ ((- N <= V - S)%Z -> gv (V - S) <= x) /\ ((V + S <= N)%Z -> x <= gv (V + S)).
Definition out (S V : Z) (y : R) : Prop :=
  ((V + 2 * S <= N)%Z /\ gv (V + 2 * S) <= y) \/ ((- N <= V - 2 * S)%Z /\ y <= gv (V - 2 * S)).
Definition ongrid (S V : Z) : Prop := (- N <= V <= N)%Z /\ (2 * S | N - V)%Z.

Lemma quarter_neg S V x : (0 < S)%Z -> (- N <= V <= N)%Z -> quarter S V x -> quarter S (- V) (- x).
Proof.
  intros S0 R (A & B & C). split; [lra|]. split; intros H.
  - replace (- V - S)%Z with (- (V + S))%Z by lia. rewrite gv_neg by lia. specialize (C ltac:(lia)). lra.
  - replace (- V + S)%Z with (- (V - S))%Z by lia. rewrite gv_neg by lia. specialize (B ltac:(lia)). lra.
Qed.
Lemma out_neg S V y : (0 < S)%Z -> (- N <= V <= N)%Z -> out S V y -> out S (- V) (- y).
Proof.
  intros S0 R [(A & B)|(A & B)]; [right|left]; (split; [lia|]).
  - replace (- V - 2 * S)%Z with (- (V + 2 * S))%Z by lia. rewrite gv_neg by lia. lra.
  - replace (- V + 2 * S)%Z with (- (V - 2 * S))%Z by lia. rewrite gv_neg by lia. lra.
Qed.
Definition pow2side (S : Z) : Prop := exists j, (1 <= j <= 30)%Z /\ S = (2 ^ j)%Z.
Lemma pow2side_facts S : pow2side S -> (2 <= S <= N)%Z /\ (S | N)%Z.
Proof.
  intros (j & J & ->). split.
  - split; [change 2%Z with (2 ^ 1)%Z at 1; apply Z.pow_le_mono_r; lia|apply Z.pow_le_mono_r; lia].
  - exists (2 ^ (30 - j))%Z. rewrite <- Z.pow_add_r by lia. f_equal. lia.
Qed.
Definition gridside (S : Z) : Prop := (1 <= S <= N)%Z /\ (S | N)%Z.
Lemma pow2side_grid S : pow2side S -> gridside S.
Proof. intros P. destruct (pow2side_facts S P) as (A & B). split; [lia|exact B]. Qed.
Lemma ongrid_neg S V : gridside S -> ongrid S V -> ongrid S (- V).
Proof.
  intros P (A & B). split; [lia|]. destruct P as (_ & D). apply (Z.mul_divide_mono_l _ _ 2) in D.
  replace (N - - V)%Z with (2 * N - (N - V))%Z by lia. apply Z.divide_sub_r; assumption.
Qed.
(* no line strictly between V+S and V+2S is the middle line *)
Lemma no_straddle S V : pow2side S -> ongrid S V -> (V + S < 0 -> V + 2 * S <= 0)%Z.
Proof.
  intros P (A & (q & B)) H. destruct (pow2side_facts S P) as (R & (d & D)).
  assert (d <= 2 * q - 2 \/ 2 * q - 1 <= d)%Z as [|] by lia; nia.
Qed.
Lemma sig_ge S T : (S <= T)%Z -> sig S <= sig T.
Proof. intros H. unfold sig. destruct S2_3_val as (A & _). apply IZR_le in H. assert (IZR S / RN <= IZR T / RN) by (unfold RN; lra). nra. Qed.

Lemma gap S V : pow2side S -> ongrid S V -> (V + 2 * S <= N)%Z ->
  0 <= sig S /\ sig S * sig S * ((1 + gv (V + 2 * S) * gv (V + 2 * S)) * (2 + gv (V + S) * gv (V + S))) <= (gv (V + 2 * S) - gv (V + S)) * (gv (V + 2 * S) - gv (V + S)).
Proof.
  intros P G H. destruct (pow2side_facts S P) as (R & _). pose proof (no_straddle S V P G) as NS. destruct G as (A & _).
  pose proof (strip (V + S) (V + 2 * S) ltac:(lia) ltac:(lia) H ltac:(lia)) as T. cbv zeta in T.
  replace (V + 2 * S - (V + S))%Z with S in T by lia. exact T.
Qed.

Lemma below_line S V x z : pow2side S -> ongrid S V -> (V + 2 * S <= N)%Z -> quarter S V x -> -1 <= z <= 1 ->
  let tb := gv (V + 2 * S) in x <= tb /\
  sig S * sig S * ((1 + tb * tb) * (1 + x * x + z * z)) <= (tb - x) * (tb - x).
Proof.
  intros P G H (Q & _ & Q2) Z tb. destruct (pow2side_facts S P) as (R & _). destruct (gap S V P G H) as (S0 & T). fold tb in T.
  pose proof (gv_mono (V + S) (V + 2 * S) ltac:(destruct G; lia) ltac:(lia) H) as M. fold tb in M. specialize (Q2 ltac:(lia)).
  pose proof (gv_range (V + 2 * S) ltac:(destruct G; lia)) as RB. fold tb in RB.
  split; [lra|].
  apply Rle_trans with (sig S * sig S * (1 + tb * tb) * (2 + x * x)).
  - rewrite (Rmult_assoc (sig S * sig S)). apply Rmult_le_compat_l; [nra|]. apply Rmult_le_compat_l; nra.
  - assert (0 <= sig S * sig S) by (apply Rmult_le_pos; lra). assert (0 <= 1 + tb * tb) by nra.
    apply (away tb (gv (V + S)) x (sig S * sig S * (1 + tb * tb))); try lra. apply Rmult_le_pos; assumption.
Qed.

(* the plane through the line V+2S of the second coordinate *)
Lemma std_plane S V x z y1 y2 y3 : pow2side S -> ongrid S V -> (V + 2 * S <= N)%Z -> quarter S V x -> -1 <= z <= 1 ->
  0 <= y2 - gv (V + 2 * S) * y1 -> far (sig S) (P3 1 x z) (P3 y1 y2 y3).
Proof.
  intros P G H Q Z Y. destruct (below_line S V x z P G H Q Z) as (A & B). set (tb := gv (V + 2 * S)) in *.
  exists (P3 (- tb) 1 0). unfold dt. cbn [pw pa pb]. repeat split; try nra.
Qed.
(* the plane through the same line on the faces across the edges of the third coordinate *)
Lemma side_plane S V x z y1 y2 y3 t : pow2side S -> ongrid S V -> (V + 2 * S <= N)%Z -> quarter S V x -> -1 <= z <= 1 ->
  gv (V + 2 * S) <= 0 -> t = 1 \/ t = -1 -> 0 <= y2 - gv (V + 2 * S) * (t * y3) -> far (sig S) (P3 1 x z) (P3 y1 y2 y3).
Proof.
  intros P G H Q Z T Ht Y. destruct (below_line S V x z P G H Q Z) as (A & B). set (tb := gv (V + 2 * S)) in *.
  assert (L : x - tb * (t * z) <= x - tb) by (destruct Ht as [-> | ->]; nra).
  assert (T2 : t * t = 1) by (destruct Ht as [-> | ->]; ring).
  exists (P3 0 1 (- (tb * t))). unfold dt. cbn [pw pa pb]. repeat split; try nra.
Qed.
Lemma sig_small S : pow2side S -> 0 <= sig S /\ sig S * sig S <= 2 / 9.
Proof.
  intros P. destruct (pow2side_facts S P) as (R & _). destruct S2_3_val as (A & B & C).
  assert (E : 2 <= IZR S <= RN). { split; [apply IZR_le; lia|]. unfold RN. change 1073741824 with (IZR (2 ^ 30)). apply IZR_le; lia. }
  assert (0 <= sig S). { unfold sig. assert (1 / 8 <= S2_3) by nra. assert (2 / RN <= IZR S / RN) by (unfold RN in *; lra).
    assert (1 / 8 * (2 / RN) <= S2_3 * (IZR S / RN)) by (apply Rmult_le_compat; unfold RN in *; lra). unfold RN in *. lra. }
  assert (sig S <= S2_3). { unfold sig. assert (IZR S / RN <= 1) by (unfold RN in *; lra). assert (S2_3 * (IZR S / RN) <= S2_3 * 1) by (apply Rmult_le_compat_l; lra). lra. }
  split; [assumption|]. rewrite <- B. apply Rmult_le_compat; lra.
Qed.
(* the opposite face *)
Lemma back_plane S x z y2 y3 : pow2side S -> -1 <= x <= 1 -> -1 <= z <= 1 -> far (sig S) (P3 1 x z) (P3 (-1) y2 y3).
Proof.
  intros P X Z. destruct (sig_small S P) as (A & B). exists (P3 (-1) 0 0). unfold dt. cbn [pw pa pb]. repeat split; try lra.
  assert (x * x <= 1) by nra. assert (z * z <= 1) by nra. nra.
Qed.
Lemma gv_strict X Y : (- N <= X)%Z -> (X < Y)%Z -> (Y <= N)%Z -> gv X < gv Y.
Proof. intros A B C. unfold gv. pose proof (uvl_gap (X + N) (Y + N) ltac:(lia) ltac:(lia)). lra. Qed.

Definition on_cube (y1 y2 y3 : R) : Prop :=
  -1 <= y1 <= 1 /\ -1 <= y2 <= 1 /\ -1 <= y3 <= 1 /\ (y1 = 1 \/ y1 = -1 \/ y2 = 1 \/ y2 = -1 \/ y3 = 1 \/ y3 = -1).

(* beyond the line on the high side of the second coordinate *)
Lemma far_high S V x z y1 y2 y3 : pow2side S -> ongrid S V -> quarter S V x -> -1 <= z <= 1 -> on_cube y1 y2 y3 ->
  (V + 2 * S <= N)%Z -> gv (V + 2 * S) <= y2 -> far (sig S) (P3 1 x z) (P3 y1 y2 y3).
Proof.
  intros P G Q Z (Y1 & Y2 & Y3 & F) H L. destruct (pow2side_facts S P) as (R & _).
  pose proof (gv_range (V + 2 * S) ltac:(destruct G; lia)) as RB.
  assert (LB : -1 < gv (V + 2 * S)). { rewrite <- (proj2 gv_one). apply gv_strict; destruct G; lia. }
  assert (Std : 0 <= y2 - gv (V + 2 * S) * y1 -> far (sig S) (P3 1 x z) (P3 y1 y2 y3)) by (intros K; eapply std_plane; eauto).
  destruct (Rle_dec 0 (gv (V + 2 * S))) as [T|T]; [apply Std; nra|].
  destruct F as [-> |[-> |[-> |[-> |[-> | ->]]]]].
  - apply Std; lra.
  - destruct Q. apply back_plane; assumption.
  - apply Std; nra.
  - lra.
  - apply (side_plane S V x z y1 y2 1 1); auto; lra.
  - apply (side_plane S V x z y1 y2 (-1) (-1)); auto; lra.
Qed.
Lemma on_cube_flip y1 y2 y3 : on_cube y1 y2 y3 -> on_cube y1 (- y2) y3.
Proof. intros (A & B & C & F). repeat split; try lra. Qed.
Lemma on_cube_swap y1 y2 y3 : on_cube y1 y2 y3 -> on_cube y1 y3 y2.
Proof. intros (A & B & C & F). repeat split; try lra. Qed.
Lemma far_second S V x z y1 y2 y3 : pow2side S -> ongrid S V -> quarter S V x -> -1 <= z <= 1 -> on_cube y1 y2 y3 ->
  out S V y2 -> far (sig S) (P3 1 x z) (P3 y1 y2 y3).
Proof.
  intros P G Q Z Y O. destruct (pow2side_facts S P) as (R & _). destruct O as [(H & L)|(H & L)]; [eapply far_high; eauto|].
  apply far_flip. unfold flip. cbn [pw pa pb].
  apply (far_high S (- V)); auto.
  - apply ongrid_neg; [apply pow2side_grid|]; assumption.
  - apply quarter_neg; destruct G; auto; lia.
  - apply on_cube_flip; assumption.
  - lia.
  - replace (- V + 2 * S)%Z with (- (V - 2 * S))%Z by lia. rewrite gv_neg by (destruct G; lia). lra.
Qed.
(* across the edge of the second coordinate *)
Lemma far_edge S V x z y1 y3 : pow2side S -> ongrid S V -> quarter S V x -> -1 <= z <= 1 -> on_cube y1 1 y3 ->
  (- N <= N - 2 * S)%Z -> y1 <= gv (N - 2 * S) -> far (sig S) (P3 1 x z) (P3 y1 1 y3).
Proof.
  intros P G Q Z (Y1 & _) H L. destruct (pow2side_facts S P) as (R & D).
  destruct (Z_le_dec (V + 2 * S) N) as [K|K].
  { apply (std_plane S V); auto. pose proof (gv_range (V + 2 * S) ltac:(destruct G; lia)). nra. }
  assert (V = N). { destruct G as (A & (q & B)). assert (q = 0)%Z by nia. lia. } subst V.
  destruct Q as (X & X1 & _). specialize (X1 ltac:(lia)). pose proof (gv_mono 0 (N - S) ltac:(lia) ltac:(lia) ltac:(lia)) as X2. rewrite gv_zero in X2.
  destruct (sig_small S P) as (S0 & S1). set (b := gv (N - 2 * S)) in *. pose proof (gv_range (N - 2 * S) ltac:(lia)) as RB. fold b in RB.
  assert (XX : x * x <= 1) by nra. assert (ZZ : z * z <= 1) by nra.
  exists (P3 (-1) b 0). unfold dt. cbn [pw pa pb]. repeat split; try nra.
  replace (-1 * -1 + b * b + 0 * 0) with (1 + b * b) by ring. replace (1 * 1 + x * x + z * z) with (1 + x * x + z * z) by ring.
  replace ((-1 * 1 + b * x + 0 * z) * (-1 * 1 + b * x + 0 * z)) with ((1 - b * x) * (1 - b * x)) by ring.
  destruct (Z_le_dec 0 (N - 2 * S)) as [Pos|Neg].
  - pose proof (gv_mono 0 (N - 2 * S) ltac:(lia) Pos ltac:(lia)) as B0. rewrite gv_zero in B0. fold b in B0.
    pose proof (strip (- N) (- (N - 2 * S)) ltac:(lia) ltac:(lia) ltac:(lia) ltac:(lia)) as T. cbv zeta in T.
    rewrite !gv_neg in T by lia. rewrite (proj1 gv_one) in T. fold b in T. destruct T as (T0 & T).
    replace (- (N - 2 * S) - - N)%Z with (2 * S)%Z in T, T0 by lia. fold (sig (2 * S)) in T, T0.
    pose proof (sig_ge S (2 * S) ltac:(lia)) as SG.
    assert (SS : sig S * sig S <= sig (2 * S) * sig (2 * S)) by (apply Rmult_le_compat; lra).
    apply Rle_trans with (sig (2 * S) * sig (2 * S) * ((1 + b * b) * 3)).
    + apply Rmult_le_compat; nra.
    + apply Rle_trans with ((1 - b) * (1 - b)); [lra|]. assert (1 - b <= 1 - b * x) by nra. apply Rmult_le_compat; lra.
  - assert (S = N)%Z by (destruct D as (d & D); assert (d < 2)%Z by nia; nia).
    assert (EB : b = -1). { unfold b. replace (N - 2 * S)%Z with (- N)%Z by lia. rewrite gv_neg by lia. rewrite (proj1 gv_one). ring. }
    rewrite EB. apply Rle_trans with (2 / 9 * ((1 + -1 * -1) * (2 + x * x))).
    + apply Rmult_le_compat; try nra.
    + nra.
Qed.

Theorem apart S V2 V3 x2 x3 y1 y2 y3 : pow2side S -> ongrid S V2 -> ongrid S V3 -> quarter S V2 x2 -> quarter S V3 x3 ->
  on_cube y1 y2 y3 -> out S N y1 \/ out S V2 y2 \/ out S V3 y3 -> far (sig S) (P3 1 x2 x3) (P3 y1 y2 y3).
Proof.
  intros P G2 G3 Q2 Q3 Y O. destruct (pow2side_facts S P) as (R & _).
  assert (X2 : -1 <= x2 <= 1) by apply Q2. assert (X3 : -1 <= x3 <= 1) by apply Q3.
  destruct O as [O|[O|O]].
  - destruct O as [(H & _)|(H & L)]; [lia|].
    assert (LB : gv (N - 2 * S) < 1). { rewrite <- (proj1 gv_one). apply gv_strict; lia. }
    pose proof Y as (_ & _ & _ & F). destruct F as [-> |[-> |[-> |[-> |[-> | ->]]]]].
    + lra.
    + apply back_plane; assumption.
    + apply (far_edge S V2); auto.
    + apply far_flip. unfold flip. cbn [pw pa pb]. replace (- -1) with 1 by ring. apply on_cube_flip in Y. replace (- -1) with 1 in Y by ring.
      apply (far_edge S (- V2)); auto. * apply ongrid_neg; [apply pow2side_grid|]; assumption. * apply quarter_neg; destruct G2; auto; lia.
    + apply far_swap. unfold swap. cbn [pw pa pb]. apply on_cube_swap in Y. apply (far_edge S V3); auto.
    + apply far_swap. unfold swap. cbn [pw pa pb]. apply on_cube_swap in Y.
      apply far_flip. unfold flip. cbn [pw pa pb]. replace (- -1) with 1 by ring. apply on_cube_flip in Y. replace (- -1) with 1 in Y by ring.
      apply (far_edge S (- V3)); auto. * apply ongrid_neg; [apply pow2side_grid|]; assumption. * apply quarter_neg; destruct G3; auto; lia.
  - apply (far_second S V2); auto.
  - apply far_swap. unfold swap. cbn [pw pa pb]. apply on_cube_swap in Y. apply (far_second S V3); auto.
Qed.
