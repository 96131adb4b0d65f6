(** The real geometry behind intersects_cell_vertices: a point c of the sphere and
    the part of the sphere below a rectangle, in coordinates (w, a, b) in which the
    point (u, v) of the face is (1, u, v). *)
From Coq Require Import Reals Lra Psatz.
From Flocq Require Import Core.
Open Scope R_scope.

Record p3 := P3 { pw : R; pa : R; pb : R }.
Definition dt (c x : p3) : R := pw c * pw x + pa c * pa x + pb c * pb x.
Definition unit3 (c : p3) : Prop := dt c c = 1.
(* quarter turn of the face *)
Definition turn (c : p3) : p3 := P3 (pw c) (pb c) (- pa c).
Record rc := Rc { u0 : R; u1 : R; v0 : R; v1 : R }.
Definition turn_rc (q : rc) : rc := Rc (v0 q) (v1 q) (- u1 q) (- u0 q).
Definition okrc (q : rc) : Prop := -1 <= u0 q /\ u0 q < u1 q /\ u1 q <= 1 /\ -1 <= v0 q /\ v0 q < v1 q /\ v1 q <= 1.
(* the inner normal of edge 0 and its corners *)
Definition l0 (q : rc) (c : p3) : R := pb c - v0 q * pw c.
Definition l1 (q : rc) (c : p3) : R := u1 q * pw c - pa c.
Definition l2 (q : rc) (c : p3) : R := v1 q * pw c - pb c.
Definition l3 (q : rc) (c : p3) : R := pa c - u0 q * pw c.
Definition incone (q : rc) (c : p3) : Prop := 0 <= l0 q c /\ 0 <= l1 q c /\ 0 <= l2 q c /\ 0 <= l3 q c.
Definition len2 (q : rc) (u v : R) : R := sqrt (1 + u * u + v * v).
Definition corner (u v : R) : p3 := P3 (1 / sqrt (1 + u * u + v * v)) (u / sqrt (1 + u * u + v * v)) (v / sqrt (1 + u * u + v * v)).

Lemma turn_dt c x : dt (turn c) (turn x) = dt c x. Proof. unfold dt, turn. cbn [pw pa pb]. ring. Qed.
Lemma turn_ok q : okrc q -> okrc (turn_rc q). Proof. unfold okrc, turn_rc. cbn [u0 u1 v0 v1]. intros. lra. Qed.
Lemma turn_l0 q c : l0 (turn_rc q) (turn c) = l1 q c. Proof. unfold l0, l1, turn, turn_rc. cbn [u0 u1 v0 v1 pw pa pb]. ring. Qed.
Lemma turn_l1 q c : l1 (turn_rc q) (turn c) = l2 q c. Proof. unfold l1, l2, turn, turn_rc. cbn [u0 u1 v0 v1 pw pa pb]. ring. Qed.
Lemma turn_l2 q c : l2 (turn_rc q) (turn c) = l3 q c. Proof. unfold l2, l3, turn, turn_rc. cbn [u0 u1 v0 v1 pw pa pb]. ring. Qed.
Lemma turn_l3 q c : l3 (turn_rc q) (turn c) = l0 q c. Proof. unfold l3, l0, turn, turn_rc. cbn [u0 u1 v0 v1 pw pa pb]. ring. Qed.

(** From x towards c the patch is left through an edge that has c on its outer side. *)
Definition along (t : R) (x c : p3) : p3 := P3 ((1 - t) * pw x + t * pw c) ((1 - t) * pa x + t * pa c) ((1 - t) * pb x + t * pb c).
Lemma lin_along q t x c : l0 q (along t x c) = (1 - t) * l0 q x + t * l0 q c /\ l1 q (along t x c) = (1 - t) * l1 q x + t * l1 q c /\
  l2 q (along t x c) = (1 - t) * l2 q x + t * l2 q c /\ l3 q (along t x c) = (1 - t) * l3 q x + t * l3 q c.
Proof. unfold l0, l1, l2, l3, along. cbn [pw pa pb]. repeat split; ring. Qed.
Lemma cone_front q x : okrc q -> incone q x -> x <> P3 0 0 0 -> 0 < pw x.
Proof.
  intros (A & B & C & D & E & F) (H0 & H1 & H2 & H3) N. unfold l0, l1, l2, l3 in *.
  assert (0 <= pw x) by nra. destruct (Req_dec (pw x) 0) as [Z|]; [|lra]. rewrite Z in *. exfalso. apply N. destruct x as [w a b]. cbn in *. subst w. f_equal; lra.
Qed.
Lemma unit_nz c : unit3 c -> c <> P3 0 0 0.
Proof. intros H E. subst c. unfold unit3, dt in H. cbn in H. lra. Qed.

(* the first of four linear functions to vanish *)
Lemma first_zero x0 x1 x2 x3 c0 c1 c2 c3 : 0 <= x0 -> 0 <= x1 -> 0 <= x2 -> 0 <= x3 -> (c0 < 0 \/ c1 < 0 \/ c2 < 0 \/ c3 < 0) ->
  exists t, 0 <= t < 1 /\ 0 <= (1 - t) * x0 + t * c0 /\ 0 <= (1 - t) * x1 + t * c1 /\ 0 <= (1 - t) * x2 + t * c2 /\ 0 <= (1 - t) * x3 + t * c3 /\
    ((c0 < 0 /\ (1 - t) * x0 + t * c0 = 0) \/ (c1 < 0 /\ (1 - t) * x1 + t * c1 = 0) \/ (c2 < 0 /\ (1 - t) * x2 + t * c2 = 0) \/ (c3 < 0 /\ (1 - t) * x3 + t * c3 = 0)).
Proof.
  intros X0 X1 X2 X3 N.
  (* the parameter at which one of them vanishes, or 1 *)
  set (z := fun x c => if Rlt_dec c 0 then x / (x - c) else 1).
  assert (Z : forall x c, 0 <= x -> 0 <= z x c <= 1 /\ (forall t, 0 <= t <= z x c -> 0 <= (1 - t) * x + t * c) /\ (c < 0 -> z x c < 1 /\ (1 - z x c) * x + z x c * c = 0)).
  { intros x c Hx. unfold z. destruct (Rlt_dec c 0) as [L|L].
    - assert (P : 0 < x - c) by lra. assert (I : 0 < / (x - c)) by (apply Rinv_0_lt_compat; lra).
      assert (Q : x / (x - c) * (x - c) = x) by (field; lra). assert (0 <= x / (x - c)) by (apply Rmult_le_pos; lra).
      assert (x / (x - c) < 1) by (apply Rmult_lt_reg_r with (x - c); lra).
      split; [lra|]. split; [|intros _; split; [lra|lra]]. intros t Ht. assert (t * (x - c) <= x / (x - c) * (x - c)) by (apply Rmult_le_compat_r; lra). lra.
    - split; [lra|]. split; [|intros; lra]. intros t Ht. assert (0 <= (1 - t) * x) by (apply Rmult_le_pos; lra). assert (0 <= t * c) by (apply Rmult_le_pos; lra). lra. }
  destruct (Z x0 c0 X0) as (A0 & B0 & C0). destruct (Z x1 c1 X1) as (A1 & B1 & C1). destruct (Z x2 c2 X2) as (A2 & B2 & C2). destruct (Z x3 c3 X3) as (A3 & B3 & C3).
  assert (NZ : forall x c, ~ c < 0 -> z x c = 1) by (intros x c H; unfold z; destruct (Rlt_dec c 0); [contradiction|reflexivity]).
  set (t := Rmin (Rmin (z x0 c0) (z x1 c1)) (Rmin (z x2 c2) (z x3 c3))).
  assert (T : t <= z x0 c0 /\ t <= z x1 c1 /\ t <= z x2 c2 /\ t <= z x3 c3).
  { unfold t. pose proof (Rmin_l (Rmin (z x0 c0) (z x1 c1)) (Rmin (z x2 c2) (z x3 c3))). pose proof (Rmin_r (Rmin (z x0 c0) (z x1 c1)) (Rmin (z x2 c2) (z x3 c3))).
    pose proof (Rmin_l (z x0 c0) (z x1 c1)). pose proof (Rmin_r (z x0 c0) (z x1 c1)). pose proof (Rmin_l (z x2 c2) (z x3 c3)). pose proof (Rmin_r (z x2 c2) (z x3 c3)). lra. }
  assert (TE : t = z x0 c0 \/ t = z x1 c1 \/ t = z x2 c2 \/ t = z x3 c3).
  { unfold t, Rmin. repeat destruct Rle_dec; auto. }
  assert (T1 : t < 1) by (destruct N as [N|[N|[N|N]]]; [apply C0 in N|apply C1 in N|apply C2 in N|apply C3 in N]; lra).
  assert (T0 : 0 <= t) by (destruct TE as [-> | [-> | [-> | ->]]]; lra).
  exists t. split; [lra|]. split; [apply B0; lra|]. split; [apply B1; lra|]. split; [apply B2; lra|]. split; [apply B3; lra|].
  destruct TE as [E|[E|[E|E]]].
  - left. destruct (Rlt_dec c0 0) as [L|L]; [|rewrite (NZ x0 c0 L) in E; lra]. split; [exact L|]. rewrite E. apply C0, L.
  - right. left. destruct (Rlt_dec c1 0) as [L|L]; [|rewrite (NZ x1 c1 L) in E; lra]. split; [exact L|]. rewrite E. apply C1, L.
  - right. right. left. destruct (Rlt_dec c2 0) as [L|L]; [|rewrite (NZ x2 c2 L) in E; lra]. split; [exact L|]. rewrite E. apply C2, L.
  - right. right. right. destruct (Rlt_dec c3 0) as [L|L]; [|rewrite (NZ x3 c3 L) in E; lra]. split; [exact L|]. rewrite E. apply C3, L.
Qed.
Lemma cauchy3 c x : dt c x * dt c x <= dt c c * dt x x.
Proof.
  unfold dt. destruct c as [w a b], x as [w' a' b']. cbn [pw pa pb].
  pose proof (Rle_0_sqr (w * a' - a * w')). pose proof (Rle_0_sqr (w * b' - b * w')). pose proof (Rle_0_sqr (a * b' - b * a')). unfold Rsqr in *. lra.
Qed.
Lemma unit_dt c x : unit3 c -> unit3 x -> -1 <= dt c x <= 1.
Proof. intros C X. pose proof (cauchy3 c x) as H. rewrite C, X in H. split; nra. Qed.
Definition scale (t : R) (x : p3) : p3 := P3 (t * pw x) (t * pa x) (t * pb x).
Lemma scale_dt t c x : dt c (scale t x) = t * dt c x. Proof. unfold dt, scale. cbn [pw pa pb]. ring. Qed.
Lemma scale_lin q t x : l0 q (scale t x) = t * l0 q x /\ l1 q (scale t x) = t * l1 q x /\ l2 q (scale t x) = t * l2 q x /\ l3 q (scale t x) = t * l3 q x.
Proof. unfold l0, l1, l2, l3, scale. cbn [pw pa pb]. repeat split; ring. Qed.

Lemma exit_edge q c x : unit3 c -> unit3 x -> incone q x -> ~ incone q c -> 0 < dt c x ->
  exists y, unit3 y /\ incone q y /\ dt c x <= dt c y /\
    ((l0 q c < 0 /\ l0 q y = 0) \/ (l1 q c < 0 /\ l1 q y = 0) \/ (l2 q c < 0 /\ l2 q y = 0) \/ (l3 q c < 0 /\ l3 q y = 0)).
Proof.
  intros C X (X0 & X1 & X2 & X3) N P.
  assert (NC : l0 q c < 0 \/ l1 q c < 0 \/ l2 q c < 0 \/ l3 q c < 0).
  { destruct (Rlt_dec (l0 q c) 0); [auto|]. destruct (Rlt_dec (l1 q c) 0); [auto|]. destruct (Rlt_dec (l2 q c) 0); [auto|]. destruct (Rlt_dec (l3 q c) 0); [auto|].
    exfalso. apply N. unfold incone. lra. }
  destruct (first_zero _ _ _ _ _ _ _ _ X0 X1 X2 X3 NC) as (t & T & H0 & H1 & H2 & H3 & E).
  destruct (lin_along q t x c) as (L0 & L1 & L2 & L3). rewrite <- L0, <- L1, <- L2, <- L3 in *. set (z := along t x c) in *.
  pose proof (unit_dt c x C X) as B.
  assert (DZ : dt c z = (1 - t) * dt c x + t).
  { transitivity ((1 - t) * dt c x + t * dt c c); [unfold z, along, dt; cbn [pw pa pb]; ring|rewrite C; ring]. }
  assert (ZZ : dt z z <= 1).
  { replace (dt z z) with ((1 - t) * (1 - t) * dt x x + t * t * dt c c + 2 * (t * (1 - t)) * dt c x) by (unfold z, along, dt; cbn [pw pa pb]; ring). rewrite C, X.
    assert (0 <= t * (1 - t)) by (apply Rmult_le_pos; lra). assert (t * (1 - t) * dt c x <= t * (1 - t) * 1) by (apply Rmult_le_compat_l; lra). lra. }
  assert (PZ : dt c x <= dt c z) by (rewrite DZ; nra).
  assert (ZP : 0 < dt z z).
  { pose proof (cauchy3 c z) as CZ. rewrite C in CZ. nra. }
  pose proof (sqrt_lt_R0 _ ZP) as SP. pose proof (sqrt_sqrt (dt z z) ltac:(lra)) as SS. set (n := sqrt (dt z z)) in *. assert (N1 : n <= 1) by nra.
  assert (IP : 0 < / n) by (apply Rinv_0_lt_compat; lra). assert (I1 : 1 <= / n) by (rewrite <- Rinv_1; apply Rinv_le_contravar; lra).
  exists (scale (/ n) z). destruct (scale_lin q (/ n) z) as (S0 & S1 & S2 & S3). unfold incone. rewrite S0, S1, S2, S3, scale_dt.
  split; [|split; [|split]].
  - unfold unit3. rewrite scale_dt. replace (dt (scale (/ n) z) z) with (/ n * dt z z) by (unfold dt, scale; cbn [pw pa pb]; ring). rewrite <- SS. field. lra.
  - repeat split; apply Rmult_le_pos; lra.
  - assert (1 * dt c z <= / n * dt c z) by (apply Rmult_le_compat_r; lra). lra.
  - destruct E as [[A1 A2]|[[A1 A2]|[[A1 A2]|[A1 A2]]]]; [left|right; left|right; right; left|right; right; right]; (split; [exact A1|rewrite A2; ring]).
Qed.

(** ** Edge 0 *)
(* minus the determinant of the normal, c and the first corner, and that of the second corner *)
Definition det0 (q : rc) (c : p3) : R := (1 + v0 q * v0 q) * pa c - u0 q * (pw c + v0 q * pb c).
Definition det1 (q : rc) (c : p3) : R := u1 q * (pw c + v0 q * pb c) - (1 + v0 q * v0 q) * pa c.
Lemma len_pos u v : 1 <= sqrt (1 + u * u + v * v) /\ sqrt (1 + u * u + v * v) * sqrt (1 + u * u + v * v) = 1 + u * u + v * v.
Proof. pose proof (Rle_0_sqr u). pose proof (Rle_0_sqr v). unfold Rsqr in *. split; [rewrite <- sqrt_1 at 1; apply sqrt_le_1_alt; lra|apply sqrt_sqrt; lra]. Qed.
Lemma corner_unit u v : unit3 (corner u v).
Proof.
  destruct (len_pos u v) as [A B]. unfold unit3, dt, corner. cbn [pw pa pb]. set (n := sqrt _) in *.
  transitivity ((1 + u * u + v * v) / (n * n)); [field; lra|]. rewrite B. field. nra.
Qed.

Lemma edge_near q c y e : okrc q -> unit3 y -> l0 q y = 0 -> incone q y -> 0 <= e -> det0 q c <= e ->
  let a := dt c (corner (u0 q) (v0 q)) in
  dt c y <= e \/ (0 <= a /\ 0 <= dt c y /\ dt c y * dt c y <= a * a + e * e).
Proof.
  intros K Uy Z I He D a. pose proof (cone_front q y K I (unit_nz y Uy)) as W. destruct I as (_ & I1 & _ & I3).
  destruct K as (K1 & K2 & K3 & K4 & K5 & K6). unfold l0, l1, l3 in *. set (u := u0 q) in *. set (v := v0 q) in *.
  destruct (len_pos u v) as [A B]. set (n := sqrt (1 + u * u + v * v)) in *.
  pose proof (Rle_0_sqr v) as V2. unfold Rsqr in V2.
  assert (A' : 1 <= sqrt (1 + v * v)) by (rewrite <- sqrt_1 at 1; apply sqrt_le_1_alt; lra). assert (B' : sqrt (1 + v * v) * sqrt (1 + v * v) = 1 + v * v) by (apply sqrt_sqrt; lra).
  set (m := sqrt (1 + v * v)) in *.
  set (C := ((1 + v * v) * pw y + u * pa y) / n). set (S := (pa y - u * pw y) * m / n). set (d := det0 q c / (m * n)).
  assert (IN : 0 < / n) by (apply Rinv_0_lt_compat; lra).
  assert (HC : 0 <= C).
  { unfold C. apply Rmult_le_pos; [|lra]. assert (Rabs (u * pa y) <= pw y); [|apply Rabs_le_inv in H; nra].
    rewrite Rabs_mult. replace (pw y) with (1 * pw y) by ring. apply Rmult_le_compat; try apply Rabs_pos; apply Rabs_le; nra. }
  assert (HS : 0 <= S) by (unfold S; apply Rmult_le_pos; [apply Rmult_le_pos; lra|lra]).
  assert (U1 : C * C + S * S = 1).
  { unfold unit3, dt in Uy. assert (Eb : pb y = v * pw y) by lra. rewrite Eb in Uy.
    transitivity (((1 + u * u + v * v) * (pw y * pw y + pa y * pa y + v * pw y * (v * pw y))) / (n * n)).
    - unfold C, S. transitivity ((((1 + v * v) * pw y + u * pa y) * ((1 + v * v) * pw y + u * pa y) + (pa y - u * pw y) * (pa y - u * pw y) * (m * m)) / (n * n)); [field; lra|]. rewrite B'. field. lra.
    - rewrite Uy, B. field. nra. }
  assert (X : dt c y = C * a + S * d).
  { unfold a, corner, dt. cbn [pw pa pb]. fold n. unfold C, S, d, det0. fold u v. assert (Eb : pb y = v * pw y) by lra. rewrite Eb.
    transitivity (((1 + u * u + v * v) * (pw c * pw y + pa c * pa y + pb c * (v * pw y))) / (n * n)); [rewrite B; field; nra|]. field. lra. }
  assert (Hd : d <= e).
  { unfold d. assert (1 <= m * n) by nra. destruct (Rle_dec (det0 q c) 0) as [L|L].
    - assert (0 < / (m * n)) by (apply Rinv_0_lt_compat; lra). unfold Rdiv. nra.
    - assert (/ (m * n) <= 1) by (rewrite <- Rinv_1; apply Rinv_le_contravar; lra). assert (0 < / (m * n)) by (apply Rinv_0_lt_compat; lra). unfold Rdiv. nra. }
  assert (C1 : C <= 1) by nra. assert (S1 : S <= 1) by nra.
  destruct (Rlt_dec a 0) as [L|L].
  - left. rewrite X. assert (C * a <= 0) by nra. assert (S * d <= S * e) by (apply Rmult_le_compat_l; lra). nra.
  - destruct (Rle_dec (dt c y) e) as [Q|Q]; [left; exact Q|right]. split; [lra|]. split; [lra|].
    assert (H : dt c y <= C * a + S * e) by (rewrite X; assert (S * d <= S * e) by (apply Rmult_le_compat_l; lra); lra).
    assert (dt c y * dt c y <= (C * a + S * e) * (C * a + S * e)) by (apply Rmult_le_compat; lra).
    assert ((C * a + S * e) * (C * a + S * e) = (a * a + e * e) * (C * C + S * S) - (C * e - S * a) * (C * e - S * a)) by ring.
    rewrite U1 in *. pose proof (Rle_0_sqr (C * e - S * a)). unfold Rsqr in *. lra.
Qed.
Definition flip (c : p3) : p3 := P3 (pw c) (- pa c) (pb c).
Definition flip_rc (q : rc) : rc := Rc (- u1 q) (- u0 q) (v0 q) (v1 q).
Lemma flip_dt c x : dt (flip c) (flip x) = dt c x. Proof. unfold dt, flip. cbn [pw pa pb]. ring. Qed.
Lemma edge_near1 q c y e : okrc q -> unit3 y -> l0 q y = 0 -> incone q y -> 0 <= e -> det1 q c <= e ->
  let a := dt c (corner (u1 q) (v0 q)) in
  dt c y <= e \/ (0 <= a /\ 0 <= dt c y /\ dt c y * dt c y <= a * a + e * e).
Proof.
  intros K Uy Z I He D a.
  assert (E : a = dt (flip c) (corner (- u1 q) (v0 q))).
  { unfold a, dt, corner, flip. cbn [pw pa pb]. replace (- u1 q * - u1 q) with (u1 q * u1 q) by ring. unfold Rdiv. ring. }
  rewrite E, <- (flip_dt c y). apply (edge_near (flip_rc q) (flip c) (flip y) e); auto.
  - unfold okrc, flip_rc in *. cbn [u0 u1 v0 v1]. lra.
  - unfold unit3. rewrite flip_dt. exact Uy.
  - unfold incone, l0, l1, l2, l3, flip, flip_rc in *. cbn [u0 u1 v0 v1 pw pa pb]. lra.
  - unfold det0, det1, flip, flip_rc in *. cbn [u0 u1 v0 v1 pw pa pb]. lra.
Qed.
(* nearly on the plane of edge 0, and beyond an adjacent edge *)
Lemma det0_side q c e : okrc q -> Rabs (l0 q c) <= e -> l3 q c <= e -> det0 q c <= 3 * e.
Proof.
  intros (K1 & K2 & K3 & K4 & K5 & K6) H0 H3. unfold det0, l0, l3 in *. apply Rabs_le_inv in H0.
  replace ((1 + v0 q * v0 q) * pa c - u0 q * (pw c + v0 q * pb c)) with ((1 + v0 q * v0 q) * (pa c - u0 q * pw c) - (u0 q * v0 q) * (pb c - v0 q * pw c)) by ring.
  assert (-1 <= u0 q * v0 q <= 1) by (split; nra). set (s := u0 q * v0 q) in *. set (z := pb c - v0 q * pw c) in *. set (y := pa c - u0 q * pw c) in *. assert (0 <= v0 q * v0 q <= 1) by nra. set (m := v0 q * v0 q) in *.
  assert (- (s * z) <= e) by nra. assert ((1 + m) * y <= 2 * e) by (destruct (Rle_dec 0 y); nra). lra.
Qed.
Lemma det1_side q c e : okrc q -> Rabs (l0 q c) <= e -> l1 q c <= e -> det1 q c <= 3 * e.
Proof.
  intros (K1 & K2 & K3 & K4 & K5 & K6) H0 H3. unfold det1, l0, l1 in *. apply Rabs_le_inv in H0.
  replace (u1 q * (pw c + v0 q * pb c) - (1 + v0 q * v0 q) * pa c) with ((1 + v0 q * v0 q) * (u1 q * pw c - pa c) + (u1 q * v0 q) * (pb c - v0 q * pw c)) by ring.
  assert (-1 <= u1 q * v0 q <= 1) by (split; nra). set (s := u1 q * v0 q) in *. set (z := pb c - v0 q * pw c) in *. set (y := u1 q * pw c - pa c) in *. assert (0 <= v0 q * v0 q <= 1) by nra. set (m := v0 q * v0 q) in *.
  assert (s * z <= e) by nra. assert ((1 + m) * y <= 2 * e) by (destruct (Rle_dec 0 y); nra). lra.
Qed.
(* behind the face, nearly on the plane of edge 0 and within the two adjacent ones *)
Lemma behind q c y e : okrc q -> unit3 y -> l0 q y = 0 -> incone q y -> 0 <= e -> pw c <= 0 -> Rabs (l0 q c) <= e -> - e <= l1 q c -> - e <= l3 q c -> dt c y <= 2 * e.
Proof.
  intros K Uy Z I He W H0 H1 H3. pose proof (cone_front q y K I (unit_nz y Uy)) as PW. destruct I as (_ & I1 & _ & I3). destruct K as (K1 & K2 & K3 & K4 & K5 & K6).
  assert (W1 : pw y <= 1). { unfold unit3, dt in Uy. pose proof (Rle_0_sqr (pa y)). pose proof (Rle_0_sqr (pb y)). unfold Rsqr in *. nra. }
  unfold l0, l1, l3 in *. apply Rabs_le_inv in H0. assert (Eb : pb y = v0 q * pw y) by lra.
  (* u = pa y / pw y *)
  assert (V : v0 q * pb c <= e). { destruct (Rle_dec 0 (v0 q)); nra. }
  assert (A : pa c * pa y <= e * pw y).
  { destruct (Rle_dec 0 (pa y)) as [P|P].
    - assert (pa c * pa y <= (u1 q * pw c + e) * pa y) by (apply Rmult_le_compat_r; lra). assert (u1 q * pw c * pa y <= 0). { assert (0 <= u1 q) by nra. assert (0 <= u1 q * pa y) by nra. nra. }
      assert (e * pa y <= e * pw y) by (apply Rmult_le_compat_l; nra). lra.
    - assert (pa c * pa y <= (u0 q * pw c - e) * pa y) by nra. assert (u0 q * pw c * pa y <= 0). { assert (u0 q <= 0) by nra. assert (0 <= u0 q * pa y) by nra. nra. }
      assert (- pa y <= pw y) by nra. nra. }
  unfold dt. rewrite Eb. assert (pw c * pw y <= 0) by nra. assert (v0 q * pb c * pw y <= e * pw y) by (apply Rmult_le_compat_r; lra). nra.
Qed.

(** ** All four edges *)
Definition near (c y : p3) (e a : R) : Prop := dt c y <= 3 * e \/ (0 <= a /\ 0 <= dt c y /\ dt c y * dt c y <= a * a + 9 * (e * e)).
Lemma near_le c y x e a : 0 < dt c x -> dt c x <= dt c y -> near c y e a -> near c x e a.
Proof. intros P H [N|(A & B & N)]; [left; lra|right]. split; [exact A|]. split; [lra|]. assert (dt c x * dt c x <= dt c y * dt c y) by (apply Rmult_le_compat; lra). lra. Qed.
(* what the loop knows of an edge: passed over as inner (P), or seen from outside beyond one end *)
Definition seen (e l da db : R) (P : Prop) : Prop := (- e <= l /\ P) \/ (l <= e /\ (da <= e \/ db <= e)).
Definition near_corner (q : rc) (c x : p3) (e : R) : Prop :=
  near c x e (dt c (corner (u0 q) (v0 q))) \/ near c x e (dt c (corner (u1 q) (v0 q))) \/
  near c x e (dt c (corner (u1 q) (v1 q))) \/ near c x e (dt c (corner (u0 q) (v1 q))).
Lemma near_turn q c x e : near_corner (turn_rc q) (turn c) (turn x) e -> near_corner q c x e.
Proof.
  assert (H : forall u v, dt (turn c) (corner u v) = dt c (corner (- v) u)).
  { intros u v. unfold dt, corner, turn. cbn [pw pa pb]. replace (1 + - v * - v + u * u) with (1 + u * u + v * v) by ring. unfold Rdiv. ring. }
  unfold near_corner, near. rewrite turn_dt, !H. unfold turn_rc. cbn [u0 u1 v0 v1]. rewrite !Ropp_involutive. tauto.
Qed.

Lemma edge0_case q c y e (Q0 Q1 Q2 Q3 : Prop) : okrc q -> unit3 c -> unit3 y -> incone q y -> l0 q y = 0 -> l0 q c < 0 -> 0 <= e ->
  8 * e <= u1 q - u0 q -> 8 * e <= v1 q - v0 q -> (Q0 -> Q1 -> Q2 -> Q3 -> 0 < pw c -> False) ->
  seen e (l0 q c) (det0 q c) (det1 q c) Q0 -> (exists a b, seen e (l1 q c) a b Q1) -> (exists a b, seen e (l2 q c) a b Q2) -> (exists a b, seen e (l3 q c) a b Q3) ->
  near_corner q c y e.
Proof.
  intros K C Uy I Z N He W1 W2 ALL S0 (a1 & b1 & S1) (a2 & b2 & S2) (a3 & b3 & S3).
  assert (NA : forall e', 0 <= e' -> e' <= 3 * e -> det0 q c <= e' -> near_corner q c y e).
  { intros e' H1 H2 D. left. destruct (edge_near q c y e' K Uy Z I H1 D) as [H|(A & B & H)]; [left; lra|right]. split; [exact A|]. split; [exact B|]. assert (e' * e' <= 3 * e * (3 * e)) by (apply Rmult_le_compat; lra). lra. }
  assert (NB : forall e', 0 <= e' -> e' <= 3 * e -> det1 q c <= e' -> near_corner q c y e).
  { intros e' H1 H2 D. right. left. destruct (edge_near1 q c y e' K Uy Z I H1 D) as [H|(A & B & H)]; [left; lra|right]. split; [exact A|]. split; [exact B|]. assert (e' * e' <= 3 * e * (3 * e)) by (apply Rmult_le_compat; lra). lra. }
  destruct S0 as [[L0 t0]|[_ [D|D]]]; [|apply (NA e); lra|apply (NB e); lra].
  assert (AL : Rabs (l0 q c) <= e) by (apply Rabs_le; lra).
  destruct (Rle_dec (l1 q c) e) as [H1|H1]; [apply (NB (3 * e)); [lra|lra|apply det1_side; assumption]|].
  destruct (Rle_dec (l3 q c) e) as [H3|H3]; [apply (NA (3 * e)); [lra|lra|apply det0_side; assumption]|].
  destruct S1 as [[_ t1]|[S1 _]]; [|lra]. destruct S3 as [[_ t3]|[S3 _]]; [|lra].
  destruct (Rle_dec (pw c) 0) as [B|B].
  - left. left. pose proof (behind q c y e K Uy Z I He B AL ltac:(lra) ltac:(lra)). lra.
  - exfalso. destruct S2 as [[_ t2]|[S2 _]]; [apply ALL; auto; lra|].
    unfold l0, l1, l2, l3 in *. destruct K as (K1 & K2 & K3 & K4 & K5 & K6). unfold unit3, dt in C.
    assert (Q : (v1 q - v0 q) * pw c <= e) by lra. assert (PW : pw c <= 1 / 8).
    { apply Rnot_lt_le. intros X. assert (8 * e * (1 / 8) <= (v1 q - v0 q) * (1 / 8)) by lra. assert ((v1 q - v0 q) * (1 / 8) < (v1 q - v0 q) * pw c) by (apply Rmult_lt_compat_l; lra). lra. }
    assert (E4 : e <= 1 / 4) by lra. assert (A1 : - (1 / 8) <= pa c <= 1 / 8) by (split; nra). assert (A2 : - (3 / 8) <= pb c <= 3 / 8) by (split; nra).
    assert (pw c * pw c <= 1 / 8 * (1 / 8)) by (apply Rmult_le_compat; lra). assert (pa c * pa c <= 1 / 8) by (clear - A1; nra). assert (pb c * pb c <= 9 / 64) by (clear - A2; nra). lra.
Qed.

Definition dA k q c := match k with 0 => det0 q c | 1 => det0 (turn_rc q) (turn c) | 2 => det0 (turn_rc (turn_rc q)) (turn (turn c)) | _ => det0 (turn_rc (turn_rc (turn_rc q))) (turn (turn (turn c))) end%nat.
Definition dB k q c := match k with 0 => det1 q c | 1 => det1 (turn_rc q) (turn c) | 2 => det1 (turn_rc (turn_rc q)) (turn (turn c)) | _ => det1 (turn_rc (turn_rc (turn_rc q))) (turn (turn (turn c))) end%nat.
Lemma turn_pw c : pw (turn c) = pw c. Proof. reflexivity. Qed.
Lemma turn_incone q c : incone q c -> incone (turn_rc q) (turn c).
Proof. unfold incone. rewrite turn_l0, turn_l1, turn_l2, turn_l3. tauto. Qed.
Lemma turn_unit c : unit3 c -> unit3 (turn c). Proof. unfold unit3. rewrite turn_dt. auto. Qed.

Lemma core_miss q c x e (Q0 Q1 Q2 Q3 : Prop) : okrc q -> unit3 c -> unit3 x -> incone q x -> ~ incone q c -> 0 < dt c x -> 0 <= e ->
  8 * e <= u1 q - u0 q -> 8 * e <= v1 q - v0 q -> (Q0 -> Q1 -> Q2 -> Q3 -> 0 < pw c -> False) ->
  seen e (l0 q c) (dA 0 q c) (dB 0 q c) Q0 -> seen e (l1 q c) (dA 1 q c) (dB 1 q c) Q1 ->
  seen e (l2 q c) (dA 2 q c) (dB 2 q c) Q2 -> seen e (l3 q c) (dA 3 q c) (dB 3 q c) Q3 ->
  near_corner q c x e.
Proof.
  intros K C Ux I N P He W1 W2 ALL S0 S1 S2 S3. destruct (exit_edge q c x C Ux I N P) as (y & Uy & Iy & L & E).
  assert (T : near_corner q c y e -> near_corner q c x e).
  { intros H. destruct H as [H|[H|[H|H]]]; [left|right; left|right; right; left|right; right; right]; (eapply near_le; [exact P|exact L|exact H]). }
  apply T. destruct E as [[A B]|[[A B]|[[A B]|[A B]]]].
  - apply (edge0_case q c y e Q0 Q1 Q2 Q3); eauto.
  - apply near_turn. apply (edge0_case (turn_rc q) (turn c) (turn y) e Q1 Q2 Q3 Q0); auto using turn_ok, turn_unit, turn_incone; rewrite ?turn_l0, ?turn_l1, ?turn_l2, ?turn_l3; eauto; try (unfold turn_rc; cbn [u0 u1 v0 v1]; lra).
  - do 2 apply near_turn. apply (edge0_case (turn_rc (turn_rc q)) (turn (turn c)) (turn (turn y)) e Q2 Q3 Q0 Q1); auto using turn_ok, turn_unit, turn_incone; rewrite ?turn_l0, ?turn_l1, ?turn_l2, ?turn_l3, ?turn_l0, ?turn_l1, ?turn_l2, ?turn_l3; eauto; try (unfold turn_rc; cbn [u0 u1 v0 v1]; lra).
  - do 3 apply near_turn. apply (edge0_case (turn_rc (turn_rc (turn_rc q))) (turn (turn (turn c))) (turn (turn (turn y))) e Q3 Q0 Q1 Q2); auto using turn_ok, turn_unit, turn_incone; rewrite ?turn_l0, ?turn_l1, ?turn_l2, ?turn_l3, ?turn_l0, ?turn_l1, ?turn_l2, ?turn_l3, ?turn_l0, ?turn_l1, ?turn_l2, ?turn_l3; eauto; try (unfold turn_rc; cbn [u0 u1 v0 v1]; lra).
Qed.

(* a point on the inner side of a plane far outside of which c lies *)
Lemma far_side n c x t : unit3 n -> unit3 c -> unit3 x -> 0 <= dt n x -> 0 <= t -> dt n c <= - t -> 0 < dt c x -> dt c x * dt c x <= 1 - t * t.
Proof.
  intros Un Uc Ux Hx Ht Hc P. pose proof (unit_dt n c Un Uc).
  (* the projections onto the plane *)
  set (p := P3 (pw c - dt n c * pw n) (pa c - dt n c * pa n) (pb c - dt n c * pb n)).
  assert (PP : dt p p = 1 - dt n c * dt n c).
  { transitivity (dt c c - 2 * dt n c * dt n c + dt n c * dt n c * dt n n); [unfold p, dt; cbn [pw pa pb]; ring|rewrite Un, Uc; ring]. }
  assert (PX : dt p x = dt c x - dt n c * dt n x) by (unfold p, dt; cbn [pw pa pb]; ring).
  pose proof (cauchy3 p x) as CS. rewrite PP, Ux, PX in CS. assert (0 <= - (dt n c * dt n x)) by nra.
  assert (dt c x * dt c x <= (dt c x - dt n c * dt n x) * (dt c x - dt n c * dt n x)) by (apply Rmult_le_compat; lra).
  assert (t * t <= dt n c * dt n c) by nra. lra.
Qed.

(** ** Points of the rectangle near c *)
Lemma clamp a lo hi e : lo <= hi -> 0 <= e -> lo - e <= a <= hi + e -> exists b, lo <= b <= hi /\ Rabs (a - b) <= e.
Proof.
  intros L E H. destruct (Rlt_dec a lo); [exists lo|destruct (Rlt_dec hi a); [exists hi|exists a]]; (split; [lra|]); apply Rabs_le; lra.
Qed.
Lemma corner_incone q u v : okrc q -> u0 q <= u <= u1 q -> v0 q <= v <= v1 q -> incone q (corner u v).
Proof.
  intros K U V. destruct (len_pos u v) as [A _]. assert (0 < / sqrt (1 + u * u + v * v)) by (apply Rinv_0_lt_compat; lra).
  unfold incone, l0, l1, l2, l3, corner. cbn [pw pa pb]. unfold Rdiv. set (i := / sqrt (1 + u * u + v * v)) in *. repeat split; nra.
Qed.
Lemma near_in q c e : okrc q -> unit3 c -> 0 < pw c -> 0 <= e -> - e * pw c <= l0 q c -> - e * pw c <= l1 q c -> - e * pw c <= l2 q c -> - e * pw c <= l3 q c ->
  exists u v, u0 q <= u <= u1 q /\ v0 q <= v <= v1 q /\ 1 - e * e <= dt c (corner u v).
Proof.
  intros K C P He H0 H1 H2 H3. pose proof K as (K1 & K2 & K3 & K4 & K5 & K6). unfold l0, l1, l2, l3 in *.
  assert (IP : 0 < / pw c) by (apply Rinv_0_lt_compat; lra). assert (II : pw c * / pw c = 1) by (apply Rinv_r; lra).
  assert (UA : u0 q - e <= pa c * / pw c <= u1 q + e).
  { split; apply Rmult_le_reg_r with (pw c); try lra; rewrite Rmult_assoc, (Rmult_comm (/ pw c)), II; lra. }
  assert (VA : v0 q - e <= pb c * / pw c <= v1 q + e).
  { split; apply Rmult_le_reg_r with (pw c); try lra; rewrite Rmult_assoc, (Rmult_comm (/ pw c)), II; lra. }
  assert (LU : u0 q <= u1 q) by lra. assert (LV : v0 q <= v1 q) by lra. destruct (clamp _ _ _ e LU He UA) as (u & BU & DU). destruct (clamp _ _ _ e LV He VA) as (v & BV & DV).
  exists u, v. split; [exact BU|]. split; [exact BV|]. destruct (len_pos u v) as [A B]. unfold dt, corner. cbn [pw pa pb]. set (n := sqrt _) in *.
  set (i := / pw c) in *. assert (I1 : 1 <= i). { unfold unit3, dt in C. assert (pw c <= 1) by nra. unfold i. rewrite <- Rinv_1. apply Rinv_le_contravar; lra. }
  (* |p - q|^2 with p = c / pw c *)
  assert (D : (pa c * i - u) * (pa c * i - u) + (pb c * i - v) * (pb c * i - v) <= 2 * (e * e)).
  { apply Rabs_le_inv in DU. apply Rabs_le_inv in DV. nra. }
  assert (PQ : i * i + n * n - 2 * (i * (pw c * 1 + pa c * u + pb c * v)) <= 2 * (e * e)).
  { rewrite B. unfold unit3, dt in C. assert (i * i * (pw c * pw c + pa c * pa c + pb c * pb c) = i * i) by (rewrite C; ring).
    assert (i * i * (pw c * pw c) = 1) by (replace (i * i * (pw c * pw c)) with ((pw c * i) * (pw c * i)) by ring; rewrite II; ring). nra. }
  set (s := pw c * 1 + pa c * u + pb c * v) in *.
  replace (pw c * (1 / n) + pa c * (u / n) + pb c * (v / n)) with (s / n) by (unfold s; field; lra).
  assert (2 * (i * n) - 2 * (i * s) <= 2 * (e * e)) by (pose proof (Rle_0_sqr (i - n)); unfold Rsqr in *; lra).
  assert (IN : 1 <= i * n) by nra. assert (i * n - i * s <= e * e * (i * n)) by (pose proof (Rle_0_sqr e); unfold Rsqr in *; nra).
  assert (n - s <= e * e * n) by (apply Rmult_le_reg_l with i; lra).
  apply Rmult_le_reg_r with n; [lra|]. unfold Rdiv. rewrite Rmult_assoc, Rinv_l by lra. lra.
Qed.

Lemma edge_hit q c e t w : okrc q -> unit3 c -> 0 < w -> 0 <= e -> e <= w / 8 -> w <= u1 q - u0 q -> - e <= det0 q c -> - e <= det1 q c -> 0 <= t ->
  l0 q c * l0 q c <= t * t * (1 + v0 q * v0 q) ->
  exists u, u0 q <= u <= u1 q /\
    ((0 <= dt c (corner u (v0 q)) /\ 1 - t * t - e * e <= dt c (corner u (v0 q)) * dt c (corner u (v0 q))) \/
     (1 - t * t <= 20 * ((e / w) * (e / w)) /\ - (6 * (e / w)) <= dt c (corner u (v0 q)))).
Proof.
  intros K C Hw He EW W D0 D1 Ht F. pose proof K as (K1 & K2 & K3 & K4 & K5 & K6). unfold det0, det1, l0 in *.
  set (v := v0 q) in *. set (g := pw c + v * pb c) in *. set (h := pa c) in *. set (M := 1 + v * v) in *.
  assert (HM : 1 <= M <= 2) by (unfold M; nra).
  set (pp := g * g / M + h * h).
  assert (PP : pp = 1 - (pb c - v * pw c) * (pb c - v * pw c) / M).
  { unfold pp. unfold unit3, dt in C. fold h in C. replace (h * h) with (1 - pw c * pw c - pb c * pb c) by lra. unfold g, M in *. field. lra. }
  assert (P1 : 1 - t * t <= pp).
  { rewrite PP. assert (0 < / M) by (apply Rinv_0_lt_compat; lra). assert ((pb c - v * pw c) * (pb c - v * pw c) / M <= t * t); [|lra].
    apply Rmult_le_reg_r with M; [lra|]. unfold Rdiv. rewrite Rmult_assoc, Rinv_l by lra. lra. }
  assert (SQ : forall u, let n := sqrt (1 + u * u + v * v) in dt c (corner u v) = (g + u * h) / n /\ dt c (corner u v) * dt c (corner u v) = pp - (M * h - u * g) * (M * h - u * g) / (M * (n * n)) /\ 1 <= n).
  { intros u n. destruct (len_pos u v) as [A B]. fold n in A, B. assert (E : dt c (corner u v) = (g + u * h) / n) by (unfold dt, corner, g, h; cbn [pw pa pb]; fold n; field; lra).
    split; [exact E|]. split; [|exact A]. rewrite E. transitivity ((g + u * h) * (g + u * h) / (n * n)); [field; lra|]. rewrite B. unfold pp. replace (1 + u * u + v * v) with (M + u * u) by (unfold M; ring). field. nra. }
  assert (EW' : 0 <= e / w) by (apply Rmult_le_pos; [lra|apply Rlt_le, Rinv_0_lt_compat; lra]). assert (EQ : e = e / w * w) by (field; lra). assert (W2 : w <= 2) by lra.
  set (z := e / w) in *.
  destruct (Rle_dec e g) as [G|G].
  - assert (X : exists u, u0 q <= u <= u1 q /\ Rabs (M * h - u * g) <= e /\ 0 <= g + u * h).
    { destruct (Rlt_dec (u1 q * g) (M * h)) as [L|L].
      - exists (u1 q). split; [lra|]. split; [apply Rabs_le; lra|]. destruct (Rle_dec 0 (u1 q)) as [U|U].
        + assert (0 <= h) by nra. nra.
        + destruct (Rle_dec h 0); [nra|]. assert (h <= M * h) by nra. assert (M * h <= e) by nra. nra.
      - destruct (Rlt_dec (M * h) (u0 q * g)) as [L'|L'].
        + exists (u0 q). split; [lra|]. split; [apply Rabs_le; lra|]. destruct (Rle_dec (u0 q) 0) as [U|U].
          * assert (h <= 0) by nra. nra.
          * destruct (Rle_dec 0 h); [nra|]. assert (M * h <= h) by nra. assert (- e <= M * h) by nra. nra.
        + destruct (Req_dec g 0) as [G0|G0].
          * exists (u0 q). split; [lra|]. rewrite G0 in *. assert (e = 0) by lra. assert (h = 0) by nra. split; [apply Rabs_le; nra|nra].
          * assert (0 < g) by lra. assert (IG : 0 < / g) by (apply Rinv_0_lt_compat; lra). assert (GG : g * / g = 1) by (apply Rinv_r; lra). exists (M * h * / g). split; [split|].
            { apply Rmult_le_reg_r with g; [lra|]. rewrite Rmult_assoc, (Rmult_comm (/ g)), GG. lra. }
            { apply Rmult_le_reg_r with g; [lra|]. rewrite Rmult_assoc, (Rmult_comm (/ g)), GG. lra. }
            split; [rewrite Rmult_assoc, (Rmult_comm (/ g)), GG, Rmult_1_r, Rminus_diag_eq, Rabs_R0 by reflexivity; lra|].
            assert (0 <= M * / g * (h * h)). { apply Rmult_le_pos; [apply Rmult_le_pos; lra|apply Rle_0_sqr]. } lra. }
    destruct X as (u & BU & A & NN). exists u. split; [exact BU|]. left. destruct (SQ u) as (E1 & E2 & E3). set (n := sqrt _) in *. split.
    + rewrite E1. apply Rmult_le_pos; [exact NN|]. apply Rlt_le, Rinv_0_lt_compat. lra.
    + rewrite E2. assert ((M * h - u * g) * (M * h - u * g) / (M * (n * n)) <= e * e); [|lra].
      assert (Q : (M * h - u * g) * (M * h - u * g) <= e * e) by (apply Rabs_le_inv in A; nra). assert (N1 : 1 <= M * (n * n)) by nra.
      apply Rmult_le_reg_r with (M * (n * n)); [lra|]. unfold Rdiv. rewrite Rmult_assoc, Rinv_l by lra. pose proof (Rle_0_sqr e). unfold Rsqr in *. nra.
  - assert (GB : - (2 * z) <= g).
    { apply Rnot_lt_le. intros X. assert (S : - (2 * e) <= (u1 q - u0 q) * g) by lra. assert ((u1 q - u0 q) * g <= w * g) by nra. assert (w * g < w * - (2 * z)) by (apply Rmult_lt_compat_l; lra). lra. }
    assert (ez : e <= 2 * z) by nra. assert (GA : Rabs g <= 2 * z) by (apply Rabs_le; lra).
    assert (HA : Rabs h <= 4 * z).
    { assert (Rabs (M * h) <= e + 2 * z).
      { assert (A1 : Rabs (u0 q * g) <= 2 * z) by (rewrite Rabs_mult; assert (Rabs (u0 q) <= 1) by (apply Rabs_le; lra); pose proof (Rabs_pos (u0 q)); pose proof (Rabs_pos g); nra).
        assert (A2 : Rabs (u1 q * g) <= 2 * z) by (rewrite Rabs_mult; assert (Rabs (u1 q) <= 1) by (apply Rabs_le; lra); pose proof (Rabs_pos (u1 q)); pose proof (Rabs_pos g); nra).
        apply Rabs_le_inv in A1. apply Rabs_le_inv in A2. apply Rabs_le. lra. }
      rewrite Rabs_mult, (Rabs_pos_eq M) in H by lra. pose proof (Rabs_pos h). nra. }
    apply Rabs_le_inv in GA. apply Rabs_le_inv in HA. exists (u0 q). split; [lra|]. right.
    destruct (SQ (u0 q)) as (E1 & _ & E3). set (n := sqrt _) in *. split.
    + assert (pp <= 4 * z * z + 16 * z * z); [|lra]. unfold pp. assert (g * g / M <= g * g).
      { apply Rmult_le_reg_r with M; [lra|]. unfold Rdiv. rewrite Rmult_assoc, Rinv_l by lra. pose proof (Rle_0_sqr g). unfold Rsqr in *. nra. }
      assert (g * g <= 4 * z * z) by (clear - GA EW'; nra). assert (h * h <= 16 * z * z) by (clear - HA EW'; nra). lra.
    + rewrite E1. assert (- (6 * z) <= g + u0 q * h). { assert (- (4 * z) <= u0 q * h); [|lra]. clear - HA EW' K1 K2 K3. nra. }
      apply Rmult_le_reg_r with n; [lra|]. unfold Rdiv. rewrite Rmult_assoc, Rinv_l by lra. assert (- (6 * z) * n <= - (6 * z)) by nra. lra.
Qed.

(** ** From sines and cosines to distances *)
Definition sn (r : R) : R := sqrt (r * (1 - r / 4)).
Lemma sn_facts r : 0 <= r <= 4 -> 0 <= sn r /\ sn r * sn r = r * (1 - r / 4) /\ sn r <= sqrt r /\ 0 <= sqrt r /\ sqrt r * sqrt r = r.
Proof.
  intros B. unfold sn. split; [apply sqrt_pos|]. split; [apply sqrt_sqrt; nra|]. split; [apply sqrt_le_1_alt; nra|]. split; [apply sqrt_pos|apply sqrt_sqrt; lra].
Qed.
Lemma sn_gap r D E : 0 <= r <= 4 -> 0 <= D <= 4 -> 0 <= E -> D < r -> sn r - E <= sn D -> (sqrt r - sqrt D) * (1 - (r + D) / 4) <= E.
Proof.
  intros Br BD HE L H. destruct (sn_facts r Br) as (R1 & R2 & R3 & R4 & R5). destruct (sn_facts D BD) as (D1 & D2 & D3 & D4 & D5).
  set (a := sn r) in *. set (b := sn D) in *. set (p := sqrt r) in *. set (d := sqrt D) in *.
  assert (PD : 0 < p + d) by nra.
  assert (Q : (p - d) * (1 - (r + D) / 4) * (p + d) = (a - b) * (a + b)).
  { replace ((a - b) * (a + b)) with (a * a - b * b) by ring. rewrite R2, D2. replace ((p - d) * (1 - (r + D) / 4) * (p + d)) with ((p * p - d * d) * (1 - (r + D) / 4)) by ring. rewrite R5, D5. field. }
  apply Rmult_le_reg_r with (p + d); [exact PD|]. rewrite Q. assert ((a - b) * (a + b) <= E * (a + b)) by (apply Rmult_le_compat_r; lra). assert (E * (a + b) <= E * (p + d)) by (apply Rmult_le_compat_l; lra). lra.
Qed.
Lemma sn_gap_small r D E : 0 <= r <= 2 -> 0 <= D <= 4 -> 0 <= E -> sn r - E <= sn D -> (r <= 15 / 8 -> sqrt r - sqrt D <= 16 * E) /\ (15 / 8 <= r -> D < r -> (sqrt r - sqrt D) * (sqrt r - sqrt D) <= 4 * E).
Proof.
  intros Br BD HE H. destruct (Rlt_dec D r) as [L|L].
  - pose proof (sn_gap r D E ltac:(lra) BD HE L H) as G. destruct (sn_facts r ltac:(lra)) as (_ & _ & _ & R4 & R5). destruct (sn_facts D BD) as (_ & _ & _ & D4 & D5).
    set (p := sqrt r) in *. set (d := sqrt D) in *. assert (PD : 0 <= p - d) by nra. split; intros Q.
    + assert ((p - d) * (1 / 16) <= (p - d) * (1 - (r + D) / 4)) by (apply Rmult_le_compat_l; lra). lra.
    + intros _. assert (1 <= p) by nra. assert (X : (r - D) / 4 <= 1 - (r + D) / 4) by lra. assert (Y : (p - d) * (1 / 4) <= (r - D) / 4) by (rewrite <- R5, <- D5; nra).
      assert ((p - d) * ((p - d) * (1 / 4)) <= (p - d) * (1 - (r + D) / 4)) by (apply Rmult_le_compat_l; lra). lra.
  - assert (sqrt r <= sqrt D) by (apply sqrt_le_1_alt; lra). split; [intros _|intros; lra]. lra.
Qed.
Lemma cos_sn D : 0 <= D <= 4 -> (1 - D / 2) * (1 - D / 2) = 1 - sn D * sn D.
Proof. intros B. destruct (sn_facts D B) as (_ & -> & _). field. Qed.

(* the far plane *)
Lemma far_gap r D t E : 0 <= r <= 2 -> 0 <= D <= 2 -> 0 <= E -> sn r - E <= t -> (0 <= t -> (1 - D / 2) * (1 - D / 2) <= 1 - t * t) ->
  (r <= 15 / 8 -> sqrt r - sqrt D <= 16 * E) /\ (15 / 8 <= r -> D < r -> (sqrt r - sqrt D) * (sqrt r - sqrt D) <= 4 * E).
Proof.
  intros Br BD HE T H. apply sn_gap_small; try lra. destruct (sn_facts D ltac:(lra)) as (D1 & _). rewrite cos_sn in H by lra.
  destruct (Rle_dec 0 t) as [P|P]; [specialize (H P)|lra]. assert (t <= sn D) by nra. lra.
Qed.
(* the near corner *)
Lemma near_gap X a e : 0 <= X <= 1 -> a <= 1 -> -1 <= a -> 0 <= e <= 1 / 8 -> (X <= 3 * e \/ (0 <= a /\ 0 <= X /\ X * X <= a * a + 9 * (e * e))) ->
  (2 - 6 * e <= 2 - 2 * X \/ 2 - 2 * a - 6 * e <= 2 - 2 * X) /\ (sqrt 2 - 6 * e <= sqrt (2 - 2 * X) \/ sqrt (2 - 2 * a) - 18 * e <= sqrt (2 - 2 * X)).
Proof.
  intros BX Ba Ba' He [H|(A & _ & H)].
  - split; [left; lra|]. left. destruct (sn_facts 2 ltac:(lra)) as (_ & _ & _ & R4 & R5). pose proof (sqrt_sqrt (2 - 2 * X) ltac:(lra)) as S. pose proof (sqrt_pos (2 - 2 * X)) as P.
    set (p := sqrt 2) in *. set (d := sqrt (2 - 2 * X)) in *. apply Rnot_lt_le. intros C. assert (1 <= p) by nra. assert (6 * e * 1 <= (p - d) * (p + d)) by (apply Rmult_le_compat; lra).
    assert ((p - d) * (p + d) = 2 * X) by (replace ((p - d) * (p + d)) with (p * p - d * d) by ring; lra).
    assert (1 <= p + d) by lra. assert (6 * e < p - d) by lra. nra.
  - assert (XA : X <= a + 3 * e) by nra. split; [right; lra|]. right.
    pose proof (sqrt_sqrt (2 - 2 * X) ltac:(lra)) as S. pose proof (sqrt_pos (2 - 2 * X)) as P. pose proof (sqrt_sqrt (2 - 2 * a) ltac:(lra)) as S'. pose proof (sqrt_pos (2 - 2 * a)) as P'.
    set (d := sqrt (2 - 2 * X)) in *. set (p := sqrt (2 - 2 * a)) in *. apply Rnot_lt_le. intros C.
    assert (G : (p - d) * (p + d) = 2 * (X - a)) by (replace ((p - d) * (p + d)) with (p * p - d * d) by ring; lra).
    destruct (Rle_dec (1 / 4) X) as [L|L].
    + assert ((X - a) * (1 / 4) <= 9 * (e * e)). { destruct (Rle_dec X a); [pose proof (Rle_0_sqr e); unfold Rsqr in *; nra|]. assert ((X - a) * (1 / 4) <= (X - a) * (X + a)) by (apply Rmult_le_compat_l; lra). lra. }
      assert (18 * e * (18 * e) <= (p - d) * (p + d)) by (apply Rmult_le_compat; lra). assert (18 * e * (18 * e) < (p - d) * (p + d)); [|pose proof (Rle_0_sqr e); unfold Rsqr in *; lra].
      apply Rle_lt_trans with (18 * e * (p + d)); [apply Rmult_le_compat_l; lra|]. apply Rmult_lt_compat_r; lra.
    + assert (1 <= d) by nra. assert (18 * e * 1 <= (p - d) * (p + d)) by (apply Rmult_le_compat; lra).
      assert (18 * e * 1 < (p - d) * (p + d)); [|lra]. apply Rle_lt_trans with (18 * e * (p + d)); [apply Rmult_le_compat_l; lra|]. apply Rmult_lt_compat_r; lra.
Qed.
(* a point of the rectangle close enough *)
Lemma hit_gap r D E e : 0 <= r <= 2 -> 0 <= D <= 2 -> 0 <= E -> 0 <= e -> 1 - (sn r + E) * (sn r + E) - e * e <= (1 - D / 2) * (1 - D / 2) ->
  (r <= 15 / 8 -> sqrt D - sqrt r <= 32 * (E + e)) /\ (15 / 8 <= r -> r < D -> (sqrt D - sqrt r) * (sqrt D - sqrt r) <= 4 * (E + e)).
Proof.
  intros Br BD HE He H. destruct (sn_facts D ltac:(lra)) as (D1 & _ & _ & D4 & D5). destruct (sn_facts r ltac:(lra)) as (R1 & _ & _ & R4 & R5). rewrite cos_sn in H by lra.
  assert (S : sn D - (E + e) <= sn r). { apply Rnot_lt_le. intros C. nra. }
  destruct (Rlt_dec r D) as [L|L].
  - pose proof (sn_gap D r (E + e) ltac:(lra) ltac:(lra) ltac:(lra) L S) as G. set (p := sqrt r) in *. set (d := sqrt D) in *. assert (PD : 0 <= d - p) by nra. split; intros Q.
    + assert ((d - p) * (1 / 32) <= (d - p) * (1 - (D + r) / 4)) by (apply Rmult_le_compat_l; lra). lra.
    + intros _. assert (1 <= p) by nra. assert (X : (D - r) / 4 <= 1 - (D + r) / 4) by lra. assert (Y : (d - p) * (1 / 4) <= (D - r) / 4) by (rewrite <- R5, <- D5; nra).
      assert ((d - p) * ((d - p) * (1 / 4)) <= (d - p) * (1 - (D + r) / 4)) by (apply Rmult_le_compat_l; lra). lra.
  - assert (sqrt D <= sqrt r) by (apply sqrt_le_1_alt; lra). split; [intros _|intros; lra]. lra.
Qed.
Lemma degenerate_gap r z E : 0 <= r <= 2 -> 0 <= E <= 1 -> 0 <= z -> 1 - (sn r + E) * (sn r + E) <= 20 * (z * z) -> (1 - r / 2) * (1 - r / 2) <= 20 * (z * z) + 3 * E.
Proof.
  intros Br HE Hz H. rewrite cos_sn by lra. destruct (sn_facts r ltac:(lra)) as (R1 & R2 & _). assert (sn r <= 1) by nra. nra.
Qed.
