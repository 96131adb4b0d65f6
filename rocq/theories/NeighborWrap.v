(** from_face_ij_wrap in exact integer arithmetic. *)
From Coq Require Import Reals Lra Lia Psatz.
From Flocq Require Import Core.
From Verif Require Import Base F64 F64Facts IntervalSpec F64Arith F64Error S1Proofs VectorModel StuvModel CellIdModel HilbertModel NeighborModel.
Open Scope Z_scope.

Notation NN := 1073741824.
Notation N1 := 1073741825.

(** The same computation on a cube of half side N = 2^30: the centre of leaf column
    i is at 2 i + 1 - N. *)
Definition zabs_lt (a b : Z) : bool := Z.abs a <? Z.abs b.
Definition zface (x y z : Z) : Z :=
  let '(id, value) := if zabs_lt x y then (1, y) else (0, x) in
  let '(id, value) := if zabs_lt value z then (2, z) else (id, value) in
  if value <? 0 then id + 3 else id.
Definition zuv (f x y z : Z) : Z * Z * Z :=  (* numerators of u and v, denominator *)
  if f =? 0 then (y, z, x)
  else if f =? 1 then (- x, z, y)
  else if f =? 2 then (- x, - y, z)
  else if f =? 3 then (z, y, x)
  else if f =? 4 then (z, - x, y)
  else (- y, - x, z).
Definition zxyz (f u v : Z) : Z * Z * Z :=
  if f =? 0 then (NN, u, v)
  else if f =? 1 then (- u, NN, v)
  else if f =? 2 then (- u, - v, NN)
  else if f =? 3 then (- NN, - v, - u)
  else if f =? 4 then (v, - NN, - u)
  else (v, u, - NN).
Definition zindex (u w : Z) : Z := clampZ ((u * Z.sgn w + NN) / 2) 0 (NN - 1).
Definition wrapZ (f i j : Z) : Z * Z * Z :=
  let '(x, y, z) := zxyz f (2 * i + 1 - NN) (2 * j + 1 - NN) in
  let f' := zface x y z in
  let '(u, v, w) := zuv f' x y z in
  (f', zindex u w, zindex v w).

Open Scope R_scope.

Ltac bpn := repeat match goal with |- context [bpow radix2 ?k] => let v := eval cbv [bpow radix2 radix_val Z.pow_pos Pos.iter Z.mul Pos.mul] in (bpow radix2 k) in change (bpow radix2 k) with v end.

Lemma near_abs (a b e : R) : Rabs (a - b) <= e -> b - e <= a <= b + e.
Proof. intros H. apply Rabs_le_inv in H. lra. Qed.
Lemma abs_le (a e : R) : - e <= a <= e -> Rabs a <= e.
Proof. intros H. apply Rabs_le. lra. Qed.

Lemma f1_val : finite f1 /\ B2R f1 = 1.
Proof. exact (of_int_val 1 ltac:(lia)). Qed.
Lemma f2_val : finite f2 /\ B2R f2 = 2.
Proof. exact (of_int_val 2 ltac:(lia)). Qed.
Lemma f0_val : finite f0 /\ B2R f0 = 0.
Proof. exact (of_int_val 0 ltac:(lia)). Qed.
Lemma fhalf_val : finite fhalf /\ B2R fhalf = /2.
Proof. destruct (lit_val 1 (-1) ltac:(lia) ltac:(lia)) as [F V]. split; auto. unfold fhalf. rewrite V. bpn. lra. Qed.
Lemma maxsize_val : finite MAX_SIZE_F64 /\ B2R MAX_SIZE_F64 = IZR NN.
Proof. exact (of_int_val NN ltac:(lia)). Qed.

Lemma st_to_ij_val x w : finite x -> -2 <= B2R x <= 2 -> (0 <= w < NN)%Z ->
  (w = 0%Z \/ 2 * IZR w / IZR NN - 1 + bpow radix2 (-45) <= B2R x) ->
  ((w = NN - 1)%Z \/ B2R x <= 2 * (IZR w + 1) / IZR NN - 1 - bpow radix2 (-45)) ->
  st_to_ij (fmul fhalf (fadd x f1)) = w.
Proof.
  intros Fx B Hw Hlo Hhi. set (a := B2R x) in *.
  destruct f1_val as [F1 V1]. destruct fhalf_val as [Fh Vh]. destruct maxsize_val as [FN VN].
  pose proof (fadd_result x f1 Fx F1) as Ry. rewrite V1 in Ry. fold a in Ry.
  destruct (result_near _ _ 2 ltac:(lia) Ry) as (Fy & _ & Ey). { apply abs_le. bpn. lra. }
  apply near_abs in Ey. set (y := fadd x f1) in *. change (2 - 53)%Z with (-51)%Z in Ey.
  assert (P51 : bpow radix2 (-51) = / 2251799813685248) by reflexivity.
  pose proof (fmul_result fhalf y Fh Fy) as Rz. rewrite Vh in Rz.
  destruct (result_near _ _ 1 ltac:(lia) Rz) as (Fz & _ & Ez). { apply abs_le. bpn. lra. }
  apply near_abs in Ez. set (z := fmul fhalf y) in *. change (1 - 53)%Z with (-52)%Z in Ez.
  assert (P52 : bpow radix2 (-52) = / 4503599627370496) by reflexivity.
  pose proof (fmul_result MAX_SIZE_F64 z FN Fz) as Rt. rewrite VN in Rt.
  destruct (result_near _ _ 32 ltac:(lia) Rt) as (Ft & _ & Et). { apply abs_le. bpn. lra. }
  apply near_abs in Et. unfold st_to_ij. set (t := fmul MAX_SIZE_F64 z) in *. change (32 - 53)%Z with (-21)%Z in Et.
  assert (P21 : bpow radix2 (-21) = / 2097152) by reflexivity.
  destruct (ffloor_val t Ft) as [Ff Vf].
  assert (P45 : bpow radix2 (-45) = / 35184372088832) by reflexivity.
  rewrite P51, P52, P21, P45 in *. clear P51 P52 P21 P45.
  pose proof (Zfloor_lb (B2R t)) as L1. pose proof (Zfloor_ub (B2R t)) as L2.
  set (n := Zfloor (B2R t)) in *.
  assert (Bn : (- 2 ^ 31 <= n <= 2 ^ 31 - 1)%Z).
  { split; [apply Zfloor_lub | apply Z.lt_succ_r, lt_IZR].
    - change (IZR (- 2 ^ 31)) with (-2147483648). lra.
    - change (IZR (Z.succ (2 ^ 31 - 1))) with 2147483648. lra. }
  rewrite (to_int_val _ _ _ n Ff Vf Bn).
  assert (Hl : (w = 0 \/ w <= n)%Z).
  { destruct Hlo as [->|Hlo]; [left; reflexivity|right]. apply Zfloor_lub. lra. }
  assert (Hh : (w = NN - 1 \/ n <= w)%Z).
  { destruct Hhi as [->|Hhi]; [left; reflexivity|right]. apply Z.lt_succ_r, lt_IZR. rewrite succ_IZR. lra. }
  unfold clampZ, MAX_SIZE, MAX_LEVEL. change (2 ^ 30 - 1)%Z with (NN - 1)%Z.
  destruct (Z.ltb_spec n 0); [lia|]. destruct (Z.ltb_spec (NN - 1) n); lia.
Qed.

(** The doubles that occur: [x] stands for [X] on the cube of half side N; one
    step outside the face it is clamped to 1 + 2^-52. *)
Definition LL : R := 1 + / 4503599627370496.
Definition rep (x : f64) (X : Z) : Prop :=
  finite x /\ (Z.odd X = true \/ Z.abs X = NN) /\
  ((Z.abs X <= NN)%Z /\ B2R x = IZR X / IZR NN \/
   (X = N1)%Z /\ B2R x = LL \/ (X = -1073741825)%Z /\ B2R x = - LL).

Lemma rep_neg x X : rep x X -> rep (fneg x) (- X).
Proof.
  intros (F & O & V). destruct (fneg_val x F) as [F' V']. split; [exact F'|].
  split. { rewrite Z.odd_opp, Z.abs_opp. exact O. }
  rewrite V', Z.abs_opp, opp_IZR. destruct V as [[H V]|[[-> V]|[-> V]]]; rewrite V; [left; split; auto; lra|right; right|right; left]; split; try reflexivity; lra.
Qed.
Lemma rep_one : rep f1 NN.
Proof. destruct f1_val as [F V]. split; auto. split; [right; reflexivity|]. left. split; [cbn; lia|]. rewrite V. lra. Qed.
Lemma rep_mone : rep (fneg f1) (- NN).
Proof. exact (rep_neg _ _ rep_one). Qed.

Lemma abs_cases X : (0 <= X)%Z /\ Z.abs X = X \/ (X < 0)%Z /\ Z.abs X = (- X)%Z.
Proof. lia. Qed.

Lemma rep_abs x X : rep x X -> finite (fabs x) /\ B2R (fabs x) = (if (Z.abs X <=? NN)%Z then IZR (Z.abs X) / IZR NN else LL).
Proof.
  intros (F & O & V). destruct (fabs_val x F) as [F' V']. split; auto. rewrite V'.
  destruct V as [[H V]|[[-> V]|[-> V]]]; rewrite V.
  - destruct (Z.leb_spec (Z.abs X) NN); [|lia]. unfold Rdiv. rewrite Rabs_mult, <- abs_IZR. f_equal.
    apply Rabs_pos_eq. lra.
  - cbn. unfold LL. apply Rabs_pos_eq. lra.
  - cbn. unfold LL. rewrite Rabs_Ropp. apply Rabs_pos_eq. lra.
Qed.
Lemma rep_bound x X : rep x X -> (Z.abs X <= N1)%Z.
Proof. intros (_ & _ & [[H _]|[[-> _]|[-> _]]]); cbn; lia. Qed.

Lemma rep_lt x X y Y : rep x X -> rep y Y -> flt (fabs x) (fabs y) = (Z.abs X <? Z.abs Y)%Z.
Proof.
  intros Hx Hy. destruct (rep_abs x X Hx) as [Fx Vx]. destruct (rep_abs y Y Hy) as [Fy Vy].
  pose proof (rep_bound _ _ Hx). pose proof (rep_bound _ _ Hy). unfold LL in *.
  destruct (flt_R (fabs x) (fabs y) Fx Fy) as [L|L]; rewrite Vx, Vy in L;
    destruct (Z.leb_spec (Z.abs X) NN) as [LX|LX], (Z.leb_spec (Z.abs Y) NN) as [LY|LY]; symmetry;
    rewrite ?Z.ltb_lt, ?Z.ltb_ge; try lia.
  - apply lt_IZR. lra.
  - apply IZR_le in LY. lra.
  - lra.
  - apply le_IZR. lra.
  - apply IZR_le in LX. lra.
Qed.
Lemma rep_sign x X : rep x X -> flt x f0 = (X <? 0)%Z.
Proof.
  intros (F & O & V). destruct f0_val as [F0 V0].
  destruct (flt_R x f0 F F0) as [L|L]; rewrite V0 in L; symmetry; rewrite ?Z.ltb_lt, ?Z.ltb_ge; unfold LL in *;
    (destruct V as [[H V]|[[-> V]|[-> V]]]; rewrite V in L; try lra; try lia).
  - apply lt_IZR. lra.
  - apply le_IZR. lra.
Qed.

Lemma wrap_coord_rep i : (-1 <= i <= NN)%Z -> rep (wrap_coord i) (2 * i + 1 - NN).
Proof.
  intros Hi. destruct f1_val as [F1 V1]. destruct f2_val as [F2 V2]. destruct maxsize_val as [FN VN].
  destruct (of_int_val i ltac:(lia)) as [Fi Vi].
  pose proof (fmul_result f2 (of_int i) F2 Fi) as R1. rewrite V2, Vi in R1.
  destruct (result_format _ _ (2 * i) 0 R1 ltac:(lia) ltac:(lia) ltac:(rewrite mult_IZR; cbn [bpow]; lra)) as [Fa Va].
  pose proof (fadd_result _ f1 Fa F1) as R2. rewrite Va, V1 in R2.
  destruct (result_format _ _ (2 * i + 1) 0 R2 ltac:(lia) ltac:(lia) ltac:(rewrite plus_IZR, mult_IZR; cbn [bpow]; lra)) as [Fb Vb].
  pose proof (fsub_result _ _ Fb FN) as R3. rewrite Vb, VN in R3.
  destruct (result_format _ _ (2 * i + 1 - NN) 0 R3 ltac:(lia) ltac:(lia) ltac:(rewrite minus_IZR, plus_IZR, mult_IZR; cbn [bpow]; lra)) as [Fc Vc].
  unfold wrap_coord. set (c := fsub _ _) in *.
  assert (S : finite SCALE /\ B2R SCALE = / IZR NN).
  { pose proof (fdiv_result f1 MAX_SIZE_F64 F1 FN ltac:(rewrite VN; lra)) as R4. rewrite V1, VN in R4.
    destruct (result_format _ _ 1 (-30) R4 ltac:(lia) ltac:(lia) ltac:(bpn; lra)) as [Fs Vs].
    split; auto. unfold SCALE. rewrite Vs. lra. }
  destruct S as [Fs Vs].
  pose proof (fmul_result SCALE c Fs Fc) as R5. rewrite Vs, Vc in R5.
  destruct (result_format _ _ (2 * i + 1 - NN) (-30) R5 ltac:(lia) ltac:(lia)
    ltac:(rewrite minus_IZR, plus_IZR, mult_IZR; bpn; lra)) as [Fd Vd].
  set (d := fmul SCALE c) in *.
  assert (EL : finite LIMIT /\ B2R LIMIT = LL).
  { unfold LL. destruct (lit_val 1 (-52) ltac:(lia) ltac:(lia)) as [Fe Ve].
    pose proof (fadd_result f1 DBL_EPSILON F1 Fe) as R6. unfold DBL_EPSILON in R6 at 2. rewrite V1, Ve in R6.
    destruct (result_format _ _ 4503599627370497 (-52) R6 ltac:(lia) ltac:(lia) ltac:(bpn; lra)) as [Fl Vl].
    split; auto. unfold LIMIT. rewrite Vl. bpn. lra. }
  destruct EL as [FL VL]. destruct (fneg_val LIMIT FL) as [FL' VL']. rewrite VL in VL'.
  assert (O : Z.odd (2 * i + 1 - NN) = true).
  { replace (2 * i + 1 - NN)%Z with (1 + 2 * (i - 536870912))%Z by lia. rewrite Z.odd_add_mul_2. reflexivity. }
  assert (Vd' : B2R d = IZR (2 * i + 1 - NN) / IZR NN). { rewrite Vd, minus_IZR, plus_IZR, mult_IZR. lra. }
  clear Vd. unfold clampF, fgt. unfold LL in *.
  set (X := (2 * i + 1 - NN)%Z) in *.
  assert (C : (X = N1 \/ X = -1073741825 \/ Z.abs X <= NN)%Z) by lia.
  destruct C as [E|[E|E]].
  - rewrite E in Vd'. destruct (flt_R d (fneg LIMIT) Fd FL') as [L|L]; [lra|].
    destruct (flt_R LIMIT d FL Fd) as [L'|L']; [|lra]. split; auto.
  - rewrite E in Vd'. destruct (flt_R d (fneg LIMIT) Fd FL') as [L|L]; [|lra].
    split; auto.
  - assert (-1 <= B2R d <= 1).
    { rewrite Vd'. assert (-1073741824 <= X <= NN)%Z by lia. destruct H as [H1 H2]. apply IZR_le in H1, H2. lra. }
    destruct (flt_R d (fneg LIMIT) Fd FL') as [L|L]; [lra|].
    destruct (flt_R LIMIT d FL Fd) as [L'|L']; [lra|]. split; auto.
Qed.

Lemma sgn_cases Y : (0 < Y /\ Z.sgn Y = 1 \/ Y = 0 /\ Z.sgn Y = 0 \/ Y < 0 /\ Z.sgn Y = -1)%Z.
Proof. lia. Qed.

(* the index obtained from a quotient *)
Lemma quotient_pos z x X y Y : rep x X -> rep y Y -> (Z.abs X <= Y)%Z -> (NN <= Y)%Z ->
  result z (B2R x / B2R y) -> st_to_ij (fmul fhalf (fadd z f1)) = clampZ ((X + NN) / 2) 0 (NN - 1).
Proof.
  intros Hx Hy HXY HY R. pose proof (rep_bound _ _ Hy) as BY.
  destruct Hx as (Fx & Ox & Vx). destruct Hy as (Fy & Oy & Vy).
  assert (VY : 1 <= B2R y <= LL).
  { unfold LL in *. destruct Vy as [[H V]|[[E V]|[E V]]]; try lia; rewrite V; try lra.
    assert (Y = NN)%Z as -> by lia. lra. }
  set (q := B2R x / B2R y) in *.
  assert (I1 : 1 - / 4503599627370496 <= / B2R y <= 1).
  { unfold LL in VY. split.
    - apply Rmult_le_reg_r with (B2R y); [lra|]. rewrite Rinv_l by lra. nra.
    - rewrite <- Rinv_1. apply Rinv_le; lra. }
  assert (Eq : q = B2R x * / B2R y) by reflexivity.
  assert (P53 : bpow radix2 (-53) = / 9007199254740992) by reflexivity.
  assert (P45 : bpow radix2 (-45) = / 35184372088832) by reflexivity.
  destruct Vx as [[HX VX]|[[EX VX]|[EX VX]]].
  2:{ (* X = N + 1, so y = LL *)
    assert (Y = N1)%Z by lia. assert (B2R y = LL).
    { destruct Vy as [[H1 V]|[[E V]|[E V]]]; try lia; auto. }
    assert (Eq1 : q = 1). { unfold q. rewrite VX, H0. unfold Rdiv. apply Rinv_r. unfold LL. lra. }
    rewrite Eq1 in R. destruct (result_near _ _ 0 ltac:(lia) R) as (F & _ & E). { rewrite Rabs_R1. bpn. lra. }
    apply near_abs in E. change (0 - 53)%Z with (-53)%Z in E. rewrite P53 in E.
    subst X. change (clampZ ((N1 + NN) / 2) 0 (NN - 1)) with (NN - 1)%Z.
    apply st_to_ij_val; auto; try lia; [lra|]. right. rewrite P45. change (NN - 1)%Z with 1073741823%Z. lra. }
  2:{ assert (Y = N1)%Z by lia. assert (B2R y = LL).
    { destruct Vy as [[H1 V]|[[E V]|[E V]]]; try lia; auto. }
    assert (Eq1 : q = -1). { unfold q. rewrite VX, H0. unfold Rdiv. rewrite Ropp_mult_distr_l_reverse. rewrite Rinv_r; [lra|]. unfold LL. lra. }
    rewrite Eq1 in R. destruct (result_near _ _ 0 ltac:(lia) R) as (F & _ & E). { apply abs_le. bpn. lra. }
    apply near_abs in E. change (0 - 53)%Z with (-53)%Z in E. rewrite P53 in E.
    subst X. change (clampZ ((-1073741825 + NN) / 2) 0 (NN - 1)) with 0%Z.
    apply st_to_ij_val; auto; try lia; [lra|]. right. rewrite P45. lra. }
  assert (BX : - IZR NN <= IZR X <= IZR NN).
  { assert (-1073741824 <= X <= NN)%Z as [H1 H2] by lia. apply IZR_le in H1, H2. lra. }
  assert (QB : B2R x - / 4503599627370496 <= q <= B2R x + / 4503599627370496).
  { rewrite Eq. assert (-1 <= B2R x <= 1) by (rewrite VX; lra). nra. }
  destruct (result_near _ _ 1 ltac:(lia) R) as (F & _ & E). { apply abs_le. bpn. lra. }
  apply near_abs in E. change (1 - 53)%Z with (-52)%Z in E.
  assert (P52 : bpow radix2 (-52) = / 4503599627370496) by reflexivity. rewrite P52 in E.
  destruct Ox as [Ox|Ox].
  - assert (exists w, X = 2 * w + 1 - NN)%Z as [w ->].
    { apply Z.odd_spec in Ox. destruct Ox as [k Ek]. exists (k + 536870912)%Z. lia. }
    assert (0 <= w < NN)%Z by lia.
    replace ((2 * w + 1 - NN + NN) / 2)%Z with w by (apply Z.div_unique with 1%Z; lia).
    assert (clampZ w 0 (NN - 1) = w) as ->.
    { unfold clampZ. destruct (Z.ltb_spec w 0); [lia|]. destruct (Z.ltb_spec (NN - 1) w); lia. }
    rewrite minus_IZR, plus_IZR, mult_IZR in VX, BX.
    apply st_to_ij_val; auto; try lra; right; rewrite P45; lra.
  - assert (X = NN \/ X = -1073741824)%Z as [-> | ->] by lia.
    + change (clampZ ((NN + NN) / 2) 0 (NN - 1)) with (NN - 1)%Z.
      apply st_to_ij_val; auto; try lia; try lra; right; rewrite P45; change (NN - 1)%Z with 1073741823%Z; lra.
    + change (clampZ ((-1073741824 + NN) / 2) 0 (NN - 1)) with 0%Z.
      apply st_to_ij_val; auto; try lia; try lra; right; rewrite P45; lra.
Qed.

Lemma quotient_index x X y Y : rep x X -> rep y Y -> (Z.abs X <= Z.abs Y)%Z -> (NN <= Z.abs Y)%Z ->
  st_to_ij (fmul fhalf (fadd (fdiv x y) f1)) = zindex X Y.
Proof.
  intros Hx Hy HXY HY. pose proof (proj1 Hx) as Fx. pose proof (proj1 Hy) as Fy.
  assert (Q : B2R y <> 0).
  { destruct Hy as (_ & _ & [[H V]|[[E V]|[E V]]]); rewrite V; unfold LL; try lra.
    assert (IZR Y <> 0) by (apply IZR_neq; lia). lra. }
  pose proof (fdiv_result x y Fx Fy Q) as R. unfold zindex.
  destruct (sgn_cases Y) as [[P ->]|[[P _]|[P ->]]]; [|lia|].
  - rewrite Z.mul_1_r. apply (quotient_pos _ x X y Y); auto; lia.
  - replace (X * -1)%Z with (- X)%Z by lia.
    apply (quotient_pos _ (fneg x) (- X) (fneg y) (- Y)); try apply rep_neg; auto; try lia.
    destruct (fneg_val x Fx) as [_ ->]. destruct (fneg_val y Fy) as [_ ->].
    replace (- B2R x / - B2R y) with (B2R x / B2R y) by (field; auto). exact R.
Qed.

Open Scope Z_scope.
Definition repv (r : vec) (X Y Z : Z) : Prop := rep (vx r) X /\ rep (vy r) Y /\ rep (vz r) Z.

Lemma zface_spec X Y Z : let f := zface X Y Z in 0 <= f < 6 /\
  let '(u, v, w) := zuv f X Y Z in Z.abs u <= Z.abs w /\ Z.abs v <= Z.abs w /\ Z.max (Z.abs X) (Z.max (Z.abs Y) (Z.abs Z)) = Z.abs w.
Proof.
  unfold zface, zabs_lt.
  destruct (Z.ltb_spec (Z.abs X) (Z.abs Y)); cbn [fst snd].
  - destruct (Z.ltb_spec (Z.abs Y) (Z.abs Z)).
    + destruct (Z.ltb_spec Z 0); cbn; lia.
    + destruct (Z.ltb_spec Y 0); cbn; lia.
  - destruct (Z.ltb_spec (Z.abs X) (Z.abs Z)).
    + destruct (Z.ltb_spec Z 0); cbn; lia.
    + destruct (Z.ltb_spec X 0); cbn; lia.
Qed.

Lemma face_repv r X Y Z : repv r X Y Z -> StuvModel.face r = zface X Y Z.
Proof.
  intros (HX & HY & HZ). unfold StuvModel.face, zface, zabs_lt, vabs, fgt. cbn [vx vy vz].
  rewrite (rep_lt _ X _ Y) by auto.
  destruct (Z.abs X <? Z.abs Y).
  - rewrite (rep_lt _ Y _ Z) by auto. destruct (Z.abs Y <? Z.abs Z).
    + rewrite (rep_sign _ Z) by auto. reflexivity.
    + rewrite (rep_sign _ Y) by auto. reflexivity.
  - rewrite (rep_lt _ X _ Z) by auto. destruct (Z.abs X <? Z.abs Z).
    + rewrite (rep_sign _ Z) by auto. reflexivity.
    + rewrite (rep_sign _ X) by auto. reflexivity.
Qed.

Lemma face_cases f : 0 <= f < 6 -> f = 0 \/ f = 1 \/ f = 2 \/ f = 3 \/ f = 4 \/ f = 5.
Proof. lia. Qed.

Lemma xyz_index r X Y Z : repv r X Y Z -> NN <= Z.max (Z.abs X) (Z.max (Z.abs Y) (Z.abs Z)) ->
  exists u v, xyz_to_face_uv r = Some (zface X Y Z, u, v) /\
    let '(a, b, w) := zuv (zface X Y Z) X Y Z in
    st_to_ij (fmul fhalf (fadd u f1)) = zindex a w /\ st_to_ij (fmul fhalf (fadd v f1)) = zindex b w.
Proof.
  intros H HM. unfold xyz_to_face_uv. rewrite (face_repv r X Y Z H).
  pose proof (zface_spec X Y Z) as S. cbv zeta in S. destruct S as [B S]. destruct H as (HX & HY & HZ).
  destruct (face_cases _ B) as [E|[E|[E|[E|[E|E]]]]]; rewrite E in *; cbn in S; cbn -[zindex];
    eexists _, _; (split; [reflexivity|]); split; apply quotient_index; auto using rep_neg; lia.
Qed.

Lemma xyz_repv f u v U V : 0 <= f < 6 -> rep u U -> rep v V ->
  exists r, face_uv_to_xyz f u v = Some r /\ let '(X, Y, Z) := zxyz f U V in
    repv r X Y Z /\ NN <= Z.max (Z.abs X) (Z.max (Z.abs Y) (Z.abs Z)).
Proof.
  intros Hf Hu Hv.
  unfold face_uv_to_xyz, zxyz.
  destruct (face_cases _ Hf) as [->|[->|[->|[->|[->| ->]]]]]; cbn [Z.eqb Pos.eqb]; eexists; (split; [reflexivity|]);
    (split; [unfold repv; cbn [vx vy vz]; split; [|split]|lia]);
    first [assumption | apply rep_neg; assumption | exact rep_one | exact rep_mone].
Qed.

Theorem wrap_ok f i j : 0 <= f < 6 ->
  from_face_ij_wrap f i j =
  let '(f', i', j') := wrapZ f (clampZ i (-1) NN) (clampZ j (-1) NN) in from_face_ij f' i' j'.
Proof.
  intros Hf. unfold from_face_ij_wrap. unfold MAX_SIZE, MAX_LEVEL. change (2 ^ 30) with NN.
  assert (C : forall k, -1 <= clampZ k (-1) NN <= NN).
  { intros k. unfold clampZ. destruct (Z.ltb_spec k (-1)); [lia|]. destruct (Z.ltb_spec NN k); lia. }
  set (a := clampZ i (-1) NN). set (b := clampZ j (-1) NN).
  pose proof (wrap_coord_rep a (C i)) as Ra. pose proof (wrap_coord_rep b (C j)) as Rb.
  destruct (xyz_repv f _ _ _ _ Hf Ra Rb) as (r & -> & Hr). unfold wrapZ.
  destruct (zxyz f (2 * a + 1 - NN) (2 * b + 1 - NN)) as [[X Y] Z]. destruct Hr as [Hr HM].
  destruct (xyz_index r X Y Z Hr HM) as (u & v & -> & E).
  destruct (zuv (zface X Y Z) X Y Z) as [[p q] w]. destruct E as [-> ->]. reflexivity.
Qed.
