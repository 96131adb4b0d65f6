(** Squares across the edges of a face of the cube. *)
From Coq Require Import Lia ZArith Bool.
From Verif Require Import Base Spec HilbertSpec NeighborSpec NeighborModel NeighborWrap.
Open Scope Z_scope.

Definition crossx (f x y s : Z) : square :=
  if Z.even f then
    (if x <? 0 then Square ((f + 4) mod 6) (NN - s - y) (NN - s) s else Square ((f + 1) mod 6) 0 y s)
  else
    (if x <? 0 then Square ((f + 5) mod 6) (NN - s) y s else Square ((f + 2) mod 6) (NN - s - y) 0 s).
Definition crossy (f x y s : Z) : square :=
  if Z.even f then
    (if y <? 0 then Square ((f + 5) mod 6) x (NN - s) s else Square ((f + 2) mod 6) 0 (NN - s - x) s)
  else
    (if y <? 0 then Square ((f + 4) mod 6) (NN - s) (NN - s - x) s else Square ((f + 1) mod 6) x 0 s).
Definition off (x : Z) : bool := (x <? 0) || (NN <=? x).
(* the square of side s at (x, y) of face f, where x and y may be one step outside *)
Definition resolve (f x y s : Z) : square :=
  if negb (off x) && negb (off y) then Square f x y s
  else if off x && (negb (off y) || (f <? 3)) then crossx f x (clampZ y 0 (NN - s)) s
  else crossy f (clampZ x 0 (NN - s)) y s.

Definition ext (s x : Z) : Prop := x = - s \/ x = NN \/ 0 <= x <= NN - s.

Ltac zb := repeat match goal with
  | |- context [?a <? ?b] => destruct (Z.ltb_spec a b); try lia
  | |- context [?a <=? ?b] => destruct (Z.leb_spec a b); try lia
  | H : context [?a <? ?b] |- _ => destruct (Z.ltb_spec a b); try lia
  | H : context [?a <=? ?b] |- _ => destruct (Z.leb_spec a b); try lia
  end.

Definition fields (q : square) : Z * Z * Z := (sq_face q, sq_i q, sq_j q).

Lemma zindex_pos u w : 0 < w -> zindex u w = clampZ ((u + NN) / 2) 0 (NN - 1).
Proof. intros H. unfold zindex. rewrite (Z.sgn_pos w H), Z.mul_1_r. reflexivity. Qed.
Lemma zindex_neg u w : w < 0 -> zindex u w = clampZ ((- u + NN) / 2) 0 (NN - 1).
Proof. intros H. unfold zindex. rewrite (Z.sgn_neg w H). do 3 f_equal. lia. Qed.
Lemma half_in i : 0 <= i < NN -> clampZ ((2 * i + 1 - NN + NN) / 2) 0 (NN - 1) = i.
Proof.
  intros H. replace ((2 * i + 1 - NN + NN) / 2) with i by (apply Z.div_unique with 1; lia).
  unfold clampZ. zb.
Qed.
Lemma half_opp i : 0 <= i < NN -> clampZ ((- (2 * i + 1 - NN) + NN) / 2) 0 (NN - 1) = NN - 1 - i.
Proof.
  intros H. replace ((- (2 * i + 1 - NN) + NN) / 2) with (NN - 1 - i) by (apply Z.div_unique with 1; lia).
  unfold clampZ. zb.
Qed.

Lemma wrapZ_in f i j : 0 <= f < 6 -> 0 <= i < NN -> 0 <= j < NN -> wrapZ f i j = (f, i, j).
Proof.
  intros Hf Hi Hj. unfold wrapZ.
  destruct (face_cases f Hf) as [->|[->|[->|[->|[->| ->]]]]]; cbn [zxyz Z.eqb Pos.eqb]; unfold zface, zabs_lt; zb; cbn [zuv Z.eqb Pos.eqb Z.add Pos.add Pos.succ];
    rewrite ?zindex_pos, ?zindex_neg by lia; rewrite ?Z.opp_involutive, ?half_in by lia; reflexivity.
Qed.

Lemma wrapZ_x f i j : 0 <= f < 6 -> i = -1 \/ i = NN -> 0 <= j < NN -> wrapZ f i j = fields (resolve f i j 1).
Proof.
  intros Hf Hi Hj. unfold wrapZ, resolve, off, crossx, fields.
  destruct Hi as [-> | ->];
  destruct (face_cases f Hf) as [->|[->|[->|[->|[->| ->]]]]]; cbn [zxyz Z.eqb Pos.eqb Z.even Z.ltb Z.compare Pos.compare Pos.compare_cont Z.leb negb andb orb]; 
    unfold zface, zabs_lt; zb; cbn [zuv Z.eqb Pos.eqb Z.add Pos.add Pos.succ negb andb orb sq_face sq_i sq_j];
    rewrite ?zindex_pos, ?zindex_neg by lia; rewrite ?Z.opp_involutive, ?half_in, ?half_opp by lia;
    unfold clampZ; zb; f_equal; try lia; f_equal; lia.
Qed.
Lemma wrapZ_y f i j : 0 <= f < 6 -> 0 <= i < NN -> j = -1 \/ j = NN -> wrapZ f i j = fields (resolve f i j 1).
Proof.
  intros Hf Hj Hi. unfold wrapZ, resolve, off, crossy, fields.
  destruct Hi as [-> | ->];
  destruct (face_cases f Hf) as [->|[->|[->|[->|[->| ->]]]]]; cbn [zxyz Z.eqb Pos.eqb Z.even Z.ltb Z.compare Pos.compare Pos.compare_cont Z.leb negb andb orb]; 
    unfold zface, zabs_lt; zb; cbn [zuv Z.eqb Pos.eqb Z.add Pos.add Pos.succ negb andb orb sq_face sq_i sq_j];
    rewrite ?zindex_pos, ?zindex_neg by lia; rewrite ?Z.opp_involutive, ?half_in, ?half_opp by lia;
    unfold clampZ; zb; f_equal; try lia; f_equal; lia.
Qed.
Lemma wrapZ_xy f i j : 0 <= f < 6 -> i = -1 \/ i = NN -> j = -1 \/ j = NN -> wrapZ f i j = fields (resolve f i j 1).
Proof.
  intros Hf [-> | ->] [-> | ->];
  destruct (face_cases f Hf) as [->|[->|[->|[->|[->| ->]]]]]; reflexivity.
Qed.
Lemma wrapZ_resolve f i j : 0 <= f < 6 -> -1 <= i <= NN -> -1 <= j <= NN -> wrapZ f i j = fields (resolve f i j 1).
Proof.
  intros Hf Hi Hj.
  assert (Ci : 0 <= i < NN \/ (i = -1 \/ i = NN)) by lia. assert (Cj : 0 <= j < NN \/ (j = -1 \/ j = NN)) by lia.
  destruct Ci as [Ci|Ci], Cj as [Cj|Cj]; auto using wrapZ_x, wrapZ_y, wrapZ_xy.
  rewrite wrapZ_in by auto. unfold resolve, off. zb; reflexivity.
Qed.

(* the step outside may be of any size *)
Definition leaf_in (s x i : Z) : Prop := x <= i < x + s.
Lemma resolve_leaf f x y s i j : 0 <= f < 6 -> 0 < s <= NN -> ext s x -> ext s y -> leaf_in s x i -> leaf_in s y j ->
  let '(f', i', j') := wrapZ f (clampZ i (-1) NN) (clampZ j (-1) NN) in in_square (resolve f x y s) f' i' j'.
Proof.
  intros Hf Hs Hx Hy Hi Hj. unfold leaf_in, ext in *.
  assert (Ri : -1 <= clampZ i (-1) NN <= NN) by (unfold clampZ; zb).
  assert (Rj : -1 <= clampZ j (-1) NN <= NN) by (unfold clampZ; zb).
  rewrite wrapZ_resolve by auto. unfold fields.
  assert (Ki : off (clampZ i (-1) NN) = off x /\ (clampZ i (-1) NN <? 0) = (x <? 0) /\ (off x = false -> clampZ i (-1) NN = i /\ 0 <= x <= NN - s)).
  { unfold off, clampZ. zb; cbn; repeat split; intros; try lia; try discriminate; auto. }
  assert (Kj : off (clampZ j (-1) NN) = off y /\ (clampZ j (-1) NN <? 0) = (y <? 0) /\ (off y = false -> clampZ j (-1) NN = j /\ 0 <= y <= NN - s)).
  { unfold off, clampZ. zb; cbn; repeat split; intros; try lia; try discriminate; auto. }
  destruct Ki as (Ki & Li & Mi). destruct Kj as (Kj & Lj & Mj).
  unfold resolve. rewrite Ki, Kj.
  assert (Xc : 0 <= clampZ (clampZ i (-1) NN) 0 (NN - 1) - clampZ x 0 (NN - s) < s).
  { destruct (off x) eqn:E; [|destruct (Mi eq_refl) as [-> ?]; unfold clampZ; zb].
    revert E. unfold off, clampZ. zb; discriminate. }
  assert (Yc : 0 <= clampZ (clampZ j (-1) NN) 0 (NN - 1) - clampZ y 0 (NN - s) < s).
  { destruct (off y) eqn:E; [|destruct (Mj eq_refl) as [-> ?]; unfold clampZ; zb].
    revert E. unfold off, clampZ. zb; discriminate. }
  set (a := clampZ i (-1) NN) in *. set (b := clampZ j (-1) NN) in *.
  destruct (negb (off x) && negb (off y)) eqn:E1.
  - apply andb_prop in E1. destruct E1 as [E1 E2]. apply negb_true_iff in E1, E2.
    destruct (Mi E1), (Mj E2). unfold in_square. cbn [sq_face sq_i sq_j sq_side]. lia.
  - destruct (off x && (negb (off y) || (f <? 3))) eqn:E2.
    + unfold crossx. rewrite Li. destruct (Z.even f), (x <? 0); unfold in_square; cbn [sq_face sq_i sq_j sq_side]; lia.
    + unfold crossy. rewrite Lj. destruct (Z.even f), (y <? 0); unfold in_square; cbn [sq_face sq_i sq_j sq_side]; lia.
Qed.

Lemma mod6 a : 0 <= a mod 6 < 6.
Proof. apply Z.mod_pos_bound. lia. Qed.
Lemma divide_ext s x : 0 < s -> (s | NN) -> (s | x) -> - s <= x <= NN -> ext s x.
Proof.
  intros Hs [m Hm] [n Hn] H. subst x. unfold ext. rewrite Hm in *.
  destruct (Z.eq_dec n (-1)); [left; lia|]. destruct (Z.eq_dec n m); [right; left; lia|]. right; right. nia.
Qed.
Lemma resolve_aligned f x y s : 0 <= f < 6 -> 0 < s <= NN -> (s | NN) -> (s | x) -> (s | y) -> ext s x -> ext s y ->
  aligned (resolve f x y s) /\ sq_side (resolve f x y s) = s.
Proof.
  intros Hf Hs Dn Dx Dy Hx Hy.
  assert (D0 : (s | NN - s)) by (apply Z.divide_sub_r; auto using Z.divide_refl).
  assert (Cx : 0 <= clampZ x 0 (NN - s) <= NN - s /\ (s | clampZ x 0 (NN - s))).
  { unfold ext, clampZ in *. zb; split; auto using Z.divide_0_r; lia. }
  assert (Cy : 0 <= clampZ y 0 (NN - s) <= NN - s /\ (s | clampZ y 0 (NN - s))).
  { unfold ext, clampZ in *. zb; split; auto using Z.divide_0_r; lia. }
  unfold resolve. change (2 ^ 30) with NN.
  destruct (negb (off x) && negb (off y)) eqn:E1.
  - apply andb_prop in E1. destruct E1 as [E1 E2]. apply negb_true_iff in E1, E2. unfold off in *.
    split; [|reflexivity]. unfold aligned. cbn [sq_face sq_i sq_j sq_side]. change (2 ^ 30) with NN. unfold ext in *.
    revert E1 E2. zb; cbn; try discriminate. intros. repeat split; auto; lia.
  - destruct (off x && _); unfold crossx, crossy.
    + destruct (Z.even f), (x <? 0); (split; [|reflexivity]); unfold aligned; cbn [sq_face sq_i sq_j sq_side];
      change (2 ^ 30) with NN; repeat split; try apply mod6; try lia; try tauto; auto using Z.divide_0_r; try (apply Z.divide_sub_r; tauto).
    + destruct (Z.even f), (y <? 0); (split; [|reflexivity]); unfold aligned; cbn [sq_face sq_i sq_j sq_side];
      change (2 ^ 30) with NN; repeat split; try apply mod6; try lia; try tauto; auto using Z.divide_0_r; try (apply Z.divide_sub_r; tauto).
Qed.
