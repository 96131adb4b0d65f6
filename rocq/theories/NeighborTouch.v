(** Which squares touch, share an edge or share a corner on the cube. *)
From Coq Require Import Lia ZArith Bool.
From Verif Require Import Base Spec HilbertSpec NeighborSpec NeighborModel NeighborWrap NeighborGeom.
Open Scope Z_scope.

(* where the point (a, b) of face f lies on another face f' *)
Definition adj (f f' a b a' b' : Z) : Prop :=
  if Z.even f then
    (f' = (f + 1) mod 6 /\ a = NN /\ a' = 0 /\ b' = b) \/
    (f' = (f + 4) mod 6 /\ a = 0 /\ a' = NN - b /\ b' = NN) \/
    (f' = (f + 2) mod 6 /\ b = NN /\ a' = 0 /\ b' = NN - a) \/
    (f' = (f + 5) mod 6 /\ b = 0 /\ a' = a /\ b' = NN)
  else
    (f' = (f + 2) mod 6 /\ a = NN /\ a' = NN - b /\ b' = 0) \/
    (f' = (f + 5) mod 6 /\ a = 0 /\ a' = NN /\ b' = b) \/
    (f' = (f + 1) mod 6 /\ b = NN /\ a' = a /\ b' = 0) \/
    (f' = (f + 4) mod 6 /\ b = 0 /\ a' = NN /\ b' = NN - a).

Lemma cube_same f a b a' b' : 0 <= f < 6 -> cube_point f a b = cube_point f a' b' <-> a = a' /\ b = b'.
Proof.
  intros Hf. unfold cube_point.
  destruct (face_cases f Hf) as [->|[->|[->|[->|[->| ->]]]]]; cbn [Z.eqb Pos.eqb]; change (2 ^ 30) with NN;
    rewrite !pair_equal_spec; lia.
Qed.
Lemma cube_adj f f' a b a' b' : 0 <= f < 6 -> 0 <= f' < 6 -> f <> f' ->
  0 <= a <= NN -> 0 <= b <= NN -> 0 <= a' <= NN -> 0 <= b' <= NN ->
  cube_point f a b = cube_point f' a' b' <-> adj f f' a b a' b'.
Proof.
  intros Hf Hf' N A B A' B'. unfold cube_point, adj.
  destruct (face_cases f Hf) as [->|[->|[->|[->|[->| ->]]]]];
  destruct (face_cases f' Hf') as [->|[->|[->|[->|[->| ->]]]]]; try (elim N; reflexivity);
  match goal with |- context [if Z.even ?f then _ else _] => let v := eval vm_compute in (Z.even f) in change (Z.even f) with v end;
  repeat match goal with |- context [(?a + ?b) mod 6] => let v := eval vm_compute in ((a + b) mod 6) in change ((a + b) mod 6) with v end;
  cbn [Z.eqb Pos.eqb]; change (2 ^ 30) with NN;
  rewrite !pair_equal_spec; lia.
Qed.

Lemma modne f k : 0 <= f < 6 -> k = 1 \/ k = 2 \/ k = 4 \/ k = 5 -> (f + k) mod 6 <> f.
Proof. intros Hf Hk. destruct (face_cases f Hf) as [->|[->|[->|[->|[->| ->]]]]]; destruct Hk as [->|[->|[->| ->]]]; discriminate. Qed.

(* the positions of the squares of side s around a square *)
Definition ring (q : square) (s x y : Z) : Prop :=
  sq_i q - s <= x <= sq_i q + sq_side q /\ sq_j q - s <= y <= sq_j q + sq_side q /\
  (x = sq_i q - s \/ x = sq_i q + sq_side q \/ y = sq_j q - s \/ y = sq_j q + sq_side q).

Ltac sqs := cbn [sq_face sq_i sq_j sq_side] in *.
Lemma resolve_in f x y s : 0 < s -> 0 <= x <= NN - s -> 0 <= y <= NN - s -> resolve f x y s = Square f x y s.
Proof. intros. unfold resolve, off. zb; reflexivity. Qed.
Lemma resolve_x f x y s : 0 < s <= NN -> x < 0 \/ NN <= x -> 0 <= y <= NN - s -> resolve f x y s = crossx f x y s.
Proof.
  intros Hs Hx Hy. unfold resolve. assert (off x = true) as -> by (unfold off; zb; reflexivity).
  assert (off y = false) as -> by (unfold off; zb; reflexivity). cbn [negb andb orb]. f_equal. unfold clampZ. zb.
Qed.
Lemma resolve_y f x y s : 0 < s <= NN -> y < 0 \/ NN <= y -> 0 <= x <= NN - s -> resolve f x y s = crossy f x y s.
Proof.
  intros Hs Hx Hy. unfold resolve. assert (off y = true) as -> by (unfold off; zb; reflexivity).
  assert (off x = false) as -> by (unfold off; zb; reflexivity). cbn [negb andb orb]. f_equal. unfold clampZ. zb.
Qed.
Lemma resolve_xy f x y s : x < 0 \/ NN <= x -> y < 0 \/ NN <= y ->
  resolve f x y s = if f <? 3 then crossx f x (clampZ y 0 (NN - s)) s else crossy f (clampZ x 0 (NN - s)) y s.
Proof.
  intros Hx Hy. unfold resolve. assert (off y = true) as -> by (unfold off; zb; reflexivity).
  assert (off x = true) as -> by (unfold off; zb; reflexivity). cbn [negb andb orb]. reflexivity.
Qed.
Lemma crossx_neg f y s : crossx f (- s) y s = crossx f (-1) y s \/ s <= 0.
Proof. unfold crossx. destruct (Z.ltb_spec (- s) 0); [left; reflexivity|right; lia]. Qed.

Section Q.
Context (q : square) (Aq : aligned q) (s : Z) (Hs : 0 < s <= sq_side q).

Ltac start := destruct q as [f qi qj S]; unfold aligned in Aq; sqs; change (2 ^ 30) with NN in *;
  destruct Aq as (Hf & HS & Di & Dj & B1 & B2 & B3 & B4).

Lemma touch_ring q' : aligned q' -> sq_side q' = s -> touch q q' -> ~ overlap q q' ->
  exists x y, ring q s x y /\ q' = resolve (sq_face q) x y s /\ (0 <= x <= NN - s \/ 0 <= y <= NN - s) /\ ext s x /\ ext s y.
Proof.
  intros Aq' Hs' (P & (i & j & Hi & Hj & EP) & (i' & j' & Hi' & Hj' & EP')) NO. rewrite EP in EP'. clear P EP.
  start. destruct q' as [f' x' y' s']. unfold aligned in Aq'. sqs. change (2 ^ 30) with NN in *. subst s'.
  destruct Aq' as (Hf' & _ & Di' & Dj' & B1' & B2' & B3' & B4'). unfold ring. sqs.
  destruct (Z.eq_dec f f') as [<-|NF].
  - apply cube_same in EP'; auto. destruct EP' as [<- <-]. exists x', y'.
    rewrite resolve_in by lia. split; [|split; [reflexivity|unfold ext; lia]].
    split; [lia|]. split; [lia|].
    destruct (Z.eq_dec x' (qi - s)); auto. destruct (Z.eq_dec x' (qi + S)); auto.
    destruct (Z.eq_dec y' (qj - s)); auto. destruct (Z.eq_dec y' (qj + S)); auto. exfalso. apply NO.
    exists f, (Z.max qi x'), (Z.max qj y'). unfold in_square; sqs. lia.
  - apply cube_adj in EP'; auto; try lia. unfold adj in EP'. destruct (Z.even f) eqn:Ev.
    + destruct EP' as [(-> & E)|[(-> & E)|[(-> & E)|(-> & E)]]].
      * exists NN, y'. rewrite resolve_x by lia. unfold crossx. rewrite Ev. zb. split; [lia|]. split; [f_equal; lia|unfold ext; lia].
      * exists (- s), (NN - s - x'). rewrite resolve_x by lia. unfold crossx. rewrite Ev. zb. split; [lia|]. split; [f_equal; lia|unfold ext; lia].
      * exists (NN - s - y'), NN. rewrite resolve_y by lia. unfold crossy. rewrite Ev. zb. split; [lia|]. split; [f_equal; lia|unfold ext; lia].
      * exists x', (- s). rewrite resolve_y by lia. unfold crossy. rewrite Ev. zb. split; [lia|]. split; [f_equal; lia|unfold ext; lia].
    + destruct EP' as [(-> & E)|[(-> & E)|[(-> & E)|(-> & E)]]].
      * exists NN, (NN - s - x'). rewrite resolve_x by lia. unfold crossx. rewrite Ev. zb. split; [lia|]. split; [f_equal; lia|unfold ext; lia].
      * exists (- s), y'. rewrite resolve_x by lia. unfold crossx. rewrite Ev. zb. split; [lia|]. split; [f_equal; lia|unfold ext; lia].
      * exists x', NN. rewrite resolve_y by lia. unfold crossy. rewrite Ev. zb. split; [lia|]. split; [f_equal; lia|unfold ext; lia].
      * exists (NN - s - y'), (- s). rewrite resolve_y by lia. unfold crossy. rewrite Ev. zb. split; [lia|]. split; [f_equal; lia|unfold ext; lia].
Qed.

(* points of the square across an edge *)
Lemma crossx_touch x y i : 0 <= y <= NN - s -> sq_j q - s <= y <= sq_j q + sq_side q ->
  (x < 0 /\ i = 0 \/ 0 <= x /\ i = NN) -> sq_i q <= i <= sq_i q + sq_side q ->
  touch q (crossx (sq_face q) x y s) /\ ~ overlap q (crossx (sq_face q) x y s).
Proof.
  intros Hy Hr Hx Hi. start. split.
  - exists (cube_point f i (Z.max y qj)). split; [exists i, (Z.max y qj); sqs; repeat split; lia|].
    unfold crossx, on_square. destruct (Z.even f) eqn:Ev, (Z.ltb_spec x 0); sqs.
    + exists (NN - Z.max y qj), NN. repeat split; try lia. apply cube_adj; auto using mod6; try lia.
      unfold adj. rewrite Ev. right; left. repeat split; lia.
    + exists 0, (Z.max y qj). repeat split; try lia. apply cube_adj; auto using mod6; try lia.
      unfold adj. rewrite Ev. left. repeat split; lia.
    + exists NN, (Z.max y qj). repeat split; try lia. apply cube_adj; auto using mod6; try lia.
      unfold adj. rewrite Ev. right; left. repeat split; lia.
    + exists (NN - Z.max y qj), 0. repeat split; try lia. apply cube_adj; auto using mod6; try lia.
      unfold adj. rewrite Ev. left. repeat split; lia.
  - intros (g & a & b & (E1 & _) & (E2 & _)). sqs. subst g. revert E2. unfold crossx.
    destruct (Z.even f), (Z.ltb_spec x 0); sqs; intros E; symmetry in E; revert E; apply modne; auto.
Qed.
Lemma crossy_touch x y j : 0 <= x <= NN - s -> sq_i q - s <= x <= sq_i q + sq_side q ->
  (y < 0 /\ j = 0 \/ 0 <= y /\ j = NN) -> sq_j q <= j <= sq_j q + sq_side q ->
  touch q (crossy (sq_face q) x y s) /\ ~ overlap q (crossy (sq_face q) x y s).
Proof.
  intros Hy Hr Hx Hi. start. split.
  - exists (cube_point f (Z.max x qi) j). split; [exists (Z.max x qi), j; sqs; repeat split; lia|].
    unfold crossy, on_square. destruct (Z.even f) eqn:Ev, (Z.ltb_spec y 0); sqs.
    + exists (Z.max x qi), NN. repeat split; try lia. apply cube_adj; auto using mod6; try lia.
      unfold adj. rewrite Ev. right; right; right. repeat split; lia.
    + exists 0, (NN - Z.max x qi). repeat split; try lia. apply cube_adj; auto using mod6; try lia.
      unfold adj. rewrite Ev. right; right; left. repeat split; lia.
    + exists NN, (NN - Z.max x qi). repeat split; try lia. apply cube_adj; auto using mod6; try lia.
      unfold adj. rewrite Ev. right; right; right. repeat split; lia.
    + exists (Z.max x qi), 0. repeat split; try lia. apply cube_adj; auto using mod6; try lia.
      unfold adj. rewrite Ev. right; right; left. repeat split; lia.
  - intros (g & a & b & (E1 & _) & (E2 & _)). sqs. subst g. revert E2. unfold crossy.
    destruct (Z.even f), (Z.ltb_spec y 0); sqs; intros E; symmetry in E; revert E; apply modne; auto.
Qed.

Lemma ring_touch x y : ring q s x y -> ext s x -> ext s y ->
  touch q (resolve (sq_face q) x y s) /\ ~ overlap q (resolve (sq_face q) x y s).
Proof.
  intros R Ex Ey. pose proof Aq as (_ & _ & _ & _ & B1 & B2 & B3 & B4). change (2 ^ 30) with NN in *.
  unfold ring, ext in *.
  assert (Cx : (0 <= x <= NN - s) \/ (x < 0 /\ 0 = sq_i q) \/ (0 <= x /\ NN <= x /\ NN = sq_i q + sq_side q)) by lia.
  assert (Cy : (0 <= y <= NN - s) \/ (y < 0 /\ 0 = sq_j q) \/ (0 <= y /\ NN <= y /\ NN = sq_j q + sq_side q)) by lia.
  destruct Cx as [Cx|Cx], Cy as [Cy|Cy].
  - rewrite resolve_in by lia. split.
    + exists (cube_point (sq_face q) (Z.max x (sq_i q)) (Z.max y (sq_j q))).
      split; eexists _, _; (split; [|split; [|reflexivity]]); sqs; lia.
    + intros (g & a & b & (_ & E1 & E2) & (_ & E3 & E4)). sqs. lia.
  - rewrite resolve_y by lia. destruct Cy as [Cy|Cy]; [apply (crossy_touch x y 0)|apply (crossy_touch x y NN)]; lia.
  - rewrite resolve_x by lia. destruct Cx as [Cx|Cx]; [apply (crossx_touch x y 0)|apply (crossx_touch x y NN)]; lia.
  - rewrite resolve_xy by lia. destruct (sq_face q <? 3).
    + assert (0 <= clampZ y 0 (NN - s) <= NN - s /\ sq_j q - s <= clampZ y 0 (NN - s) <= sq_j q + sq_side q) by (unfold clampZ; zb).
      destruct Cx as [Cx|Cx]; [apply (crossx_touch x _ 0)|apply (crossx_touch x _ NN)]; lia.
    + assert (0 <= clampZ x 0 (NN - s) <= NN - s /\ sq_i q - s <= clampZ x 0 (NN - s) <= sq_i q + sq_side q) by (unfold clampZ; zb).
      destruct Cy as [Cy|Cy]; [apply (crossy_touch _ y 0)|apply (crossy_touch _ y NN)]; lia.
Qed.
End Q.
