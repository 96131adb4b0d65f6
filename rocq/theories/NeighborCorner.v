(** Squares around a corner, and across an edge, of a square. *)
From Coq Require Import Lia ZArith Bool.
From Verif Require Import Base Spec HilbertSpec NeighborSpec NeighborModel NeighborWrap NeighborGeom NeighborTouch.
Open Scope Z_scope.

Definition inr (s x : Z) : Prop := 0 <= x <= NN - s.

(* at most one coordinate outside: different positions are different squares *)
Lemma resolve_cases f x y s : 0 < s <= NN -> ext s x -> ext s y -> inr s x \/ inr s y ->
  (inr s x /\ inr s y /\ resolve f x y s = Square f x y s) \/
  ((x = - s \/ x = NN) /\ inr s y /\ resolve f x y s = crossx f x y s) \/
  (inr s x /\ (y = - s \/ y = NN) /\ resolve f x y s = crossy f x y s).
Proof.
  unfold ext, inr. intros Hs Hx Hy O.
  destruct Hx as [Hx|[Hx|Hx]]; destruct Hy as [Hy|[Hy|Hy]]; try lia.
  - right; left. rewrite resolve_x by lia. auto.
  - right; left. rewrite resolve_x by lia. auto.
  - right; right. rewrite resolve_y by lia. auto.
  - right; right. rewrite resolve_y by lia. auto.
  - left. rewrite resolve_in by lia. auto.
Qed.
Lemma square_eq a b c d a' b' c' d' : Square a b c d = Square a' b' c' d' <-> a = a' /\ b = b' /\ c = c' /\ d = d'.
Proof. split; [intros E; inversion E; auto|intros (-> & -> & -> & ->); reflexivity]. Qed.

Lemma resolve_inj f x y x' y' s : 0 <= f < 6 -> 0 < s <= NN ->
  ext s x -> ext s y -> inr s x \/ inr s y -> ext s x' -> ext s y' -> inr s x' \/ inr s y' ->
  resolve f x y s = resolve f x' y' s -> x = x' /\ y = y'.
Proof.
  intros Hf Hs X Y O X' Y' O' E.
  destruct (resolve_cases f x y s Hs X Y O) as [(A & B & R)|[(A & B & R)|(A & B & R)]]; rewrite R in E; clear R;
  destruct (resolve_cases f x' y' s Hs X' Y' O') as [(A' & B' & R)|[(A' & B' & R)|(A' & B' & R)]]; rewrite R in E; clear R;
  unfold crossx, crossy, inr in *; destruct (Z.even f);
  clear O O' X Y X' Y';
  repeat match goal with H : context [?a <? 0] |- _ => destruct (Z.ltb_spec a 0) end;
  apply square_eq in E; lia.
Qed.

(* a square around a corner of q *)
Section Q.
Context (q : square) (Aq : aligned q).
Notation s := (sq_side q).
Ltac start := destruct q as [f qi qj s]; unfold aligned in Aq; sqs; change (2 ^ 30) with NN in *;
  destruct Aq as (Hf & Hs & Di & Dj & B1 & B2 & B3 & B4).

Definition around (vi vj x y : Z) : Prop :=
  (x = vi - s \/ x = vi) /\ (y = vj - s \/ y = vj) /\ (inr s x \/ inr s y).

Lemma corner_class vi vj q' : aligned q' -> sq_side q' = s -> 0 <= vi <= NN -> 0 <= vj <= NN ->
  corner_of q' (cube_point (sq_face q) vi vj) <->
  exists x y, around vi vj x y /\ ext s x /\ ext s y /\ q' = resolve (sq_face q) x y s.
Proof.
  intros Aq' Es Hi Hj. unfold around, inr. start. destruct q' as [f' x' y' s']. unfold aligned in Aq'. sqs.
  change (2 ^ 30) with NN in *. subst s'. destruct Aq' as (Hf' & _ & _ & _ & B1' & B2' & B3' & B4').
  unfold corner_of. sqs. split.
  - intros (a & b & Ha & Hb & E).
    assert (Ra : x' + a * s = x' /\ a = 0 \/ x' + a * s = x' + s /\ a = 1) by (destruct Ha as [-> | ->]; lia).
    assert (Rb : y' + b * s = y' /\ b = 0 \/ y' + b * s = y' + s /\ b = 1) by (destruct Hb as [-> | ->]; lia).
    set (ea := x' + a * s) in *. set (eb := y' + b * s) in *. clearbody ea eb. clear Ha Hb.
    destruct (Z.eq_dec f f') as [<-|NF].
    + apply cube_same in E; auto. exists x', y'. rewrite resolve_in by lia. unfold ext. repeat split; lia.
    + apply cube_adj in E; auto; try lia. unfold adj in E. destruct (Z.even f) eqn:Ev.
      * destruct E as [(-> & E)|[(-> & E)|[(-> & E)|(-> & E)]]].
        -- exists NN, y'. rewrite resolve_x by lia. unfold crossx, ext. rewrite Ev. zb. rewrite square_eq. lia.
        -- exists (- s), (NN - s - x'). rewrite resolve_x by lia. unfold crossx, ext. rewrite Ev. zb. rewrite square_eq. lia.
        -- exists (NN - s - y'), NN. rewrite resolve_y by lia. unfold crossy, ext. rewrite Ev. zb. rewrite square_eq. lia.
        -- exists x', (- s). rewrite resolve_y by lia. unfold crossy, ext. rewrite Ev. zb. rewrite square_eq. lia.
      * destruct E as [(-> & E)|[(-> & E)|[(-> & E)|(-> & E)]]].
        -- exists NN, (NN - s - x'). rewrite resolve_x by lia. unfold crossx, ext. rewrite Ev. zb. rewrite square_eq. lia.
        -- exists (- s), y'. rewrite resolve_x by lia. unfold crossx, ext. rewrite Ev. zb. rewrite square_eq. lia.
        -- exists x', NN. rewrite resolve_y by lia. unfold crossy, ext. rewrite Ev. zb. rewrite square_eq. lia.
        -- exists (NN - s - y'), (- s). rewrite resolve_y by lia. unfold crossy, ext. rewrite Ev. zb. rewrite square_eq. lia.
  - intros (x & y & (Hx & Hy & O) & Ex & Ey & E).
    destruct (resolve_cases f x y s ltac:(lia) Ex Ey O) as [(A & B & R)|[(A & B & R)|(A & B & R)]]; rewrite R in E; clear R Ex Ey O;
      unfold inr in *.
    + apply square_eq in E. destruct E as (-> & -> & -> & _).
      exists (if vi =? x then 0 else 1), (if vj =? y then 0 else 1).
      destruct (Z.eqb_spec vi x), (Z.eqb_spec vj y); (split; [lia|]); (split; [lia|]); apply cube_same; auto; lia.
    + unfold crossx in E. destruct (Z.even f) eqn:Ev, (Z.ltb_spec x 0); apply square_eq in E; destruct E as (-> & -> & -> & _).
      * exists (if vj =? y then 1 else 0), 1. destruct (Z.eqb_spec vj y); (split; [lia|]); (split; [lia|]);
          (apply cube_adj; auto using mod6; try lia; unfold adj; rewrite Ev; right; left; repeat split; lia).
      * exists 0, (if vj =? y then 0 else 1). destruct (Z.eqb_spec vj y); (split; [lia|]); (split; [lia|]);
          (apply cube_adj; auto using mod6; try lia; unfold adj; rewrite Ev; left; repeat split; lia).
      * exists 1, (if vj =? y then 0 else 1). destruct (Z.eqb_spec vj y); (split; [lia|]); (split; [lia|]);
          (apply cube_adj; auto using mod6; try lia; unfold adj; rewrite Ev; right; left; repeat split; lia).
      * exists (if vj =? y then 1 else 0), 0. destruct (Z.eqb_spec vj y); (split; [lia|]); (split; [lia|]);
          (apply cube_adj; auto using mod6; try lia; unfold adj; rewrite Ev; left; repeat split; lia).
    + unfold crossy in E. destruct (Z.even f) eqn:Ev, (Z.ltb_spec y 0); apply square_eq in E; destruct E as (-> & -> & -> & _).
      * exists (if vi =? x then 0 else 1), 1. destruct (Z.eqb_spec vi x); (split; [lia|]); (split; [lia|]);
          (apply cube_adj; auto using mod6; try lia; unfold adj; rewrite Ev; right; right; right; repeat split; lia).
      * exists 0, (if vi =? x then 1 else 0). destruct (Z.eqb_spec vi x); (split; [lia|]); (split; [lia|]);
          (apply cube_adj; auto using mod6; try lia; unfold adj; rewrite Ev; right; right; left; repeat split; lia).
      * exists 1, (if vi =? x then 1 else 0). destruct (Z.eqb_spec vi x); (split; [lia|]); (split; [lia|]);
          (apply cube_adj; auto using mod6; try lia; unfold adj; rewrite Ev; right; right; right; repeat split; lia).
      * exists (if vi =? x then 0 else 1), 0. destruct (Z.eqb_spec vi x); (split; [lia|]); (split; [lia|]);
          (apply cube_adj; auto using mod6; try lia; unfold adj; rewrite Ev; right; right; left; repeat split; lia).
Qed.
End Q.

(** Edges are pairs of corners at distance 2s. *)
Definition dist (P Q : Z * Z * Z) : Z :=
  let '(a, b, c) := P in let '(a', b', c') := Q in Z.abs (a - a') + Z.abs (b - b') + Z.abs (c - c').
Lemma dist_cube f a b a' b' : dist (cube_point f a b) (cube_point f a' b') = 2 * Z.abs (a - a') + 2 * Z.abs (b - b').
Proof. unfold cube_point. repeat destruct (_ =? _); cbn [dist]; lia. Qed.

Lemma edge_metric q P Q : 0 < sq_side q ->
  edge_of q P Q <-> corner_of q P /\ corner_of q Q /\ dist P Q = 2 * sq_side q.
Proof.
  intros Hs. unfold edge_of, corner_of. split.
  - intros H. repeat destruct H as [H|H]; apply pair_equal_spec in H; destruct H as [-> ->]; rewrite dist_cube;
    (split; [eexists _, _; split; [|split; [|reflexivity]]; auto|]);
    (split; [eexists _, _; split; [|split; [|reflexivity]]; auto|]); lia.
  - intros ((a & b & Ha & Hb & ->) & (a' & b' & Ha' & Hb' & ->) & D). rewrite dist_cube in D.
    destruct Ha as [-> | ->], Hb as [-> | ->], Ha' as [-> | ->], Hb' as [-> | ->]; try (exfalso; lia); tauto.
Qed.
Lemma cube_vertex_iff f i j : 0 <= f < 6 -> 0 <= i <= NN -> 0 <= j <= NN ->
  cube_vertex (cube_point f i j) <-> (i = 0 \/ i = NN) /\ (j = 0 \/ j = NN).
Proof.
  intros Hf Hi Hj. unfold cube_vertex, cube_point. change (2 ^ 30) with NN.
  destruct (face_cases f Hf) as [->|[->|[->|[->|[->| ->]]]]]; cbn [Z.eqb Pos.eqb]; lia.
Qed.
