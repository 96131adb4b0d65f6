(** Sharing an edge, sharing a corner and touching, for squares of cells. *)
From Coq Require Import Lia ZArith Bool List.
From Verif Require Import Base Spec CellIdModel CellIdArith CellIdProofs HilbertModel HilbertSpec HilbertProofs HilbertGeom
  NeighborSpec NeighborModel NeighborWrap NeighborGeom NeighborTouch NeighborCorner NeighborProofs.
Import ListNotations.
Open Scope Z_scope.

Section Q.
Context (q : square) (Aq : aligned q) (Dn : (sq_side q | NN)).
Notation s := (sq_side q).

Let M := multiples s q (proj1 (proj2 Aq)) Dn (Z.divide_refl s) Aq.
Ltac mult := destruct M as (D1 & D2 & D3 & D4 & D5 & D6 & E1 & E2 & E3 & E4 & E5 & E6);
  pose proof Aq as (Hf & Hs & _ & _ & B1 & B2 & B3 & B4); change (2 ^ 30) with NN in *.

Lemma self_square : sqn q (sq_i q) (sq_j q) = q.
Proof. mult. unfold sqn. rewrite resolve_in by lia. destruct q; reflexivity. Qed.

(* the square at a position in the row or column of q *)
Definition pos4 (x y : Z) : Prop :=
  In (x, y) [(sq_i q, sq_j q - s); (sq_i q + s, sq_j q); (sq_i q, sq_j q + s); (sq_i q - s, sq_j q)].
Lemma edge_squares_in q' : In q' (edge_squares q) <-> exists x y, pos4 x y /\ q' = sqn q x y.
Proof.
  unfold edge_squares, pos4. split.
  - cbn [In]. intros [<-|[<-|[<-|[<-|[]]]]]; eexists _, _; (split; [|reflexivity]); cbn [In]; auto.
  - intros (x & y & H & ->). cbn [In] in H.
    destruct H as [H|[H|[H|[H|[]]]]]; apply pair_equal_spec in H; destruct H as [<- <-]; cbn [In]; auto.
Qed.
Lemma pos4_ok x y : pos4 x y -> ext s x /\ ext s y /\ (inr s x \/ inr s y).
Proof.
  mult. unfold pos4, inr. cbn [In].
  intros [H|[H|[H|[H|[]]]]]; apply pair_equal_spec in H; destruct H as [<- <-]; repeat split; auto; lia.
Qed.
Lemma edge_squares_aligned q' : In q' (edge_squares q) -> aligned q' /\ sq_side q' = s.
Proof.
  rewrite edge_squares_in. intros (x & y & H & ->). pose proof (pos4_ok x y H) as (X & Y & _). mult.
  unfold sqn. apply resolve_aligned; auto; try lia;
  unfold pos4 in H; cbn [In] in H; destruct H as [H|[H|[H|[H|[]]]]]; apply pair_equal_spec in H; destruct H as [<- <-]; auto.
Qed.

(* edge k of q is an edge of the k-th square *)
Lemma edge_k_of k : 0 <= k < 4 -> edge_of q (fst (edge_k k q)) (snd (edge_k k q)).
Proof.
  intros Hk. assert (C : k = 0 \/ k = 1 \/ k = 2 \/ k = 3) by lia. unfold edge_of.
  destruct C as [->|[->|[->| ->]]]; unfold edge_k; cbn [Z.eqb Pos.eqb fst snd]; tauto.
Qed.
Lemma edge_k_shared k q' : 0 <= k < 4 -> nth_error (edge_squares q) (Z.to_nat k) = Some q' ->
  edge_of q' (fst (edge_k k q)) (snd (edge_k k q)).
Proof.
  intros Hk N.
  assert (I : In q' (edge_squares q)) by (eapply nth_error_In; eauto).
  destruct (edge_squares_aligned q' I) as [A' S'].
  assert (Hs' : 0 < sq_side q') by apply A'.
  apply edge_metric; auto. rewrite S'. pose proof (edge_k_of k Hk) as EK.
  apply edge_metric in EK; [|apply Aq]. destruct EK as (_ & _ & ED).
  cut (corner_of q' (fst (edge_k k q)) /\ corner_of q' (snd (edge_k k q))); [tauto|]. clear ED.
  mult. assert (C : k = 0 \/ k = 1 \/ k = 2 \/ k = 3) by lia.
  destruct C as [->|[->|[->| ->]]]; cbn in N; injection N as <-; unfold edge_k; cbn [Z.eqb Pos.eqb fst snd]; rewrite ?Z.mul_0_l, ?Z.mul_1_l, ?Z.add_0_r;
    (split; (apply (corner_class q Aq); [exact A'|exact S'|lia|lia|]);
     eexists _, _; (split; [|split; [|split; [|reflexivity]]]); auto; unfold around, inr; lia).
Qed.

Lemma share_edge_class q' : aligned q' -> sq_side q' = s -> q' <> q ->
  share_edge q q' <-> In q' (edge_squares q).
Proof.
  intros A' S' NE. split.
  - intros (P & Q & EP & EQ). assert (Hs' : 0 < sq_side q') by apply A'.
    apply (edge_metric q' P Q Hs') in EQ. destruct EQ as (CP & CQ & _). rewrite edge_squares_in.
    mult.
    cut (exists x y, q' = resolve (sq_face q) x y s /\ (x = sq_i q /\ y = sq_j q \/ pos4 x y)).
    { intros (x & y & E & [[-> ->]|H]); [|exists x, y; split; auto].
      exfalso. apply NE. rewrite E. apply self_square. }
    assert (K : forall vi vj vi' vj',
      corner_of q' (cube_point (sq_face q) vi vj) -> corner_of q' (cube_point (sq_face q) vi' vj') ->
      0 <= vi <= NN -> 0 <= vj <= NN -> 0 <= vi' <= NN -> 0 <= vj' <= NN ->
      exists x y, q' = resolve (sq_face q) x y s /\ (x = vi - s \/ x = vi) /\ (x = vi' - s \/ x = vi') /\
        (y = vj - s \/ y = vj) /\ (y = vj' - s \/ y = vj')).
    { intros vi vj vi' vj' C1 C2 R1 R2 R3 R4.
      apply (corner_class q Aq) in C1; auto. apply (corner_class q Aq) in C2; auto.
      destruct C1 as (x & y & (X & Y & O) & Ex & Ey & E). destruct C2 as (x' & y' & (X' & Y' & O') & Ex' & Ey' & E').
      rewrite E in E'. apply resolve_inj in E'; auto; [|lia]. destruct E' as [<- <-]. exists x, y. auto. }
    unfold pos4. cbn [In].
    repeat destruct EP as [EP|EP]; apply pair_equal_spec in EP; destruct EP as [-> ->];
      rewrite ?Z.mul_0_l, ?Z.mul_1_l, ?Z.add_0_r in *;
      (destruct (K _ _ _ _ CP CQ ltac:(lia) ltac:(lia) ltac:(lia) ltac:(lia)) as (x & y & E & R); exists x, y;
       split; [exact E|]; rewrite !pair_equal_spec; lia).
  - intros I. apply In_nth_error in I. destruct I as [n N].
    assert (n < 4)%nat. { assert (nth_error (edge_squares q) n <> None) as L by congruence. apply nth_error_Some in L. exact L. }
    exists (fst (edge_k (Z.of_nat n) q)), (snd (edge_k (Z.of_nat n) q)).
    split; [apply edge_k_of; lia|]. apply edge_k_shared; [lia|]. rewrite Nat2Z.id. exact N.
Qed.
Lemma edge_squares_NoDup : NoDup (edge_squares q) /\ ~ In q (edge_squares q).
Proof.
  mult.
  assert (K : forall x y x' y', pos4 x y -> pos4 x' y' -> sqn q x y = sqn q x' y' -> x = x' /\ y = y').
  { intros x y x' y' H H' E. destruct (pos4_ok x y H) as (X & Y & O). destruct (pos4_ok x' y' H') as (X' & Y' & O').
    apply (resolve_inj (sq_face q) x y x' y' s); auto. lia. }
  split.
  - unfold edge_squares. repeat constructor; cbn [In]; intros H;
    repeat match goal with H : _ \/ _ |- _ => destruct H as [H|H] end; try tauto;
    (apply K in H; [|unfold pos4; cbn [In]; tauto|unfold pos4; cbn [In]; tauto]); lia.
  - rewrite edge_squares_in. intros (x & y & P & E). rewrite <- self_square in E at 1.
    destruct (pos4_ok x y P) as (X & Y & O).
    apply resolve_inj in E; auto; try lia; [|unfold inr; lia].
    unfold pos4 in P. cbn [In] in P. rewrite !pair_equal_spec in P. lia.
Qed.
End Q.
