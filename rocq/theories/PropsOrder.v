(** C53 and C63: the orders of edges, points, vectors and edge ids. *)
From Coq Require Import ZArith Lia Bool.
From Verif Require Import Base F64 F64Facts R1Model VectorModel ShapeModel.
Open Scope Z_scope.

(** ** Specification *)

(* [cmp] is a total order on the values satisfying [ok], and agrees with [eq] *)
Definition total_order {A} (ok : A -> Prop) (eq : A -> A -> bool) (cmp : A -> A -> comparison) : Prop :=
  (forall a, ok a -> cmp a a = Eq) /\
  (forall a b, ok a -> ok b -> (cmp a b = Eq <-> eq a b = true)) /\
  (forall a b, ok a -> ok b -> cmp b a = CompOpp (cmp a b)) /\
  (forall a b c, ok a -> ok b -> ok c -> cmp a b = Lt -> cmp b c = Lt -> cmp a c = Lt) /\
  (forall a b c, ok a -> ok b -> ok c -> cmp a b = Eq -> cmp a c = cmp b c).

Definition not_nan2 (p : pt2) : Prop := is_nan (px p) = false /\ is_nan (py p) = false.
Definition not_nan3 (v : vec) : Prop := is_nan (vx v) = false /\ is_nan (vy v) = false /\ is_nan (vz v) = false.
Definition not_nan_edge (e : edge) : Prop := not_nan2 (v0 e) /\ not_nan2 (v1 e).

Ltac ranks :=
  unfold fgt; repeat match goal with
  | |- context [flt ?x ?y] => rewrite (flt_rank x y) by (unfold num; auto)
  | |- context [feq ?x ?y] => rewrite (feq_rank x y) by (unfold num; auto)
  end.

(* three integers compared lexicographically *)
Definition lex3 (a b : Z * Z * Z) : comparison :=
  match a, b with (x, y, z), (x', y', z') =>
    match x ?= x' with Eq => match y ?= y' with Eq => z ?= z' | c => c end | c => c end end.
Lemma lex3_eq a b : lex3 a b = Eq <-> a = b.
Proof.
  destruct a as [[x y] z], b as [[x' y'] z']. cbn [lex3].
  destruct (Z.compare_spec x x'); [|split; [discriminate|intros E; injection E; lia]..].
  destruct (Z.compare_spec y y'); [|split; [discriminate|intros E; injection E; lia]..].
  destruct (Z.compare_spec z z'); [|split; [discriminate|intros E; injection E; lia]..]. subst. tauto.
Qed.
Lemma lex3_lt x y z x' y' z' : lex3 (x, y, z) (x', y', z') = Lt <-> x < x' \/ x = x' /\ (y < y' \/ y = y' /\ z < z').
Proof.
  cbn [lex3].
  destruct (Z.compare_spec x x'); [|split; (discriminate || lia || tauto)..].
  destruct (Z.compare_spec y y'); [|split; (discriminate || lia || tauto)..].
  destruct (Z.compare_spec z z'); split; (discriminate || lia || tauto).
Qed.
Lemma lex3_opp a b : lex3 b a = CompOpp (lex3 a b).
Proof.
  destruct a as [[x y] z], b as [[x' y'] z']. cbn [lex3].
  rewrite (Z.compare_antisym x), (Z.compare_antisym y), (Z.compare_antisym z).
  destruct (x ?= x'), (y ?= y'), (z ?= z'); reflexivity.
Qed.
Lemma lex3_order {A} (ok : A -> Prop) eq cmp (key : A -> Z * Z * Z) :
  (forall a b, ok a -> ok b -> cmp a b = lex3 (key a) (key b)) ->
  (forall a b, ok a -> ok b -> (eq a b = true <-> key a = key b)) ->
  total_order ok eq cmp.
Proof.
  intros C E. split; [|split; [|split; [|split]]].
  - intros a Ha. rewrite C by auto. apply lex3_eq. reflexivity.
  - intros a b Ha Hb. rewrite C, E by auto. apply lex3_eq.
  - intros a b Ha Hb. rewrite !C by auto. apply lex3_opp.
  - intros a b c Ha Hb Hc. rewrite !C by auto.
    destruct (key a) as [[x y] z], (key b) as [[x' y'] z'], (key c) as [[x'' y''] z''].
    rewrite !lex3_lt. lia.
  - intros a b c Ha Hb Hc. rewrite !C by auto. rewrite lex3_eq. intros ->. reflexivity.
Qed.

Lemma ltb_lex a b c : (if a <? b then Lt else if b <? a then Gt else c) = match a ?= b with Eq => c | d => d end.
Proof. unfold Z.ltb. rewrite (Z.compare_antisym a b). destruct (a ?= b); reflexivity. Qed.
Lemma match_eq (c : comparison) : match c with Eq => Eq | Lt => Lt | Gt => Gt end = c.
Proof. destruct c; reflexivity. Qed.

Definition key2 (p : pt2) := (rank (px p), rank (py p), 0).
Lemma pt2_cmp_key p q : not_nan2 p -> not_nan2 q -> pt2_cmp p q = lex3 (key2 p) (key2 q).
Proof. intros [A B] [C D]. unfold pt2_cmp. ranks. rewrite !ltb_lex. reflexivity. Qed.
Definition key3 (v : vec) := (rank (vx v), rank (vy v), rank (vz v)).
Lemma vcmp_key v w : not_nan3 v -> not_nan3 w -> vcmp v w = lex3 (key3 v) (key3 w).
Proof.
  intros (A & B & C) (D & E & F). unfold vcmp. ranks. rewrite !ltb_lex, match_eq. reflexivity.
Qed.

(** ** r2::Point is ordered lexicographically *)
Theorem C63_r2_point_order :
  total_order not_nan2 (fun p q => feq (px p) (px q) && feq (py p) (py q)) pt2_cmp /\
  (forall p q, not_nan2 p -> not_nan2 q ->
    (pt2_cmp p q = Lt <-> flt (px p) (px q) = true \/ feq (px p) (px q) = true /\ flt (py p) (py q) = true)).
Proof.
  split.
  - apply (lex3_order _ _ _ key2); [apply pt2_cmp_key|]. intros p q [A B] [C D]. ranks. unfold key2.
    rewrite andb_true_iff, !Z.eqb_eq, !pair_equal_spec. tauto.
  - intros p q Hp Hq. rewrite pt2_cmp_key by auto. destruct Hp, Hq. ranks. unfold key2.
    rewrite lex3_lt, !Z.ltb_lt, Z.eqb_eq. lia.
Qed.
Print Assumptions C63_r2_point_order.
Example C63_r2_point_order_ex :
  not_nan2 (P2 f1 f2) /\ not_nan2 (P2 f1 inf) /\ pt2_cmp (P2 f1 f2) (P2 f1 inf) = Lt /\
  pt2_cmp (P2 f0 f2) (P2 (fneg f0) f2) = Eq.
Proof. repeat split. Qed.

(** ** r3::Vector (and so s2::Point) is ordered lexicographically, consistently with == *)
Theorem C63_vector_order :
  total_order not_nan3 veq vcmp /\
  (forall v w, not_nan3 v -> not_nan3 w ->
    (vcmp v w = Lt <-> flt (vx v) (vx w) = true \/ feq (vx v) (vx w) = true /\
      (flt (vy v) (vy w) = true \/ feq (vy v) (vy w) = true /\ flt (vz v) (vz w) = true))).
Proof.
  split.
  - apply (lex3_order _ _ _ key3); [apply vcmp_key|]. intros v w (A & B & C) (D & E & F). unfold veq. ranks. unfold key3.
    rewrite !andb_true_iff, !Z.eqb_eq, !pair_equal_spec. tauto.
  - intros v w Hv Hw. rewrite vcmp_key by auto. destruct Hv as (A & B & C), Hw as (D & E & F). ranks. unfold key3.
    rewrite lex3_lt, !Z.ltb_lt, !Z.eqb_eq. lia.
Qed.
Print Assumptions C63_vector_order.
Example C63_vector_order_ex :
  not_nan3 (Vec f1 f0 (fneg f1)) /\ not_nan3 (Vec f1 f0 f1) /\ vcmp (Vec f1 f0 (fneg f1)) (Vec f1 f0 f1) = Lt.
Proof. repeat split. Qed.
(* the hypothesis is needed: a NaN vector compares Equal to everything but == nothing *)
Example C63_vector_nan : vcmp (Vec B754_nan B754_nan B754_nan) (Vec f1 f0 f0) = Eq /\
  veq (Vec B754_nan B754_nan B754_nan) (Vec f1 f0 f0) = false.
Proof. split; reflexivity. Qed.

(** ** ShapeEdgeID *)
Theorem C63_shape_edge_id_order :
  total_order (fun _ => True) sei_eq sei_cmp /\
  (forall a b, sei_cmp a b = Lt <-> shape_id a < shape_id b \/ shape_id a = shape_id b /\ edge_id a < edge_id b).
Proof.
  assert (K : forall a b, sei_cmp a b = lex3 (shape_id a, edge_id a, 0) (shape_id b, edge_id b, 0)).
  { intros. unfold sei_cmp, lex3. destruct (shape_id a ?= shape_id b); try reflexivity.
    destruct (edge_id a ?= edge_id b); reflexivity. }
  split.
  - apply (lex3_order _ _ _ (fun a => (shape_id a, edge_id a, 0))); [auto|]. intros a b _ _. unfold sei_eq.
    rewrite andb_true_iff, !Z.eqb_eq, !pair_equal_spec. tauto.
  - intros a b. rewrite K, lex3_lt. lia.
Qed.
Print Assumptions C63_shape_edge_id_order.
Example C63_shape_edge_id_order_ex : sei_cmp (ShapeEdgeID 1 7) (ShapeEdgeID 2 (-3)) = Lt.
Proof. reflexivity. Qed.

(** ** Edge: false, the second comparison reads self.v0 instead of self.v1 *)
Theorem C53_edge_order_refuted :
  ~ total_order not_nan_edge (fun e o => match pt2_cmp (v0 e) (v0 o), pt2_cmp (v1 e) (v1 o) with Eq, Eq => true | _, _ => false end) edge_cmp /\
  (exists e, not_nan_edge e /\ edge_cmp e e <> Eq /\ edge_eq e e = false) /\
  (exists e o, not_nan_edge e /\ not_nan_edge o /\ edge_cmp e o = Lt /\ edge_cmp o e = Lt).
Proof.
  split; [|split].
  - intros (R & _). specialize (R (Edge (P2 f0 f0) (P2 f1 f0))). discriminate R. repeat split.
  - exists (Edge (P2 f0 f0) (P2 f1 f0)). repeat split. discriminate.
  - exists (Edge (P2 f0 f0) (P2 f1 f0)), (Edge (P2 f0 f0) (P2 f1 f1)). repeat split.
Qed.
Print Assumptions C53_edge_order_refuted.

(* what does hold: edges with different first vertices are ordered by these.
   Missing: edges that share their first vertex. *)
Theorem C53_edge_order_partial e o : not_nan_edge e -> not_nan_edge o -> pt2_cmp (v0 e) (v0 o) <> Eq ->
  edge_cmp e o = pt2_cmp (v0 e) (v0 o) /\ edge_cmp o e = CompOpp (edge_cmp e o) /\ edge_eq e o = false.
Proof.
  intros [A _] [B _] N. unfold edge_eq, edge_cmp.
  assert (O : pt2_cmp (v0 o) (v0 e) = CompOpp (pt2_cmp (v0 e) (v0 o))) by (rewrite !pt2_cmp_key by auto; apply lex3_opp).
  rewrite O. destruct (pt2_cmp (v0 e) (v0 o)); auto. congruence.
Qed.
Print Assumptions C53_edge_order_partial.
Example C53_edge_order_partial_ex :
  edge_cmp (Edge (P2 f0 f0) (P2 f1 f0)) (Edge (P2 f1 f0) (P2 f1 f1)) = Lt.
Proof. reflexivity. Qed.
