(** A tactic for propositional combinations of comparisons of reals.  It splits the
    disjunctions one by one, so that [lra] only sees conjunctions: the certificates
    stay small. *)
From Coq Require Import Reals Lra Classical.
Open Scope R_scope.

Ltac ord_norm :=
  repeat match goal with
  | H : _ /\ _ |- _ => destruct H
  | H : _ <-> _ |- _ => destruct H
  | H : ~ (_ /\ _) |- _ => apply not_and_or in H
  | H : ~ (_ \/ _) |- _ => apply not_or_and in H
  | H : ~ (?P -> ?Q) |- _ => apply (imply_to_and P Q) in H
  | H : ~ ~ _ |- _ => apply NNPP in H
  | H : ~ (_ <= _) |- _ => apply Rnot_le_lt in H
  | H : ~ (_ < _) |- _ => apply Rnot_lt_le in H
  | H : ~ (@eq R _ _) |- _ => apply Rdichotomy in H
  | H : ?P -> ?Q |- _ => match type of P with Prop => match type of Q with Prop => apply (imply_to_or P Q) in H end end
  end.
Ltac ord_leaf := repeat match goal with H : _ \/ _ |- _ => clear H end; lra.
Ltac ord_go :=
  ord_norm;
  first
  [ solve [ord_leaf]
  | match goal with H : _ \/ _ |- _ => destruct H as [H|H]; [solve [ord_norm; ord_leaf]|] end; ord_go
  | match goal with H : _ \/ _ |- _ => destruct H as [H|H]; [|solve [ord_norm; ord_leaf]] end; ord_go
  | match goal with H : _ \/ _ |- _ => destruct H as [H|H] end; ord_go ].
Ltac ord := match goal with |- False => idtac | |- _ => apply NNPP; intro end; ord_go.
