(** Specification vocabulary, independent of the model.

    The sphere is divided into 6 faces, each face recursively into 4 children,
    30 times.  All cells of one level are numbered along the space-filling curve,
    so a cell is a level and an index. *)
From Verif Require Import Base.
From Coq Require Export Sorted.

Record cell := Cell { lv : Z; ix : Z }.

(* Levels go from 0 (faces) to 30 (leaves); there are 6*4^L cells at level L. *)
Definition wf (c : cell) : Prop :=
  0 <= lv c <= 30 /\ 0 <= ix c < 6 * 4 ^ lv c.

(* The face of a cell is its index divided by the number of cells per face. *)
Definition face_of (c : cell) : Z := ix c / 4 ^ lv c.

(* The k-th child, k = 0..3. *)
Definition child (c : cell) (k : Z) : cell := Cell (lv c + 1) (4 * ix c + k).

(* The ancestor of c at level L <= lv c (c itself if L = lv c). *)
Definition anc (L : Z) (c : cell) : cell := Cell L (ix c / 4 ^ (lv c - L)).

Definition ancestor_or_self (a c : cell) : Prop :=
  lv a <= lv c /\ anc (lv a) c = a.

(* The set of leaves (level-30 indices) of a cell. *)
Definition leaves (c : cell) (m : Z) : Prop :=
  ix c * 4 ^ (30 - lv c) <= m < (ix c + 1) * 4 ^ (30 - lv c).

(* The leaf with index m. *)
Definition leaf (m : Z) : cell := Cell 30 m.

(* The 64-bit id documented at cellid.rs:28-43: 3 bits of face, two bits per
   level, a 1 bit, zeros. *)
Definition code (c : cell) : Z := (2 * ix c + 1) * 4 ^ (30 - lv c).

Definition valid_id (x : Z) : Prop := exists c, wf c /\ x = code c.

(* Set of leaves covered by a list of ids. *)
Definition covered (l : list Z) (m : Z) : Prop :=
  exists c, wf c /\ In (code c) l /\ leaves c m.

(** The documented layout, literally: 3 face bits, 2 bits per level (most
    significant level first), a 1 bit, and zeros up to 64 bits. *)
Definition bit (x i : Z) : bool := Z.odd (x / 2 ^ i).
Fixpoint bits_val (acc : Z) (l : list bool) : Z :=
  match l with
  | [] => acc
  | b :: l' => bits_val (2 * acc + (if b then 1 else 0)) l'
  end.
Definition doc_bits (f : Z) (ds : list Z) : list bool :=
  [bit f 2; bit f 1; bit f 0]
  ++ flat_map (fun d => [bit d 1; bit d 0]) ds
  ++ [true] ++ repeat false (60 - 2 * length ds).
Definition documented_id (x : Z) : Prop :=
  exists f ds, 0 <= f < 6 /\ Forall (fun d => 0 <= d < 4) ds /\
    (length ds <= 30)%nat /\ x = bits_val 0 (doc_bits f ds).

(** ** Unions

    A list of valid ids is [map code cs] for a list [cs] of well-formed cells. *)

(* every leaf of a precedes every leaf of b *)
Definition before (a b : cell) : Prop :=
  forall m m', leaves a m -> leaves b m' -> m < m'.

(* the set of leaves of a list of cells *)
Definition cov (cs : list cell) (m : Z) : Prop :=
  exists c, In c cs /\ leaves c m.

(* sorted along the curve and pairwise disjoint *)
Definition valid_cells (cs : list cell) : Prop :=
  Forall wf cs /\ StronglySorted before cs.

(* ... and no four cells are the children of one cell *)
Definition normalized_cells (cs : list cell) : Prop :=
  valid_cells cs /\
  ~ exists p, wf p /\ forall k, 0 <= k < 4 -> In (child p k) cs.

(* a level allowed by min_level and level_mod *)
Definition permitted (min_level level_mod l : Z) : Prop :=
  min_level <= l /\ ((l - min_level) mod level_mod = 0 \/ l = 30).
