(** The turns of face_segments decided by nine comparisons: the signs of the coordinates of the normal, and each
    magnitude against the sum of the other two. *)
From Coq Require Import ZArith Bool List.
Import ListNotations.
Open Scope Z_scope.

Record marks := Marks { sx : comparison; sy : comparison; sz : comparison; cx : comparison; cy : comparison; cz : comparison }.
Definition is_lt c := match c with Lt => true | _ => false end.
Definition is_gt c := match c with Gt => true | _ => false end.
Definition is_eq c := match c with Eq => true | _ => false end.
Definition opposed (s t : comparison) : bool := match s, t with Lt, Lt | Gt, Gt => false | _, _ => true end.
(* the sum of three numbers is zero *)
Definition zero3 (m : marks) : bool :=
  (is_eq (cx m) && opposed (sx m) (sy m) && opposed (sx m) (sz m)) || (is_eq (cy m) && opposed (sy m) (sx m) && opposed (sy m) (sz m)) || (is_eq (cz m) && opposed (sz m) (sx m) && opposed (sz m) (sy m)).
(* the marks in the frame of a face *)
Definition in_marks (f : Z) (m : marks) : marks :=
  match f with
  | 0 => Marks (sy m) (sz m) (sx m) (cy m) (cz m) (cx m)
  | 1 => Marks (CompOpp (sx m)) (sz m) (sy m) (cx m) (cz m) (cy m)
  | 2 => Marks (CompOpp (sx m)) (CompOpp (sy m)) (sz m) (cx m) (cy m) (cz m)
  | 3 => Marks (CompOpp (sz m)) (CompOpp (sy m)) (CompOpp (sx m)) (cz m) (cy m) (cx m)
  | 4 => Marks (CompOpp (sz m)) (sx m) (CompOpp (sy m)) (cz m) (cx m) (cy m)
  | _ => Marks (sy m) (sx m) (CompOpp (sz m)) (cy m) (cx m) (cz m)
  end.
(* true: the axis V *)
Definition axis_v (m : marks) : bool :=
  if negb (is_lt (cx m)) || negb (is_lt (cy m)) then negb (is_lt (cx m))
  else negb (xorb (xorb (is_lt (sx m)) (is_lt (sy m))) (is_lt (sz m))).
Definition flipx (b : bool) (m : marks) : marks := if b then m else Marks (CompOpp (sx m)) (sy m) (sz m) (cx m) (cy m) (cz m).
Definition flipy (b : bool) (m : marks) : marks := if b then m else Marks (sx m) (CompOpp (sy m)) (sz m) (cx m) (cy m) (cz m).
Definition FACES : list (list Z) := [[4; 1; 5; 2]; [0; 3; 5; 2]; [0; 3; 1; 4]; [2; 5; 1; 4]; [2; 5; 3; 0]; [4; 1; 3; 0]].
Definition across (f ax : Z) (up : bool) : Z := nth (Z.to_nat (2 * ax + if up then 1 else 0)) (nth (Z.to_nat f) FACES []) 0.
Definition turn_of (g : marks) (target f : Z) : Z :=
  let m := in_marks f g in
  if axis_v m then
    let up := is_lt (sx m) in
    if (zero3 (flipx true (flipy up m)) && (across f 0 true =? target)) || (zero3 (flipx false (flipy up m)) && (across f 0 false =? target)) then target
    else across f 1 up
  else
    let up := is_gt (sy m) in
    if (zero3 (flipy true (flipx up m)) && (across f 1 true =? target)) || (zero3 (flipy false (flipx up m)) && (across f 1 false =? target)) then target
    else across f 0 up.
Fixpoint reaches (k : nat) (g : marks) (target f : Z) : bool :=
  (f =? target) || match k with O => false | S k => reaches k g target (turn_of g target f) end.
Definition met (g : marks) (f : Z) : bool := negb (is_gt (cz (in_marks f g))).

Definition cmps := [Lt; Eq; Gt].
Definition imp (a b : bool) : bool := negb a || b.
Definition ceq (a b : comparison) : bool := match a, b with Lt, Lt | Eq, Eq | Gt, Gt => true | _, _ => false end.
(* what holds for the marks of a vector that is not zero *)
Definition fits1 (s c c' c'' s' s'' : comparison) : bool :=
  imp (is_gt c) (is_lt c' && is_lt c'') && imp (is_eq s) (is_lt c && ceq c' (CompOpp c'')) && imp (negb (is_lt c)) (negb (is_eq s)) &&
  imp (is_eq c && is_eq c') (is_eq s'') && imp (is_eq c && is_eq c'') (is_eq s').
Definition consistent (g : marks) : bool :=
  fits1 (sx g) (cx g) (cy g) (cz g) (sy g) (sz g) && fits1 (sy g) (cy g) (cx g) (cz g) (sx g) (sz g) && fits1 (sz g) (cz g) (cx g) (cy g) (sx g) (sy g).
Definition all_marks : list marks :=
  flat_map (fun a => flat_map (fun b => flat_map (fun c => flat_map (fun d => flat_map (fun e => map (fun f => Marks a b c d e f) cmps) cmps) cmps) cmps) cmps) cmps.
Definition all_faces : list Z := [0; 1; 2; 3; 4; 5].
Definition good5 (g : marks) (f t : Z) : bool := imp (consistent g && met g f && met g t) (reaches 5 g t f).
Lemma in_cmps c : In c cmps.
Proof. destruct c; cbn; auto. Qed.
Lemma in_all g : In g all_marks.
Proof.
  destruct g as [a b c d e h]. unfold all_marks. apply in_flat_map. exists a. split; [apply in_cmps|]. apply in_flat_map. exists b. split; [apply in_cmps|]. apply in_flat_map. exists c. split; [apply in_cmps|]. apply in_flat_map. exists d. split; [apply in_cmps|]. apply in_flat_map. exists e. split; [apply in_cmps|]. apply in_map_iff. exists h. split; [reflexivity|apply in_cmps].
Qed.
Lemma all_good : forallb (fun g => forallb (fun f => forallb (good5 g f) all_faces) all_faces) all_marks = true.
Proof. vm_compute. reflexivity. Qed.
Lemma reaches_5 g f t : consistent g = true -> In f all_faces -> In t all_faces -> met g f = true -> met g t = true -> reaches 5 g t f = true.
Proof.
  intros C F T MF MT. pose proof (proj1 (forallb_forall _ _) all_good g (in_all g)) as H1. cbv beta in H1. pose proof (proj1 (forallb_forall _ _) H1 f F) as H2. cbv beta in H2. pose proof (proj1 (forallb_forall _ _) H2 t T) as H3. unfold good5 in H3. rewrite C, MF, MT in H3. destruct (reaches 5 g t f); [reflexivity|discriminate H3].
Qed.
