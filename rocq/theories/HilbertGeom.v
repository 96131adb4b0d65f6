(** Cells as squares, adjacency along the curve, centres. *)
From Verif Require Import Base Spec CellIdModel CellIdArith CellIdProofs HilbertModel HilbertProofs HilbertSpec.

(* coordinates and orientation of a cell on its face, at its own level *)
Definition cellW (c : cell) : Z * Z * Z :=
  W (Z.to_nat (lv c)) (face_of c mod 2) (ix c mod 4 ^ lv c).
Definition sq (c : cell) : square :=
  let '(a, b, _) := cellW c in
  Square (face_of c) (a * side (lv c)) (b * side (lv c)) (side (lv c)).
Definition ori (c : cell) : Z := snd (cellW c).

Lemma face_of_range c : wf c -> 0 <= face_of c < 6.
Proof.
  intros [HL Hx]. unfold face_of. assert (0 < 4 ^ lv c) by (apply Z.pow_pos_nonneg; lia).
  split; [apply Z.div_pos; lia | apply Z.div_lt_upper_bound; lia].
Qed.

Lemma face_of_leaf c m : wf c -> leaves c m -> face_of (leaf m) = face_of c.
Proof.
  intros Hc Hm. pose proof (proj1 (leaves_div c m Hc) Hm) as E. destruct Hc as [HL Hx].
  unfold face_of, leaf. cbn [lv ix]. rewrite <- E.
  rewrite Z.div_div by (try apply Z.pow_nonzero; try apply Z.pow_pos_nonneg; lia).
  f_equal. rewrite <- Z.pow_add_r by lia. f_equal. lia.
Qed.

Lemma mod2_range f : 0 <= f mod 2 < 2.
Proof. apply Z.mod_pos_bound. lia. Qed.
Lemma mod2_r4 f : r4 (f mod 2).
Proof. pose proof (mod2_range f). unfold r4. lia. Qed.

Lemma code_face c : wf c -> face (code c) = face_of c.
Proof.
  intros Hc. pose proof (code_bounds c Hc) as B. pose proof (face_of_range c Hc) as F.
  destruct Hc as [HL Hx]. unfold face. rewrite Z.shiftr_div_pow2 by (unfold POS_BITS, MAX_LEVEL; lia).
  change (2 ^ POS_BITS) with (2 * 4 ^ 30).
  assert (E : code c / (2 * 4 ^ 30) = face_of c).
  { symmetry. unfold face_of, code.
    set (P := 4 ^ (30 - lv c)). set (Q := 4 ^ lv c).
    assert (HPQ : P * Q = 4 ^ 30) by (unfold P, Q; rewrite <- Z.pow_add_r by lia; f_equal; lia).
    assert (HP : 0 < P) by (apply Z.pow_pos_nonneg; lia).
    assert (HQ : 0 < Q) by (apply Z.pow_pos_nonneg; lia).
    pose proof (Z.div_mod (ix c) Q ltac:(lia)) as E. pose proof (Z.mod_pos_bound (ix c) Q HQ) as M.
    set (d := ix c / Q) in *. set (r := ix c mod Q) in *. clearbody d r P Q.
    apply Z.div_unique with ((2 * r + 1) * P).
    - left. rewrite <- HPQ. split; [apply Z.mul_nonneg_nonneg; lia |].
      replace (2 * (P * Q)) with (2 * Q * P) by ring. apply Z.mul_lt_mono_pos_r; lia.
    - rewrite <- HPQ, E. ring. }
  rewrite E. apply Z.mod_small. lia.
Qed.

Lemma leaf_wf m : 0 <= m < 6 * 4 ^ 30 <-> wf (leaf m).
Proof. unfold wf, leaf. cbn [lv ix]. intuition lia. Qed.

Lemma cellW_leaf m : cellW (leaf m) = W 30 (face_of (leaf m) mod 2) (m mod 4 ^ 30).
Proof. reflexivity. Qed.

Lemma face_ij_code c : wf c ->
  exists l, lsb (code c) = Some l /\
  face_ij_orientation (code c) =
    let '(i, j, o) := W 30 (face_of c mod 2) ((code c / 2) mod 4 ^ 30) in
    Some (face_of c, i, j, if negb (Z.land l 0x1111111111111110 =? 0) then Z.lxor o SWAP_MASK else o).
Proof.
  intros Hc. pose proof (code_bounds c Hc). exists (4 ^ (30 - lv c)). split; [apply lsb_code, Hc |].
  unfold face_ij_orientation. rewrite code_face by exact Hc. rewrite land_swap.
  rewrite face_ij_all by (try apply mod2_range; lia).
  destruct (W 30 _ _) as [[i j] o]. rewrite lsb_code by exact Hc. reflexivity.
Qed.

(* face and position of a leaf *)
Lemma leaf_split m : m = face_of (leaf m) * 4 ^ 30 + m mod 4 ^ 30.
Proof. unfold face_of, leaf. cbn [lv ix]. pose proof (Z.div_mod m (4 ^ 30) ltac:(lia)). lia. Qed.

Lemma from_face_ij_leaf f i j : 0 <= f < 6 -> 0 <= i < 2 ^ 30 -> 0 <= j < 2 ^ 30 ->
  exists m, wf (leaf m) /\ from_face_ij f i j = Some (code (leaf m)) /\
    face_of (leaf m) = f /\ exists o, cellW (leaf m) = (i, j, o).
Proof.
  intros Hf Hi Hj. rewrite from_face_ij_ok by lia.
  pose proof (V_range 30 (f mod 2) i j (mod2_r4 f)) as R.
  pose proof (WV 30 (f mod 2) i j (mod2_r4 f) Hi Hj) as E.
  destruct (V 30 (f mod 2) i j) as [p o]. destruct R as [Rp _]. cbn [fst].
  change (4 ^ Z.of_nat 30) with (4 ^ 30) in Rp.
  exists (f * 4 ^ 30 + p).
  destruct (div_mod_unique2 (f * 4 ^ 30 + p) f p (4 ^ 30) Rp ltac:(ring)) as [D M].
  split; [apply leaf_wf; change (4 ^ 30) with 1152921504606846976 in *; lia |].
  split; [rewrite code_leaf; reflexivity |].
  split; [exact D |]. exists o. rewrite cellW_leaf, M.
  replace (face_of (leaf (f * 4 ^ 30 + p))) with f by (symmetry; exact D). exact E.
Qed.

Lemma leaf_from_face_ij m : wf (leaf m) ->
  let '(i, j, o) := cellW (leaf m) in
  0 <= i < 2 ^ 30 /\ 0 <= j < 2 ^ 30 /\ r4 o /\
  from_face_ij (face_of (leaf m)) i j = Some (code (leaf m)).
Proof.
  intros Hm. rewrite cellW_leaf. pose proof (face_of_range _ Hm) as F.
  set (f := face_of (leaf m)) in *.
  pose proof (W_range 30 (f mod 2) (m mod 4 ^ 30) (mod2_r4 f)) as R.
  pose proof (VW 30 (f mod 2) (m mod 4 ^ 30) (mod2_r4 f) (Z.mod_pos_bound m (4 ^ 30) ltac:(lia))) as E.
  destruct (W 30 (f mod 2) (m mod 4 ^ 30)) as [[i j] o]. destruct R as (Ri & Rj & Ro).
  change (2 ^ Z.of_nat 30) with (2 ^ 30) in *. split; [exact Ri |]. split; [exact Rj |]. split; [exact Ro |].
  rewrite from_face_ij_ok by lia. rewrite E. cbn [fst]. rewrite code_leaf. f_equal. f_equal. f_equal.
  symmetry. apply leaf_split.
Qed.

Lemma face_ij_leaf m : wf (leaf m) ->
  let '(i, j, o) := cellW (leaf m) in
  face_ij_orientation (code (leaf m)) = Some (face_of (leaf m), i, j, o).
Proof.
  intros Hm. destruct (face_ij_code _ Hm) as (l & El & ->).
  rewrite lsb_code in El by exact Hm. injection El as <-. cbn [lv leaf].
  change (negb (Z.land (4 ^ (30 - lv (Cell 30 m))) 1229782938247303440 =? 0)) with false.
  rewrite cellW_leaf. rewrite code_leaf.
  replace ((2 * m + 1) / 2) with m by (apply Z.div_unique with 1; lia).
  destruct (W 30 _ _) as [[i j] o]. reflexivity.
Qed.

(** ** Squares *)

Lemma side_pos c : wf c -> 0 < side (lv c).
Proof. intros [HL _]. apply Z.pow_pos_nonneg; lia. Qed.

Lemma cellW_range c : wf c -> let '(a, b, o) := cellW c in
  0 <= a < 2 ^ lv c /\ 0 <= b < 2 ^ lv c /\ r4 o.
Proof.
  intros [HL _]. unfold cellW. pose proof (W_range (Z.to_nat (lv c)) (face_of c mod 2) (ix c mod 4 ^ lv c) (mod2_r4 _)) as R.
  rewrite Z2Nat.id in R by lia. exact R.
Qed.

Lemma sq_aligned c : wf c -> aligned (sq c) /\ sq_face (sq c) = face_of c /\ sq_side (sq c) = side (lv c).
Proof.
  intros Hc. unfold sq. pose proof (cellW_range c Hc) as R. destruct (cellW c) as [[a b] o].
  destruct R as (Ra & Rb & _). pose proof (side_pos c Hc) as HS.
  assert (E : 2 ^ 30 = 2 ^ lv c * side (lv c)).
  { unfold side. destruct Hc. rewrite <- Z.pow_add_r by lia. f_equal. lia. }
  unfold aligned. cbn [sq_face sq_side sq_i sq_j]. rewrite E. pose proof (face_of_range c Hc).
  set (S := side (lv c)) in *. set (T := 2 ^ lv c) in *.
  assert (B : forall x, 0 <= x < T -> 0 <= x * S /\ x * S + S <= T * S).
  { intros x Hx. split; [apply Z.mul_nonneg_nonneg; lia |].
    replace (x * S + S) with ((x + 1) * S) by ring. apply Z.mul_le_mono_nonneg_r; lia. }
  pose proof (B a Ra). pose proof (B b Rb).
  repeat split; try lia; apply Z.divide_factor_r.
Qed.

(* ancestors: the coordinates of an ancestor are the high bits *)
Lemma cellW_anc c m : wf c -> leaves c m ->
  let '(i, j, o) := cellW (leaf m) in
  let '(a, b, o') := cellW c in
  a = i / side (lv c) /\ b = j / side (lv c).
Proof.
  intros Hc Hm. rewrite cellW_leaf. rewrite (face_of_leaf c m Hc Hm).
  pose proof (proj1 (leaves_div c m Hc) Hm) as E.
  pose proof Hc as [HL Hx]. unfold cellW.
  set (o := face_of c mod 2).
  set (L := Z.to_nat (lv c)). set (r := Z.to_nat (30 - lv c)).
  assert (E30 : 30%nat = (r + L)%nat) by (unfold r, L; lia).
  assert (Er : Z.of_nat r = 30 - lv c) by (unfold r; lia).
  assert (EL : Z.of_nat L = lv c) by (unfold L; lia).
  rewrite E30, W_app, Er.
  assert (P4 : 0 < 4 ^ (30 - lv c)) by (apply Z.pow_pos_nonneg; lia).
  assert (P4' : 0 < 4 ^ lv c) by (apply Z.pow_pos_nonneg; lia).
  replace (m mod 4 ^ 30 / 4 ^ (30 - lv c)) with (ix c mod 4 ^ lv c).
  2:{ replace (4 ^ 30) with (4 ^ (30 - lv c) * 4 ^ lv c) by (rewrite <- Z.pow_add_r by lia; f_equal; lia).
      rewrite mod_mul_div by lia. rewrite E. reflexivity. }
  pose proof (W_range L o (ix c mod 4 ^ lv c) (mod2_r4 _)) as R1.
  destruct (W L o (ix c mod 4 ^ lv c)) as [[a b] o1]. destruct R1 as (_ & _ & Ro1).
  pose proof (W_range r o1 (m mod 4 ^ 30 mod 4 ^ (30 - lv c)) Ro1) as R2.
  destruct (W r o1 _) as [[i' j'] o2]. destruct R2 as (Ri & Rj & _). rewrite Er in *.
  unfold side.
  split; [apply Z.div_unique with i' | apply Z.div_unique with j']; lia.
Qed.

Lemma div_square a s i : 0 < s -> (a = i / s <-> a * s <= i < a * s + s).
Proof.
  intros Hs. split.
  - intros ->. pose proof (Z.div_mod i s ltac:(lia)). pose proof (Z.mod_pos_bound i s Hs).
    rewrite (Z.mul_comm (i / s)). lia.
  - intros H. apply Z.div_unique with (i - a * s); lia.
Qed.

Lemma cell_at c m : wf c -> wf (leaf m) ->
  exists d, wf d /\ lv d = lv c /\ leaves d m.
Proof.
  intros [HL _] [_ Hm]. exists (Cell (lv c) (m / 4 ^ (30 - lv c))).
  cbn [lv ix leaf] in *.
  assert (P4 : 0 < 4 ^ (30 - lv c)) by (apply Z.pow_pos_nonneg; lia).
  assert (W0 : wf (Cell (lv c) (m / 4 ^ (30 - lv c)))).
  { split; cbn [lv ix]; [exact HL |]. split; [apply Z.div_pos; lia |].
    apply Z.div_lt_upper_bound; [lia |].
    replace (4 ^ (30 - lv c) * (6 * 4 ^ lv c)) with (6 * 4 ^ 30); [lia |].
    replace 30 with ((30 - lv c) + lv c) at 1 by lia. rewrite Z.pow_add_r by lia. ring. }
  split; [exact W0 |]. split; [reflexivity |]. apply leaves_div; [exact W0 | reflexivity].
Qed.

(* same level, same face, same coordinates: same cell *)
Lemma cellW_inj c d : wf c -> wf d -> lv c = lv d -> face_of c = face_of d ->
  fst (cellW c) = fst (cellW d) -> c = d.
Proof.
  intros Hc Hd HL HF HW. pose proof Hc as [HLc Hxc]. pose proof Hd as [HLd Hxd].
  unfold cellW in HW. rewrite HL, HF in HW.
  assert (P4 : 0 < 4 ^ lv d) by (apply Z.pow_pos_nonneg; lia).
  pose proof (VW (Z.to_nat (lv d)) (face_of d mod 2) (ix c mod 4 ^ lv d) (mod2_r4 _)) as E1.
  pose proof (VW (Z.to_nat (lv d)) (face_of d mod 2) (ix d mod 4 ^ lv d) (mod2_r4 _)) as E2.
  rewrite Z2Nat.id in * by lia.
  specialize (E1 (Z.mod_pos_bound _ _ P4)). specialize (E2 (Z.mod_pos_bound _ _ P4)).
  destruct (W _ _ (ix c mod 4 ^ lv d)) as [[a b] o].
  destruct (W _ _ (ix d mod 4 ^ lv d)) as [[a' b'] o']. cbn [fst] in HW. injection HW as -> ->.
  rewrite E1 in E2. injection E2 as E2 _.
  assert (ix c = ix d).
  { unfold face_of in HF. rewrite HL in HF.
    rewrite (Z.div_mod (ix c) (4 ^ lv d)), (Z.div_mod (ix d) (4 ^ lv d)) by lia. congruence. }
  destruct c, d. cbn in *. congruence.
Qed.

Lemma sq_correct c : wf c -> is_square_of from_face_ij c (sq c).
Proof.
  intros Hc. destruct (sq_aligned c Hc) as (A & F & S). split; [exact A |]. split; [exact S |].
  intros f i j Hf Hi Hj. destruct (from_face_ij_leaf f i j Hf Hi Hj) as (m & Hm & E & Fm & o & Em).
  pose proof (side_pos c Hc) as HS.
  split.
  - intros (Ef & Ei & Ej). exists m. split; [exact E |].
    destruct (cell_at c m Hc Hm) as (d & Hd & Ld & Lm).
    pose proof (cellW_anc d m Hd Lm) as Q. rewrite Em, Ld in Q.
    assert (c = d); [| subst; exact Lm].
    apply cellW_inj; auto.
    + rewrite <- (face_of_leaf d m Hd Lm), Fm. congruence.
    + revert Ei Ej. unfold sq. destruct (cellW c) as [[a b] oc]. cbn [sq_face sq_i sq_j sq_side].
      intros Ei Ej. apply div_square in Ei, Ej; auto.
      destruct (cellW d) as [[a' b'] od]. cbn [fst]. destruct Q. congruence.
  - intros (m' & E' & Lm). rewrite E in E'. injection E' as E'.
    assert (HI : leaf m = leaf m').
    { apply code_inj; auto. apply leaf_wf. exact (leaves_bounds c m' Hc Lm). }
    injection HI as <-.
    pose proof (cellW_anc c m Hc Lm) as Q. rewrite Em in Q.
    unfold in_square. rewrite F. split; [rewrite <- Fm; apply face_of_leaf; auto |].
    unfold sq. destruct (cellW c) as [[a b] oc]. cbn [sq_i sq_j sq_side].
    destruct Q as [Qa Qb]. apply div_square in Qa, Qb; auto.
Qed.

(* a square is determined by its unit squares *)
Lemma square_unique at_ij c q q' : is_square_of at_ij c q -> is_square_of at_ij c q' -> q = q'.
Proof.
  intros (A & S & H) (A' & S' & H').
  assert (K : forall f i j, 0 <= f < 6 -> 0 <= i < 2 ^ 30 -> 0 <= j < 2 ^ 30 ->
     (in_square q f i j <-> in_square q' f i j)).
  { intros f i j Hf Hi Hj. rewrite H, H' by auto. reflexivity. }
  clear H H'. destruct q as [f i j s], q' as [f' i' j' s']. unfold aligned, in_square in *. cbn in *. subst s s'.
  destruct A as (? & ? & _ & _ & ? & ? & ? & ?). destruct A' as (? & ? & _ & _ & ? & ? & ? & ?).
  pose proof (K f i j ltac:(lia) ltac:(lia) ltac:(lia)) as K1.
  pose proof (K f' i' j' ltac:(lia) ltac:(lia) ltac:(lia)) as K2.
  f_equal; lia.
Qed.

(** ** Runs of equal digits *)

Lemma W_zeros n : forall o, r4 o ->
  W n o 0 = (if o <? 2 then 0 else 2 ^ Z.of_nat n - 1,
             if o <? 2 then 0 else 2 ^ Z.of_nat n - 1,
             if Nat.odd n then Z.lxor o 1 else o).
Proof.
  induction n as [| n IH]; intros o Ho.
  - cbn [W]. destruct (o <? 2); reflexivity.
  - cbn [W]. change (0 / 4) with 0. rewrite IH by exact Ho. change (0 mod 4) with 0.
    rewrite pow2S. rewrite Nat.odd_succ, <- Nat.negb_odd.
    r4c Ho; destruct (Nat.odd n); cbn [negb Z.ltb Z.compare Pos.compare Pos.compare_cont];
      match goal with |- (2 * ?a + ?x, 2 * ?b + ?y, ?z) = _ =>
        let x' := eval vm_compute in x in let y' := eval vm_compute in y in
        let z' := eval vm_compute in z in
        change x with x'; change y with y'; change z with z' end;
      (apply f_equal2; [apply f_equal2; lia | reflexivity]).
Qed.

Lemma W_threes n : forall o, r4 o ->
  W n o (4 ^ Z.of_nat n - 1) =
    (if (o =? 0) || (o =? 3) then 2 ^ Z.of_nat n - 1 else 0,
     if (o =? 0) || (o =? 3) then 0 else 2 ^ Z.of_nat n - 1,
     if Nat.odd n then Z.lxor o 3 else o).
Proof.
  induction n as [| n IH]; intros o Ho.
  - cbn [W]. destruct ((o =? 0) || (o =? 3)); reflexivity.
  - cbn [W]. rewrite pow4S.
    destruct (div_mod_unique2 (4 * 4 ^ Z.of_nat n - 1) (4 ^ Z.of_nat n - 1) 3 4) as [-> ->]; [lia | lia |].
    rewrite IH by exact Ho.
    rewrite pow2S. rewrite Nat.odd_succ, <- Nat.negb_odd.
    r4c Ho; destruct (Nat.odd n); cbn [negb orb Z.eqb Pos.eqb];
      match goal with |- (2 * ?a + ?x, 2 * ?b + ?y, ?z) = _ =>
        let x' := eval vm_compute in x in let y' := eval vm_compute in y in
        let z' := eval vm_compute in z in
        change x with x'; change y with y'; change z with z' end;
      (apply f_equal2; [apply f_equal2; lia | reflexivity]).
Qed.

(* consecutive positions of a curve are next to each other *)
Lemma W_adjacent n : forall o m, r4 o -> 0 <= m -> m + 1 < 4 ^ Z.of_nat n ->
  let '(i, j, _) := W n o m in
  let '(i', j', _) := W n o (m + 1) in
  (i' = i /\ (j' = j + 1 \/ j' = j - 1)) \/ (j' = j /\ (i' = i + 1 \/ i' = i - 1)).
Proof.
  induction n as [| n IH]; intros o m Ho Hm Hm1.
  - change (4 ^ Z.of_nat 0) with 1 in Hm1. lia.
  - replace (S n) with (n + 1)%nat by lia. rewrite !W_app.
    pose proof (pow4pos n) as P4. rewrite pow4S in Hm1.
    set (P := 4 ^ Z.of_nat n) in *.
    pose proof (Z.div_mod m P ltac:(lia)) as E. pose proof (Z.mod_pos_bound m P P4) as M.
    set (d := m / P) in *. set (r := m mod P) in *.
    assert (Hd : 0 <= d < 4).
    { split; [apply Z.div_pos; lia | apply Z.div_lt_upper_bound; lia]. }
    assert (W1 : forall d, 0 <= d < 4 -> W 1 o d = (qi o d, qj o d, nxt o d)).
    { intros e He. cbn [W]. rewrite Z.mod_small by lia. reflexivity. }
    destruct (Z.eq_dec (r + 1) P) as [Er | Er].
    + (* last of block d, first of block d + 1 *)
      assert (Hd1 : 0 <= d + 1 < 4).
      { split; [lia |]. apply (Z.mul_lt_mono_pos_l P); [lia |]. lia. }
      destruct (div_mod_unique2 (m + 1) (d + 1) 0 P) as [-> ->]; [lia | lia |].
      rewrite !W1 by lia.
      replace r with (P - 1) by lia.
      destruct (step_fwd o d Ho Hd) as (_ & _ & N1 & _).
      destruct (step_fwd o (d + 1) Ho Hd1) as (_ & _ & N2 & _).
      unfold P. rewrite W_threes by exact N1. rewrite W_zeros by exact N2.
      pose proof (pow2pos n) as P2.
      assert (Hd' : d = 0 \/ d = 1 \/ d = 2) by lia.
      r4c Ho; destruct Hd' as [-> | [-> | ->]];
      (repeat match goal with
       | |- context [qi ?a ?b] => let v := eval vm_compute in (qi a b) in change (qi a b) with v
       | |- context [qj ?a ?b] => let v := eval vm_compute in (qj a b) in change (qj a b) with v
       | |- context [nxt ?a ?b] => let v := eval vm_compute in (nxt a b) in change (nxt a b) with v
       end;
       cbn [Z.eqb Pos.eqb orb Z.ltb Z.compare Pos.compare Pos.compare_cont]; lia).
    + destruct (div_mod_unique2 (m + 1) d (r + 1) P) as [-> ->]; [lia | lia |].
      rewrite W1 by lia. destruct (step_fwd o d Ho Hd) as (_ & _ & N1 & _).
      specialize (IH (nxt o d) r N1 ltac:(lia)). fold P in IH. specialize (IH ltac:(lia)).
      destruct (W n (nxt o d) r) as [[i j] ?]. destruct (W n (nxt o d) (r + 1)) as [[i' j'] ?].
      lia.
Qed.

(** ** Consecutive cells share an edge *)

Definition next_on_loop (c c' : cell) : Prop :=
  lv c = lv c' /\ (ix c' = ix c + 1 \/ ix c = 6 * 4 ^ lv c - 1 /\ ix c' = 0).

Lemma adjacent_share f i j i' j' s : 
  (i' = i /\ (j' = j + 1 \/ j' = j - 1)) \/ (j' = j /\ (i' = i + 1 \/ i' = i - 1)) ->
  share_edge (Square f (i * s) (j * s) s) (Square f (i' * s) (j' * s) s).
Proof.
  intros H. unfold share_edge, edge_of. cbn [sq_face sq_i sq_j sq_side].
  set (c := cube_point f).
  destruct H as [[-> [-> | ->]] | [-> [-> | ->]]].
  - exists (c (i * s + 0 * s) (j * s + 1 * s)), (c (i * s + 1 * s) (j * s + 1 * s)).
    split; [tauto |]. left. f_equal; f_equal; ring.
  - exists (c (i * s + 0 * s) (j * s + 0 * s)), (c (i * s + 1 * s) (j * s + 0 * s)).
    split; [tauto |]. do 6 right; left. f_equal; f_equal; ring.
  - exists (c (i * s + 1 * s) (j * s + 0 * s)), (c (i * s + 1 * s) (j * s + 1 * s)).
    split; [tauto |]. do 7 right. f_equal; f_equal; ring.
  - exists (c (i * s + 0 * s) (j * s + 0 * s)), (c (i * s + 0 * s) (j * s + 1 * s)).
    split; [tauto |]. do 1 right; left. f_equal; f_equal; ring.
Qed.

Lemma side_split L : 0 <= L <= 30 -> 2 ^ 30 = 2 ^ L * side L.
Proof. intros H. unfold side. rewrite <- Z.pow_add_r by lia. f_equal. lia. Qed.

Lemma sq_face_ends c : wf c ->
  (ix c mod 4 ^ lv c = 4 ^ lv c - 1 ->
   sq c = if Z.even (face_of c) then Square (face_of c) (2 ^ 30 - side (lv c)) 0 (side (lv c))
          else Square (face_of c) 0 (2 ^ 30 - side (lv c)) (side (lv c))) /\
  (ix c mod 4 ^ lv c = 0 -> sq c = Square (face_of c) 0 0 (side (lv c))).
Proof.
  intros [HL Hx]. unfold sq, cellW. rewrite (side_split (lv c) HL).
  pose proof (mod2_range (face_of c)) as M.
  split; intros ->.
  - pose proof (W_threes (Z.to_nat (lv c)) (face_of c mod 2) (mod2_r4 _)) as E.
    rewrite Z2Nat.id in E by lia. rewrite E.
    rewrite Zeven_mod. unfold Zeq_bool. change (?a ?= 0) with (a ?= 0).
    assert (face_of c mod 2 = 0 \/ face_of c mod 2 = 1) as [-> | ->] by lia;
      cbn [Z.eqb Z.compare orb Pos.eqb]; f_equal; ring.
  - rewrite W_zeros by apply mod2_r4. replace (face_of c mod 2 <? 2) with true by lia. reflexivity.
Qed.

Lemma cross_share f f' s : 0 <= f < 6 -> 0 <= f' < 6 -> f' = f + 1 \/ f = 5 /\ f' = 0 ->
  share_edge (if Z.even f then Square f (2 ^ 30 - s) 0 s else Square f 0 (2 ^ 30 - s) s)
    (Square f' 0 0 s).
Proof.
  intros Hf Hf' Hff.
  assert (K : f = 0 /\ f' = 1 \/ f = 2 /\ f' = 3 \/ f = 4 /\ f' = 5 \/
              f = 1 /\ f' = 2 \/ f = 3 /\ f' = 4 \/ f = 5 /\ f' = 0) by lia.
  set (N := 2 ^ 30).
  assert (EC : forall f i j, cube_point f i j =
     let u := 2 * i - N in let v := 2 * j - N in
     if f =? 0 then (N, u, v) else if f =? 1 then (- u, N, v) else if f =? 2 then (- u, - v, N)
     else if f =? 3 then (- N, - v, - u) else if f =? 4 then (v, - N, - u) else (v, u, - N)) by reflexivity.
  clearbody N.
  destruct K as [K | [K | [K | [K | [K | K]]]]]; destruct K as [-> ->]; cbn [Z.even];
    unfold share_edge, edge_of; cbn [sq_face sq_i sq_j sq_side].
  1-3: match goal with |- context [cube_point ?g (0 + 0 * ?t) (0 + 0 * ?t)] =>
    exists (cube_point g 0 0), (cube_point g 0 t) end.
  4-6: match goal with |- context [cube_point ?g (0 + 0 * ?t) (0 + 0 * ?t)] =>
    exists (cube_point g 0 0), (cube_point g t 0) end.
  all: rewrite !EC; cbn [Z.eqb Pos.eqb].
  1-3: split; [right; left | do 7 right]; repeat (apply f_equal2; try ring).
  1-3: split; [do 6 right; left | left]; repeat (apply f_equal2; try ring).
Qed.

Lemma next_share c c' : wf c -> wf c' -> next_on_loop c c' -> share_edge (sq c) (sq c').
Proof.
  intros Hc Hc' [HL HN].
  pose proof (face_of_range c Hc) as F. pose proof (face_of_range c' Hc') as F'.
  pose proof Hc as [HLc Hxc]. pose proof Hc' as [_ Hxc']. rewrite <- HL in Hxc'.
  assert (P4 : 0 < 4 ^ lv c) by (apply Z.pow_pos_nonneg; lia).
  pose proof (Z.div_mod (ix c) (4 ^ lv c) ltac:(lia)) as E.
  pose proof (Z.mod_pos_bound (ix c) (4 ^ lv c) P4) as M.
  destruct (Z.eq_dec (ix c mod 4 ^ lv c) (4 ^ lv c - 1)) as [El | Nl].
  - assert (K : ix c' mod 4 ^ lv c' = 0 /\ (face_of c' = face_of c + 1 \/ face_of c = 5 /\ face_of c' = 0)).
    { rewrite <- HL. unfold face_of in *. rewrite <- HL in *.
      set (P := 4 ^ lv c) in *. set (d := ix c / P) in *.
      destruct HN as [HN | [HN HN']].
      - destruct (div_mod_unique2 (ix c') (d + 1) 0 P) as [-> ->]; lia.
      - rewrite HN', Z.div_0_l, Z.mod_0_l by lia. split; [reflexivity |]. right. split; [| reflexivity].
        unfold d. symmetry. apply Z.div_unique with (P - 1); lia. }
    destruct K as [K0 KF].
    rewrite (proj1 (sq_face_ends c Hc) El), (proj2 (sq_face_ends c' Hc') K0), <- HL.
    apply cross_share; auto.
  - assert (HN' : ix c' = ix c + 1).
    { destruct HN as [HN | [HN _]]; [exact HN |]. exfalso. apply Nl. rewrite HN.
      symmetry. apply Z.mod_unique with 5; lia. }
    destruct (div_mod_unique2 (ix c') (ix c / 4 ^ lv c) (ix c mod 4 ^ lv c + 1) (4 ^ lv c)) as [D' M']; [lia | lia |].
    assert (FE : face_of c' = face_of c) by (unfold face_of; rewrite <- HL; exact D').
    unfold sq, cellW. rewrite <- HL, FE, M'.
    pose proof (W_adjacent (Z.to_nat (lv c)) (face_of c mod 2) (ix c mod 4 ^ lv c) (mod2_r4 _) ltac:(lia)) as A.
    rewrite Z2Nat.id in A by lia. specialize (A ltac:(lia)).
    destruct (W _ _ (ix c mod 4 ^ lv c)) as [[a b] ?]. destruct (W _ _ (ix c mod 4 ^ lv c + 1)) as [[a' b'] ?].
    apply adjacent_share. exact A.
Qed.

(** ** Orientation, children and centres *)

Lemma quadrant_q o k : r4 o -> r4 k -> quadrant o k = (qi o k, qj o k).
Proof. intros Ho Hk. r4c Ho; r4c Hk; reflexivity. Qed.

Lemma child_wf c k : wf c -> lv c < 30 -> r4 k -> wf (child c k).
Proof.
  intros [HL Hx] H30 Hk. unfold r4 in Hk. split; cbn [child lv ix]; [lia |].
  rewrite Z.pow_add_r by lia. lia.
Qed.

Lemma face_of_child c k : wf c -> r4 k -> face_of (child c k) = face_of c.
Proof.
  intros [HL Hx] Hk. unfold r4 in Hk. unfold face_of. cbn [child lv ix].
  assert (0 < 4 ^ lv c) by (apply Z.pow_pos_nonneg; lia).
  rewrite (Z.add_comm (lv c)), Z.pow_add_r by lia. change (4 ^ 1) with 4.
  rewrite <- Z.div_div by lia. f_equal. symmetry. apply Z.div_unique with k; lia.
Qed.

Lemma cellW_child c k : wf c -> r4 k ->
  cellW (child c k) = let '(a, b, o) := cellW c in (2 * a + qi o k, 2 * b + qj o k, nxt o k).
Proof.
  intros Hc Hk. pose proof (face_of_child c k Hc Hk) as F. destruct Hc as [HL Hx]. unfold cellW. rewrite F. cbn [child lv ix].
  replace (Z.to_nat (lv c + 1)) with (S (Z.to_nat (lv c))) by lia. cbn [W].
  assert (P4 : 0 < 4 ^ lv c) by (apply Z.pow_pos_nonneg; lia).
  replace (4 ^ (lv c + 1)) with (4 * 4 ^ lv c) by (rewrite Z.pow_add_r by lia; change (4 ^ 1) with 4; ring).
  assert (E : (4 * ix c + k) / 4 = ix c /\ (4 * ix c + k) mod 4 = k) by (apply div_mod_unique2; auto).
  destruct E as [E1 E2].
  rewrite mod_mul_div, mod_mul_mod, E1, E2 by lia. reflexivity.
Qed.

Lemma sq_child c k : wf c -> lv c < 30 -> r4 k ->
  sq (child c k) = sub_square (sq c) (quadrant (ori c) k).
Proof.
  intros Hc H30 Hk. pose proof (cellW_range c Hc) as R.
  unfold sq, sub_square, ori. rewrite cellW_child, face_of_child by auto.
  destruct (cellW c) as [[a b] o]. destruct R as (_ & _ & Ro).
  cbn [snd sq_side sq_i sq_j sq_face]. rewrite quadrant_q by auto. cbn [fst snd child lv].
  destruct Hc as [HL _].
  assert (E : side (lv c) = 2 * side (lv c + 1)).
  { unfold side. replace (30 - lv c) with (1 + (30 - (lv c + 1))) by lia.
    rewrite Z.pow_add_r by lia. reflexivity. }
  rewrite E. replace (2 * side (lv c + 1) / 2) with (side (lv c + 1)).
  2:{ rewrite Z.mul_comm, Z.div_mul by lia. reflexivity. }
  f_equal; ring.
Qed.

(* the coordinates decoded from a non-leaf id *)
Lemma decode_inner c : wf c -> lv c < 30 ->
  W 30 (face_of c mod 2) ((code c / 2) mod 4 ^ 30) =
  let '(a, b, o) := cellW c in
  let h := side (lv c) / 2 in
  (a * side (lv c) + (if o <? 2 then h else h - 1),
   b * side (lv c) + (if o <? 2 then h else h - 1),
   if Z.odd (29 - lv c) then Z.lxor o 1 else o).
Proof.
  intros Hc H30. pose proof (cellW_range c Hc) as R. pose proof Hc as [HL Hx]. revert R.
  unfold cellW. set (o0 := face_of c mod 2). set (L := Z.to_nat (lv c)). set (r := Z.to_nat (29 - lv c)).
  assert (E30 : 30%nat = (r + (1 + L))%nat) by (unfold r, L; lia).
  assert (Er : Z.of_nat r = 29 - lv c) by (unfold r; lia).
  rewrite E30. rewrite W_app. rewrite Er.
  set (P := 4 ^ (29 - lv c)). set (Q := 4 ^ lv c).
  assert (HP : 0 < P) by (apply Z.pow_pos_nonneg; lia).
  assert (HQ : 0 < Q) by (apply Z.pow_pos_nonneg; lia).
  assert (E1 : code c / 2 = P * (4 * ix c + 2)).
  { symmetry. apply Z.div_unique with 0; [lia |]. unfold code.
    replace (30 - lv c) with (29 - lv c + 1) by lia. rewrite Z.pow_add_r by lia. fold P. change (4 ^ 1) with 4. ring. }
  assert (E2 : 4 ^ 30 = P * (4 * Q)).
  { unfold P, Q. change 4 with (4 ^ 1) at 3. rewrite <- !Z.pow_add_r by lia. f_equal. lia. }
  rewrite E1, E2. rewrite mod_mul_div, mod_mul_mod by lia.
  replace (P * (4 * ix c + 2) / P) with (4 * ix c + 2) by (rewrite (Z.mul_comm P), Z.div_mul; lia).
  replace (P * (4 * ix c + 2) mod P) with 0 by (rewrite (Z.mul_comm P), Z.mod_mul; lia).
  rewrite (W_app 1 L o0). change (4 ^ Z.of_nat 1) with 4. change (2 ^ Z.of_nat 1) with 2.
  destruct (div_mod_unique2 (4 * ix c + 2) (ix c) 2 4 ltac:(lia) eq_refl) as [D M].
  rewrite mod_mul_div, mod_mul_mod, D, M by lia.
  destruct (W L o0 (ix c mod Q)) as [[a b] o]. intros (_ & _ & Ro).
  change (W 1 o 2) with (qi o 2, qj o 2, nxt o 2). 
  assert (En : nxt o 2 = o) by (r4c Ro; reflexivity). rewrite En.
  rewrite W_zeros by exact Ro. rewrite Er.
  replace (Nat.odd r) with (Z.odd (29 - lv c)).
  2:{ rewrite <- Er. clear. destruct (Nat.odd r) eqn:E.
      - apply Nat.odd_spec in E. destruct E as [k ->]. apply Zodd_bool_iff. apply Zodd_ex_iff. exists (Z.of_nat k). lia.
      - apply (f_equal negb) in E. rewrite Nat.negb_odd in E. cbn in E. apply Nat.even_spec in E. destruct E as [k ->].
        rewrite Nat2Z.inj_mul, Z.odd_mul. reflexivity. }
  assert (ES : side (lv c) = 2 ^ (29 - lv c) * 2).
  { unfold side. replace (30 - lv c) with (29 - lv c + 1) by lia. rewrite Z.pow_add_r by lia. reflexivity. }
  rewrite ES, Z.div_mul by lia.
  assert (Eq : qi o 2 = (if o <? 2 then 1 else 0) /\ qj o 2 = (if o <? 2 then 1 else 0)) by (r4c Ro; split; reflexivity).
  destruct Eq as [-> ->]. destruct (o <? 2); (apply f_equal2; [apply f_equal2; ring | reflexivity]).
Qed.

Lemma mask_lsb L : 0 <= L <= 30 ->
  negb (Z.land (4 ^ (30 - L)) 0x1111111111111110 =? 0) = (L <? 30) && Z.odd (29 - L).
Proof.
  intros HL.
  assert (T : forallb (fun L => Bool.eqb (negb (Z.land (4 ^ (30 - L)) 0x1111111111111110 =? 0)) ((L <? 30) && Z.odd (29 - L)))
     (map Z.of_nat (seq 0 31)) = true) by (vm_compute; reflexivity).
  rewrite forallb_forall in T. specialize (T L (in_zseq 31 L ltac:(lia))).
  apply Bool.eqb_prop in T. exact T.
Qed.

(* what face_ij_orientation returns for any cell *)
Lemma face_ij_cell c : wf c ->
  exists i j, face_ij_orientation (code c) = Some (face_of c, i, j, ori c) /\
    in_square (sq c) (face_of c) i j /\
    0 <= i < 2 ^ 30 /\ 0 <= j < 2 ^ 30 /\
    let h := side (lv c) / 2 in
    (lv c < 30 ->
       (ori c < 2 /\ i = sq_i (sq c) + h /\ j = sq_j (sq c) + h) \/
       (2 <= ori c /\ i = sq_i (sq c) + h - 1 /\ j = sq_j (sq c) + h - 1)) /\
    (lv c = 30 -> i = sq_i (sq c) /\ j = sq_j (sq c)).
Proof.
  intros Hc. destruct (face_ij_code c Hc) as (l & El & E).
  rewrite lsb_code in El by exact Hc. injection El as <-.
  destruct (sq_aligned c Hc) as (A & F & S).
  pose proof Hc as [HL Hx]. rewrite mask_lsb in E by exact HL.
  unfold aligned in A. destruct A as (_ & _ & _ & _ & A1 & A2 & A3 & A4). rewrite S in *.
  unfold in_square. rewrite S, F.
  destruct (Z.eq_dec (lv c) 30) as [E30 | N30].
  - rewrite E30 in E. cbn [Z.ltb Z.compare Pos.compare Pos.compare_cont andb] in E.
    assert (Ec : c = leaf (ix c)) by (destruct c as [lc nc]; cbn [lv] in E30; subst lc; reflexivity).
    pose proof (face_ij_leaf (ix c) ltac:(rewrite <- Ec; exact Hc)) as K. rewrite <- Ec in K.
    revert A1 A2 A3 A4. unfold sq, ori. destruct (cellW c) as [[a b] o]. cbn [sq_i sq_j sq_side snd].
    rewrite E30. change (side 30) with 1. intros.
    exists a, b. split; [exact K |]. repeat split; try lia.
  - rewrite decode_inner in E by (auto; lia).
    replace (lv c <? 30) with true in E by lia. cbn [andb] in E.
    revert A1 A2 A3 A4. unfold sq, ori. pose proof (cellW_range c Hc) as R.
    destruct (cellW c) as [[a b] o]. destruct R as (_ & _ & Ro). cbn [sq_i sq_j sq_side snd]. intros.
    assert (ES : side (lv c) = side (lv c) / 2 * 2 /\ 1 <= side (lv c) / 2).
    { unfold side. replace (30 - lv c) with (29 - lv c + 1) by lia. rewrite Z.pow_add_r by lia.
      change (2 ^ 1) with 2. rewrite Z.div_mul by lia. split; [reflexivity |].
      assert (0 < 2 ^ (29 - lv c)) by (apply Z.pow_pos_nonneg; lia). lia. }
    set (h := side (lv c) / 2) in *. set (s := side (lv c)) in *.
    assert (EO : (if Z.odd (29 - lv c) then Z.lxor (if Z.odd (29 - lv c) then Z.lxor o 1 else o) SWAP_MASK
                  else if Z.odd (29 - lv c) then Z.lxor o 1 else o) = o).
    { destruct (Z.odd (29 - lv c)); [r4c Ro; reflexivity | reflexivity]. }
    rewrite EO in E.
    eexists _, _. split; [exact E |].
    destruct (o <? 2) eqn:Eo; repeat split; try lia.
Qed.

Lemma side_mid L : 0 <= L -> L < 30 -> side L = 2 * (side L / 2) /\ 1 <= side L / 2 /\
  (Z.odd (side L / 2) = (L =? 29)).
Proof.
  intros H0 HL. unfold side. replace (30 - L) with (1 + (29 - L)) by lia. rewrite Z.pow_add_r by lia.
  change (2 ^ 1) with 2. rewrite Z.mul_comm, Z.div_mul by lia.
  assert (0 < 2 ^ (29 - L)) by (apply Z.pow_pos_nonneg; lia). repeat split; [lia.. |].
  destruct (Z.eqb_spec L 29) as [-> | N]; [reflexivity |].
  replace (29 - L) with (1 + (28 - L)) by lia. rewrite Z.pow_add_r by lia.
  rewrite Z.odd_mul. reflexivity.
Qed.

(* bit 2 of a code: 1 exactly at level 29, given level < 30 *)
Lemma code_bit2 c : wf c -> lv c < 30 -> Z.testbit (code c) 2 = (lv c =? 29).
Proof.
  intros [HL Hx] H30. unfold code.
  destruct (Z.eqb_spec (lv c) 29) as [E | N].
  - rewrite E. change (4 ^ (30 - 29)) with (2 ^ 2). rewrite Z.mul_pow2_bits by lia.
    change (2 - 2) with 0. rewrite Z.bit0_odd, Z.odd_add, Z.odd_mul. reflexivity.
  - replace (4 ^ (30 - lv c)) with (2 ^ (2 * (30 - lv c))) by (rewrite Z.pow_mul_r by lia; reflexivity).
    apply Z.mul_pow2_bits_low. lia.
Qed.

Lemma land1_odd x : Z.land x 1 = if Z.odd x then 1 else 0.
Proof.
  change 1 with (Z.ones 1) at 1. rewrite Z.land_ones by lia. change (2 ^ 1) with 2.
  rewrite Zmod_odd. reflexivity.
Qed.

Lemma centre_delta c : wf c -> lv c < 30 -> forall i s,
  ori c < 2 /\ i = sq_i (sq c) + side (lv c) / 2 \/ 2 <= ori c /\ i = sq_i (sq c) + side (lv c) / 2 - 1 ->
  Z.odd s = (lv c =? 29) ->
  2 * i + (if negb (Z.land (Z.lxor i s) 1 =? 0) then 2 else 0) = 2 * sq_i (sq c) + side (lv c).
Proof.
  intros Hc H30 i s Hi Hs. destruct (sq_aligned c Hc) as ((_ & _ & Di & _) & _ & S).
  rewrite S in Di. destruct Di as [a Ea].
  pose proof Hc as [HL _]. destruct (side_mid (lv c) ltac:(lia) H30) as (E1 & E2 & E3).
  rewrite land1_odd.
  assert (Ox : Z.odd (Z.lxor i s) = xorb (Z.odd i) (Z.odd s)).
  { rewrite <- !Z.bit0_odd. apply Z.lxor_spec. }
  rewrite Ox, Hs, <- E3. clear Ox.
  assert (Oi : Z.odd (sq_i (sq c)) = false).
  { rewrite Ea, E1, Z.odd_mul, (Z.odd_mul 2). cbn. apply andb_false_r. }
  set (h := side (lv c) / 2) in *.
  destruct Hi as [[_ ->] | [_ ->]].
  - rewrite Z.odd_add, Oi. destruct (Z.odd h); cbn; lia.
  - unfold Z.sub. rewrite !Z.odd_add, Oi. change (Z.odd (- (1))) with true. destruct (Z.odd h); cbn; lia.
Qed.

Lemma code_leaf_flag c : wf c -> is_leaf (code c) = (lv c =? 30).
Proof.
  intros [HL Hx]. unfold is_leaf. rewrite land1_odd. unfold code. rewrite Z.odd_mul, Z.odd_add, Z.odd_mul.
  cbn [Z.odd negb andb xorb].
  destruct (Z.eqb_spec (lv c) 30) as [-> | N]; [reflexivity |].
  replace (30 - lv c) with (1 + (29 - lv c)) by lia. rewrite Z.pow_add_r by lia.
  rewrite Z.odd_mul. reflexivity.
Qed.

Lemma center_ok c : wf c ->
  let r := Some (face_of c, 2 * sq_i (sq c) + side (lv c), 2 * sq_j (sq c) + side (lv c)) in
  face_siti (code c) = r /\ center_face_siti (code c) = r.
Proof.
  intros Hc r. destruct (face_ij_cell c Hc) as (i & j & E & _ & Bi & Bj & Hin & Hlf).
  destruct (sq_aligned c Hc) as ((_ & HS & Di & Dj & A1 & A2 & A3 & A4) & F & S). rewrite S in *.
  unfold face_siti, center_face_siti. rewrite E, code_leaf_flag by exact Hc.
  assert (K : forall x, 0 <= x <= 2 ^ 31 - 1 -> chk_i32 x = Some x).
  { intros x Hx. apply chk_i32_ok. lia. }
  pose proof Hc as [HL Hx].
  destruct (Z.eqb_spec (lv c) 30) as [E30 | N30].
  - destruct (Hlf E30) as [-> ->]. rewrite E30 in *. change (side 30) with 1 in *.
    change (2 ^ 30) with 1073741824 in *. rewrite !K by (change (2 ^ 31) with 2147483648; lia).
    unfold r; rewrite E30; split; reflexivity.
  - assert (H30 : lv c < 30) by lia. specialize (Hin H30).
    pose proof (code_bounds c Hc) as CB.
    assert (S1 : Z.odd (Z.shiftr (as_i32 (code c)) 2) = (lv c =? 29)).
    { rewrite <- (code_bit2 c Hc H30). rewrite <- Z.bit0_odd, Z.shiftr_spec by lia.
      unfold as_i32. destruct (code c mod 2 ^ 32 <? 2 ^ 31).
      - rewrite Z.mod_pow2_bits_low by lia. reflexivity.
      - replace (code c mod 2 ^ 32 - 2 ^ 32) with (code c mod 2 ^ 32 + (-1) * 2 ^ 32) by ring.
        rewrite <- (Z.mod_pow2_bits_low (code c mod 2 ^ 32 + -1 * 2 ^ 32) 32) by lia.
        rewrite Z.mod_add, Z.mod_mod by lia. rewrite Z.mod_pow2_bits_low by lia. reflexivity. }
    assert (S2 : Z.odd (Z.shiftr (as_i64 (code c)) 2) = (lv c =? 29)).
    { rewrite <- (code_bit2 c Hc H30). rewrite <- Z.bit0_odd, Z.shiftr_spec by lia.
      unfold as_i64. destruct (code c <? 2 ^ 63); [reflexivity |].
      replace (code c - 2 ^ 64) with (code c + (-1) * 2 ^ 64) by ring.
      rewrite <- (Z.mod_pow2_bits_low (code c + -1 * 2 ^ 64) 64) by lia.
      rewrite Z.mod_add by lia. rewrite Z.mod_small by (change (2 ^ 61) with 2305843009213693952 in CB; change (2 ^ 64) with 18446744073709551616; lia).
      reflexivity. }
    assert (Hi : ori c < 2 /\ i = sq_i (sq c) + side (lv c) / 2 \/ 2 <= ori c /\ i = sq_i (sq c) + side (lv c) / 2 - 1) by lia.
    assert (Hd : sq_i (sq c) - i = sq_j (sq c) - j) by lia.
    pose proof (centre_delta c Hc H30 i _ Hi S1) as D1.
    pose proof (centre_delta c Hc H30 i _ Hi S2) as D2.
    assert (FL : forall x, (if Z.land x 1 =? 1 then 2 else 0) = (if negb (Z.land x 1 =? 0) then 2 else 0)).
    { intros x. rewrite land1_odd. destruct (Z.odd x); reflexivity. }
    rewrite FL.
    set (e1 := if negb (Z.land (Z.lxor i (Z.shiftr (as_i32 (code c)) 2)) 1 =? 0) then 2 else 0) in *.
    set (e2 := if negb (Z.land (Z.lxor i (Z.shiftr (as_i64 (code c)) 2)) 1 =? 0) then 2 else 0) in *.
    assert (J1 : 2 * j + e1 = 2 * sq_j (sq c) + side (lv c)) by lia.
    assert (J2 : 2 * j + e2 = 2 * sq_j (sq c) + side (lv c)) by lia.
    rewrite D1, D2, J1, J2.
    change (2 ^ 30) with 1073741824 in *.
    rewrite !K by (change (2 ^ 31) with 2147483648; lia). split; reflexivity.
Qed.
