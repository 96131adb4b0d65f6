(** The bit-by-bit curve and its relation to the table-driven code. *)
From Verif Require Import Base Spec CellIdModel CellIdArith CellIdProofs HilbertModel.

Definition qi (o d : Z) : Z := pos_to_ij o d / 2.
Definition qj (o d : Z) : Z := pos_to_ij o d mod 2.
Definition nxt (o d : Z) : Z := Z.lxor o (pos_to_orientation d).
(* inverse of (qi, qj) for a fixed orientation *)
Definition dig (o bi bj : Z) : Z :=
  nth (Z.to_nat (2 * bi + bj)) (nth (Z.to_nat o) IJ_TO_POS []) 0.

(* position m of the n-level curve of orientation o: coordinates and orientation *)
Fixpoint W (n : nat) (o m : Z) : Z * Z * Z :=
  match n with
  | O => (0, 0, o)
  | S n' =>
      let '(i, j, o1) := W n' o (m / 4) in
      let d := m mod 4 in
      (2 * i + qi o1 d, 2 * j + qj o1 d, nxt o1 d)
  end.
(* the inverse *)
Fixpoint V (n : nat) (o i j : Z) : Z * Z :=
  match n with
  | O => (0, o)
  | S n' =>
      let '(m, o1) := V n' o (i / 2) (j / 2) in
      let d := dig o1 (i mod 2) (j mod 2) in
      (4 * m + d, nxt o1 d)
  end.

Definition r4 (x : Z) := 0 <= x < 4.
Lemma r4_cases x : r4 x -> x = 0 \/ x = 1 \/ x = 2 \/ x = 3.
Proof. unfold r4. lia. Qed.
Ltac r4c H := apply r4_cases in H; destruct H as [-> | [-> | [-> | ->]]].
Lemma r2_cases x : 0 <= x < 2 -> x = 0 \/ x = 1.
Proof. lia. Qed.

Lemma step_fwd o d : r4 o -> r4 d ->
  0 <= qi o d < 2 /\ 0 <= qj o d < 2 /\ r4 (nxt o d) /\ dig o (qi o d) (qj o d) = d.
Proof. intros Ho Hd. r4c Ho; r4c Hd; vm_compute; intuition congruence. Qed.
Lemma step_bwd o a b : r4 o -> 0 <= a < 2 -> 0 <= b < 2 ->
  r4 (dig o a b) /\ qi o (dig o a b) = a /\ qj o (dig o a b) = b.
Proof.
  intros Ho Ha Hb. apply r2_cases in Ha. apply r2_cases in Hb. r4c Ho;
    destruct Ha as [-> | ->]; destruct Hb as [-> | ->]; vm_compute; intuition congruence.
Qed.

Lemma pow2S n : 2 ^ Z.of_nat (S n) = 2 * 2 ^ Z.of_nat n.
Proof. rewrite Nat2Z.inj_succ, Z.pow_succ_r by lia. lia. Qed.
Lemma pow4S n : 4 ^ Z.of_nat (S n) = 4 * 4 ^ Z.of_nat n.
Proof. rewrite Nat2Z.inj_succ, Z.pow_succ_r by lia. lia. Qed.
Lemma pow2pos n : 0 < 2 ^ Z.of_nat n.
Proof. apply Z.pow_pos_nonneg; lia. Qed.
Lemma pow4pos n : 0 < 4 ^ Z.of_nat n.
Proof. apply Z.pow_pos_nonneg; lia. Qed.

Lemma r4_mod m : r4 (m mod 4).
Proof. unfold r4. apply Z.mod_pos_bound. lia. Qed.

Lemma W_range n : forall o m, r4 o ->
  let '(i, j, o') := W n o m in
  0 <= i < 2 ^ Z.of_nat n /\ 0 <= j < 2 ^ Z.of_nat n /\ r4 o'.
Proof.
  induction n as [| n IH]; intros o m Ho; cbn [W].
  - change (2 ^ Z.of_nat 0) with 1. unfold r4 in *. lia.
  - specialize (IH o (m / 4) Ho). destruct (W n o (m / 4)) as [[i j] o1].
    destruct IH as (Hi & Hj & Ho1). destruct (step_fwd o1 (m mod 4) Ho1 (r4_mod m)) as (A & B & C & _).
    rewrite pow2S. split; [lia |]. split; [lia | exact C].
Qed.

Lemma V_range n : forall o i j, r4 o ->
  let '(m, o') := V n o i j in 0 <= m < 4 ^ Z.of_nat n /\ r4 o'.
Proof.
  induction n as [| n IH]; intros o i j Ho; cbn [V].
  - change (4 ^ Z.of_nat 0) with 1. unfold r4 in *. lia.
  - specialize (IH o (i / 2) (j / 2) Ho). destruct (V n o (i / 2) (j / 2)) as [m o1].
    destruct IH as (Hm & Ho1).
    pose proof (Z.mod_pos_bound i 2). pose proof (Z.mod_pos_bound j 2).
    destruct (step_bwd o1 (i mod 2) (j mod 2) Ho1) as (A & _); [lia | lia |].
    destruct (step_fwd o1 _ Ho1 A) as (_ & _ & C & _).
    rewrite pow4S. split; [unfold r4 in A; lia | exact C].
Qed.

Lemma div_mod_unique2 a q r b : 0 <= r < b -> a = b * q + r -> a / b = q /\ a mod b = r.
Proof.
  intros Hr ->. split.
  - symmetry. apply Z.div_unique with r; lia.
  - symmetry. apply Z.mod_unique with q; lia.
Qed.

Lemma VW n : forall o m, r4 o -> 0 <= m < 4 ^ Z.of_nat n ->
  let '(i, j, o') := W n o m in V n o i j = (m, o').
Proof.
  induction n as [| n IH]; intros o m Ho Hm; cbn [W].
  - change (4 ^ Z.of_nat 0) with 1 in Hm. cbn. f_equal. lia.
  - assert (Hq : 0 <= m / 4 < 4 ^ Z.of_nat n).
    { rewrite pow4S in Hm. split; [apply Z.div_pos; lia | apply Z.div_lt_upper_bound; lia]. }
    pose proof (W_range n o (m / 4) Ho) as R. specialize (IH o (m / 4) Ho Hq).
    destruct (W n o (m / 4)) as [[i j] o1]. destruct R as (_ & _ & Ho1).
    destruct (step_fwd o1 (m mod 4) Ho1 (r4_mod m)) as (A & B & _ & D).
    cbn [V].
    destruct (div_mod_unique2 (2 * i + qi o1 (m mod 4)) i (qi o1 (m mod 4)) 2 A eq_refl) as [-> ->].
    destruct (div_mod_unique2 (2 * j + qj o1 (m mod 4)) j (qj o1 (m mod 4)) 2 B eq_refl) as [-> ->].
    rewrite IH, D. f_equal. pose proof (Z.div_mod m 4). lia.
Qed.

Lemma WV n : forall o i j, r4 o -> 0 <= i < 2 ^ Z.of_nat n -> 0 <= j < 2 ^ Z.of_nat n ->
  let '(m, o') := V n o i j in W n o m = (i, j, o').
Proof.
  induction n as [| n IH]; intros o i j Ho Hi Hj; cbn [V].
  - change (2 ^ Z.of_nat 0) with 1 in *. cbn. repeat f_equal; lia.
  - rewrite pow2S in *.
    specialize (IH o (i / 2) (j / 2) Ho).
    pose proof (V_range n o (i / 2) (j / 2) Ho) as R.
    destruct (V n o (i / 2) (j / 2)) as [m o1]. destruct R as [Hm Ho1].
    pose proof (Z.mod_pos_bound i 2). pose proof (Z.mod_pos_bound j 2).
    destruct (step_bwd o1 (i mod 2) (j mod 2) Ho1) as (A & B & C); [lia | lia |].
    cbn [W].
    destruct (div_mod_unique2 (4 * m + dig o1 (i mod 2) (j mod 2)) m _ 4 A eq_refl) as [-> ->].
    rewrite IH; [| split; [apply Z.div_pos; lia | apply Z.div_lt_upper_bound; lia] ..].
    rewrite B, C. pose proof (Z.div_mod i 2). pose proof (Z.div_mod j 2).
    repeat f_equal; lia.
Qed.

(* splitting the position *)
Lemma W_app b : forall a o m,
  W (b + a) o m =
  let '(i, j, o1) := W a o (m / 4 ^ Z.of_nat b) in
  let '(i', j', o2) := W b o1 (m mod 4 ^ Z.of_nat b) in
  (i * 2 ^ Z.of_nat b + i', j * 2 ^ Z.of_nat b + j', o2).
Proof.
  induction b as [| b IH]; intros a o m; cbn [plus W].
  - change (4 ^ Z.of_nat 0) with 1. change (2 ^ Z.of_nat 0) with 1. rewrite Z.div_1_r.
    destruct (W a o m) as [[i j] o1]. repeat f_equal; lia.
  - rewrite IH. pose proof (pow4pos b).
    replace (m / 4 / 4 ^ Z.of_nat b) with (m / 4 ^ Z.of_nat (S b))
      by (rewrite pow4S, Z.div_div by lia; reflexivity).
    assert (E : m mod 4 ^ Z.of_nat (S b) = 4 * (m / 4 mod 4 ^ Z.of_nat b) + m mod 4)
      by (rewrite pow4S, Z.rem_mul_r by lia; lia).
    destruct (div_mod_unique2 _ _ _ 4 (r4_mod m) E) as [-> ->].
    destruct (W a o (m / 4 ^ Z.of_nat (S b))) as [[i j] o1].
    destruct (W b o1 (m / 4 mod 4 ^ Z.of_nat b)) as [[i' j'] o2].
    rewrite pow2S. f_equal. f_equal; ring.
Qed.

(** ** The tables *)

Lemma lookup_ij_tbl :
  forallb (fun o => forallb (fun p =>
    match at_ LOOKUP_IJ (4 * p + o) with
    | Some v => let '(i, j, o') := W 4 o p in v =? 4 * (16 * i + j) + o'
    | None => false
    end) (map Z.of_nat (seq 0 256))) (map Z.of_nat (seq 0 4)) = true.
Proof. vm_compute. reflexivity. Qed.
Lemma lookup_pos_tbl :
  forallb (fun o => forallb (fun i => forallb (fun j =>
    match at_ LOOKUP_POS (4 * (16 * i + j) + o) with
    | Some v => let '(p, o') := V 4 o i j in v =? 4 * p + o'
    | None => false
    end) (map Z.of_nat (seq 0 16))) (map Z.of_nat (seq 0 16))) (map Z.of_nat (seq 0 4)) = true.
Proof. vm_compute. reflexivity. Qed.

Lemma in_zseq n x : 0 <= x < Z.of_nat n -> In x (map Z.of_nat (seq 0 n)).
Proof.
  intros Hx. apply in_map_iff. exists (Z.to_nat x). split; [lia |]. apply in_seq. lia.
Qed.

Lemma lookup_ij o p : r4 o -> 0 <= p < 256 ->
  at_ LOOKUP_IJ (4 * p + o) = let '(i, j, o') := W 4 o p in Some (4 * (16 * i + j) + o').
Proof.
  intros Ho Hp. pose proof lookup_ij_tbl as T.
  rewrite forallb_forall in T. specialize (T o (in_zseq 4 o Ho)).
  rewrite forallb_forall in T. specialize (T p (in_zseq 256 p Hp)).
  destruct (at_ LOOKUP_IJ (4 * p + o)); [| discriminate].
  destruct (W 4 o p) as [[i j] o']. apply Z.eqb_eq in T. congruence.
Qed.
Lemma lookup_pos o i j : r4 o -> 0 <= i < 16 -> 0 <= j < 16 ->
  at_ LOOKUP_POS (4 * (16 * i + j) + o) = let '(p, o') := V 4 o i j in Some (4 * p + o').
Proof.
  intros Ho Hi Hj. pose proof lookup_pos_tbl as T.
  rewrite forallb_forall in T. specialize (T o (in_zseq 4 o Ho)).
  rewrite forallb_forall in T. specialize (T i (in_zseq 16 i Hi)).
  rewrite forallb_forall in T. specialize (T j (in_zseq 16 j Hj)).
  destruct (at_ LOOKUP_POS (4 * (16 * i + j) + o)); [| discriminate].
  destruct (V 4 o i j) as [p o']. apply Z.eqb_eq in T. congruence.
Qed.
Global Opaque LOOKUP_POS LOOKUP_IJ.

Lemma V_app b : forall a o i j,
  V (b + a) o i j =
  let '(m, o1) := V a o (i / 2 ^ Z.of_nat b) (j / 2 ^ Z.of_nat b) in
  let '(m', o2) := V b o1 (i mod 2 ^ Z.of_nat b) (j mod 2 ^ Z.of_nat b) in
  (m * 4 ^ Z.of_nat b + m', o2).
Proof.
  assert (D : forall b i, i / 2 / 2 ^ Z.of_nat b = i / 2 ^ Z.of_nat (S b)).
  { intros. pose proof (pow2pos b0). rewrite pow2S, Z.div_div by lia. reflexivity. }
  assert (M : forall b i, i mod 2 ^ Z.of_nat (S b) = 2 * (i / 2 mod 2 ^ Z.of_nat b) + i mod 2).
  { intros. pose proof (pow2pos b0). rewrite pow2S, Z.rem_mul_r by lia. lia. }
  induction b as [| b IH]; intros a o i j; cbn [plus V].
  - change (4 ^ Z.of_nat 0) with 1. change (2 ^ Z.of_nat 0) with 1. rewrite !Z.div_1_r.
    destruct (V a o i j) as [m o1]. repeat f_equal; lia.
  - rewrite IH, !D.
    destruct (div_mod_unique2 _ _ _ 2 (Z.mod_pos_bound i 2 ltac:(lia)) (M b i)) as [-> ->].
    destruct (div_mod_unique2 _ _ _ 2 (Z.mod_pos_bound j 2 ltac:(lia)) (M b j)) as [-> ->].
    destruct (V a o (i / 2 ^ Z.of_nat (S b)) (j / 2 ^ Z.of_nat (S b))) as [m o1].
    destruct (V b o1 (i / 2 mod 2 ^ Z.of_nat b) (j / 2 mod 2 ^ Z.of_nat b)) as [m' o2].
    rewrite pow4S. f_equal. ring.
Qed.

(** ** The loops *)

Lemma lor_disjoint q w s : 0 <= s -> 0 <= w < 2 ^ s -> Z.lor (q * 2 ^ s) w = q * 2 ^ s + w.
Proof.
  intros Hs Hw.
  assert (L : Z.land (q * 2 ^ s) w = 0).
  { apply Z.bits_inj'. intros n Hn. rewrite Z.land_spec, Z.bits_0.
    destruct (Z.lt_ge_cases n s).
    - rewrite Z.mul_pow2_bits_low by lia. reflexivity.
    - replace w with (w mod 2 ^ s) by (apply Z.mod_small; lia).
      rewrite Z.mod_pow2_bits_high by lia. apply andb_false_r. }
  rewrite <- Z.lxor_lor by exact L. symmetry. apply Z.add_nocarry_lxor. exact L.
Qed.

Lemma land_mask x n : 0 <= n -> Z.land x (Z.shiftl 1 n - 1) = x mod 2 ^ n.
Proof.
  intros Hn. rewrite Z.shiftl_1_l, <- Z.land_ones by lia. rewrite Z.ones_equiv. f_equal.
Qed.

Lemma decode p o : r4 o -> Z.shiftr (4 * p + o) 2 = p /\ Z.land (4 * p + o) (Z.lor SWAP_MASK INVERT_MASK) = o.
Proof.
  intros Ho. change (Z.lor SWAP_MASK INVERT_MASK) with (Z.ones 2).
  rewrite Z.land_ones, Z.shiftr_div_pow2 by lia. change (2 ^ 2) with 4.
  apply div_mod_unique2; auto.
Qed.

Lemma decode_ij i j o : 0 <= i < 16 -> 0 <= j < 16 -> r4 o ->
  let v := 4 * (16 * i + j) + o in
  Z.shiftr v (LOOKUP_BITS + 2) = i /\
  Z.land (Z.shiftr v 2) (Z.shiftl 1 LOOKUP_BITS - 1) = j /\
  Z.land v (Z.lor SWAP_MASK INVERT_MASK) = o.
Proof.
  intros Hi Hj Ho v. destruct (decode (16 * i + j) o Ho) as [A B].
  split; [| split; [| exact B]].
  - change (LOOKUP_BITS + 2) with 6. rewrite Z.shiftr_div_pow2 by lia. change (2 ^ 6) with 64.
    unfold v. unfold r4 in Ho. symmetry. apply Z.div_unique with (4 * j + o); lia.
  - unfold v. rewrite A, land_mask by (unfold LOOKUP_BITS; lia). change (2 ^ LOOKUP_BITS) with 16.
    apply (div_mod_unique2 _ i j 16); lia.
Qed.

Lemma chk_i32_ok a : - 2 ^ 31 <= a < 2 ^ 31 -> chk_i32 a = Some a.
Proof. intros H. unfold chk_i32. replace (_ && _) with true by lia. reflexivity. Qed.

Definition nb (k : nat) : nat := (4 * S k)%nat.

Lemma nbS k : nb (S k) = (nb k + 4)%nat. Proof. unfold nb. lia. Qed.
Lemma pow_nb2 k : 2 ^ Z.of_nat (nb k) = 16 * 2 ^ (Z.of_nat k * 4).
Proof.
  unfold nb. replace (Z.of_nat (4 * S k)) with (4 + Z.of_nat k * 4) by lia.
  rewrite Z.pow_add_r by lia. reflexivity.
Qed.
Lemma pow_nb4 k : 4 ^ Z.of_nat (nb k) = 256 * 4 ^ (Z.of_nat k * 4).
Proof.
  unfold nb. replace (Z.of_nat (4 * S k)) with (4 + Z.of_nat k * 4) by lia.
  rewrite Z.pow_add_r by lia. reflexivity.
Qed.

Lemma bound16 i0 c P : 0 <= i0 -> 0 <= c < 16 -> 0 < P -> i0 + 16 * P <= 2 ^ 31 ->
  - 2 ^ 31 <= i0 + c * P < 2 ^ 31.
Proof.
  intros Hi Hc HP H. assert (0 <= c * P <= 15 * P); [| lia].
  split; [apply Z.mul_nonneg_nonneg | apply Z.mul_le_mono_nonneg_r]; lia.
Qed.
Lemma bound4 c P : 0 <= c < 4 -> 0 < P -> P <= 2 ^ 28 -> - 2 ^ 31 <= 0 + c * P < 2 ^ 31.
Proof.
  intros Hc HP H. assert (0 <= c * P <= 3 * P); [| lia].
  split; [apply Z.mul_nonneg_nonneg | apply Z.mul_le_mono_nonneg_r]; lia.
Qed.

(* one iteration of the decoding loop *)
Lemma face_ij_step k x i0 j0 o n : r4 o -> (k <= 7)%nat -> 0 <= n <= 4 -> 0 <= x ->
  0 <= i0 -> 0 <= j0 -> i0 + 16 * 2 ^ (Z.of_nat k * 4) <= 2 ^ 31 \/ n = 2 /\ r4 o /\ o < 2 /\ i0 = 0 /\ j0 = 0 ->
  j0 + 16 * 2 ^ (Z.of_nat k * 4) <= 2 ^ 31 \/ n = 2 /\ r4 o /\ o < 2 /\ i0 = 0 /\ j0 = 0 ->
  face_ij_loop k x i0 j0 o n =
  let '(ci, cj, o') := W 4 o ((x / 2 / 4 ^ (Z.of_nat k * 4)) mod 4 ^ n) in
  let i := i0 + ci * 2 ^ (Z.of_nat k * 4) in
  let j := j0 + cj * 2 ^ (Z.of_nat k * 4) in
  match k with
  | O => Some (i, j, o')
  | S k' => face_ij_loop k' x i j o' 4
  end.
Proof.
  intros Ho Hk Hn Hx Hi0 Hj0 Hi Hj.
  set (kz := Z.of_nat k).
  assert (Hkz : 0 <= kz <= 7) by (subst kz; lia).
  set (p := (x / 2 / 4 ^ (kz * 4)) mod 4 ^ n).
  assert (Hp4 : 0 < 4 ^ n) by (apply Z.pow_pos_nonneg; lia).
  assert (Hp : 0 <= p < 4 ^ n) by (apply Z.mod_pos_bound; lia).
  assert (Hp256 : 0 <= p < 256).
  { pose proof (Z.pow_le_mono_r 4 n 4). change (4 ^ 4) with 256 in *. lia. }
  assert (Ew : shr64 x (kz * 2 * LOOKUP_BITS + 1) = Some (x / 2 / 4 ^ (kz * 4))).
  { unfold LOOKUP_BITS. rewrite shr64_ok by lia. f_equal.
    rewrite Z.pow_add_r by lia. change (2 ^ 1) with 2.
    replace (2 ^ (kz * 2 * 4)) with (4 ^ (kz * 4)).
    2:{ change 4 with (2 ^ 2) at 1. rewrite <- Z.pow_mul_r by lia. f_equal. lia. }
    rewrite Z.mul_comm, <- Z.div_div; [reflexivity | lia | apply Z.pow_pos_nonneg; lia]. }
  assert (Ep : o + Z.shiftl (Z.land (x / 2 / 4 ^ (kz * 4)) (Z.shiftl 1 (2 * n) - 1)) 2 = 4 * p + o).
  { rewrite land_mask by lia. replace (2 ^ (2 * n)) with (4 ^ n) by (rewrite (Z.pow_mul_r 2 2 n) by lia; reflexivity). fold p.
    rewrite Z.shiftl_mul_pow2 by lia. change (2 ^ 2) with 4. lia. }
  pose proof (lookup_ij o p Ho Hp256) as EL.
  pose proof (W_range 4 o p Ho) as R.
  assert (R2 : n = 2 -> o < 2 -> let '(ci, cj, _) := W 4 o p in ci < 4 /\ cj < 4).
  { intros -> Ho2. change (4 ^ 2) with 16 in Hp.
    assert (T : forallb (fun o => forallb (fun p => let '(ci, cj, _) := W 4 o p in (ci <? 4) && (cj <? 4))
                  (map Z.of_nat (seq 0 16))) (map Z.of_nat (seq 0 2)) = true) by (vm_compute; reflexivity).
    rewrite forallb_forall in T. unfold r4 in Ho. specialize (T o (in_zseq 2 o ltac:(lia))).
    rewrite forallb_forall in T. specialize (T p (in_zseq 16 p Hp)).
    destruct (W 4 o p) as [[ci cj] oo]. lia. }
  destruct k as [| k']; cbn [face_ij_loop]; fold kz;
    (rewrite Ew, Ep, EL; destruct (W 4 o p) as [[ci cj] o']; destruct R as (Rci & Rcj & Ro');
     change (2 ^ Z.of_nat 4) with 16 in *;
     destruct (decode_ij ci cj o' Rci Rcj Ro') as (D1 & D2 & D3); rewrite D1, D2, D3;
     rewrite !Z.shiftl_mul_pow2 by (unfold LOOKUP_BITS; lia); change LOOKUP_BITS with 4;
     assert (HP : 0 < 2 ^ (kz * 4)) by (apply Z.pow_pos_nonneg; lia);
     assert (HP7 : 2 ^ (kz * 4) <= 2 ^ 28) by (apply Z.pow_le_mono_r; lia);
     fold kz in Hi, Hj;
     rewrite chk_i32_ok; [rewrite chk_i32_ok; [reflexivity |] |];
     [destruct Hj as [Hj | (? & ? & ? & ? & ->)]; [exact (bound16 _ _ _ Hj0 Rcj HP Hj) |
        exact (bound4 _ _ (conj (proj1 Rcj) (proj2 (R2 ltac:(assumption) ltac:(assumption)))) HP HP7)]
     |destruct Hi as [Hi | (? & ? & ? & -> & ?)]; [exact (bound16 _ _ _ Hi0 Rci HP Hi) |
        exact (bound4 _ _ (conj (proj1 Rci) (proj1 (R2 ltac:(assumption) ltac:(assumption)))) HP HP7)]]).
Qed.

Lemma mod_mul_mod a b c : 0 < b -> 0 < c -> (a mod (b * c)) mod b = a mod b.
Proof.
  intros Hb Hc. eapply (div_mod_unique2 _ (a / b mod c)); [apply Z.mod_pos_bound; lia |].
  rewrite Z.rem_mul_r by lia. ring.
Qed.
Lemma mod_mul_div a b c : 0 < b -> 0 < c -> (a mod (b * c)) / b = a / b mod c.
Proof.
  intros Hb Hc. apply (div_mod_unique2 _ (a / b mod c) (a mod b)); [apply Z.mod_pos_bound; lia |].
  rewrite Z.rem_mul_r by lia. ring.
Qed.

Lemma face_ij_loop_ok k : forall x i0 j0 o, (k <= 6)%nat -> r4 o -> 0 <= x ->
  0 <= i0 -> 0 <= j0 -> i0 + 2 ^ Z.of_nat (nb k) <= 2 ^ 31 -> j0 + 2 ^ Z.of_nat (nb k) <= 2 ^ 31 ->
  face_ij_loop k x i0 j0 o 4 =
  let '(ci, cj, o') := W (nb k) o ((x / 2) mod 4 ^ Z.of_nat (nb k)) in Some (i0 + ci, j0 + cj, o').
Proof.
  induction k as [| k IH]; intros x i0 j0 o Hk Ho Hx Hi0 Hj0 Hi Hj; rewrite pow_nb2 in Hi, Hj;
    (rewrite face_ij_step; [| auto; lia ..]).
  - change (Z.of_nat 0 * 4) with 0. change (4 ^ 0) with 1. change (2 ^ 0) with 1.
    rewrite Z.div_1_r. change (nb 0) with 4%nat. change (Z.of_nat 4) with 4.
    destruct (W 4 o ((x / 2) mod 4 ^ 4)) as [[ci cj] o']. rewrite !Z.mul_1_r. reflexivity.
  - rewrite nbS. rewrite W_app.
    pose proof (pow4pos (nb k)) as P4.
    replace (4 ^ Z.of_nat (nb k + 4)) with (4 ^ Z.of_nat (nb k) * 4 ^ 4)
      by (rewrite Nat2Z.inj_add, Z.pow_add_r by lia; reflexivity).
    rewrite mod_mul_div, mod_mul_mod by lia.
    replace (Z.of_nat (S k) * 4) with (Z.of_nat (nb k)) in * by (unfold nb; lia).
    set (p := (x / 2 / 4 ^ Z.of_nat (nb k)) mod 4 ^ 4).
    pose proof (W_range 4 o p Ho) as R.
    destruct (W 4 o p) as [[ci cj] o1]. destruct R as (Rci & Rcj & Ro1).
    change (2 ^ Z.of_nat 4) with 16 in *.
    pose proof (pow2pos (nb k)) as P2. set (P := 2 ^ Z.of_nat (nb k)) in *.
    assert (Bd : forall c, 0 <= c < 16 -> 0 <= c * P <= 15 * P).
    { intros c Hc. split; [apply Z.mul_nonneg_nonneg | apply Z.mul_le_mono_nonneg_r]; lia. }
    pose proof (Bd ci Rci). pose proof (Bd cj Rcj).
    rewrite IH by (auto; fold P; lia).
    destruct (W (nb k) o1 ((x / 2) mod 4 ^ Z.of_nat (nb k))) as [[ci' cj'] o2].
    fold P. rewrite !Z.add_assoc. reflexivity.
Qed.

(* two leading zero digits change nothing for orientations 0 and 1 *)
Lemma W42 o p : 0 <= o < 2 -> 0 <= p < 16 -> W 4 o p = W 2 o p.
Proof.
  intros Ho Hp.
  assert (T : forallb (fun o => forallb (fun p =>
      let '(a, b, c) := W 4 o p in let '(a', b', c') := W 2 o p in (a =? a') && (b =? b') && (c =? c'))
      (map Z.of_nat (seq 0 16))) (map Z.of_nat (seq 0 2)) = true) by (vm_compute; reflexivity).
  rewrite forallb_forall in T. specialize (T o (in_zseq 2 o Ho)).
  rewrite forallb_forall in T. specialize (T p (in_zseq 16 p Hp)).
  destruct (W 4 o p) as [[a b] c], (W 2 o p) as [[a' b'] c'].
  apply andb_prop in T. destruct T as [T Tc]. apply andb_prop in T. destruct T as [Ta Tb].
  repeat f_equal; lia.
Qed.
Lemma V42 o i j : 0 <= o < 2 -> 0 <= i < 4 -> 0 <= j < 4 -> V 4 o i j = V 2 o i j.
Proof.
  intros Ho Hi Hj. pose proof (V_range 2 o i j ltac:(unfold r4; lia)) as R.
  pose proof (WV 2 o i j ltac:(unfold r4; lia) ltac:(change (2 ^ Z.of_nat 2) with 4; lia) ltac:(change (2 ^ Z.of_nat 2) with 4; lia)) as E.
  destruct (V 2 o i j) as [m o']. change (4 ^ Z.of_nat 2) with 16 in R.
  rewrite <- W42 in E by lia.
  pose proof (VW 4 o m ltac:(unfold r4; lia) ltac:(change (4 ^ Z.of_nat 4) with 256; lia)) as F.
  rewrite E in F. exact F.
Qed.

Definition orient0 (f : Z) : Z := f mod 2.

Lemma land_swap f : Z.land f SWAP_MASK = f mod 2.
Proof. change SWAP_MASK with (Z.ones 1). rewrite Z.land_ones by lia. reflexivity. Qed.

Lemma face_ij_all x o : 0 <= x -> 0 <= o < 2 ->
  face_ij_loop 7 x 0 0 o (MAX_LEVEL - 7 * LOOKUP_BITS) =
  Some (W 30 o ((x / 2) mod 4 ^ 30)).
Proof.
  intros Hx Ho. change (MAX_LEVEL - 7 * LOOKUP_BITS) with 2.
  rewrite face_ij_step by (try (unfold r4); auto; try lia; right; unfold r4; lia).
  change (Z.of_nat 7 * 4) with 28.
  change 30%nat with (28 + 2)%nat. rewrite W_app. change (Z.of_nat 28) with 28.
  change (4 ^ 30) with (4 ^ 28 * 4 ^ 2).
  rewrite mod_mul_div, mod_mul_mod by (apply Z.pow_pos_nonneg; lia).
  set (p := (x / 2 / 4 ^ 28) mod 4 ^ 2).
  assert (Hp : 0 <= p < 16) by (apply (Z.mod_pos_bound _ 16); lia).
  rewrite W42 by lia.
  pose proof (W_range 2 o p ltac:(unfold r4; lia)) as R.
  destruct (W 2 o p) as [[ci cj] o1]. destruct R as (Rci & Rcj & Ro1).
  change (2 ^ Z.of_nat 2) with 4 in *.
  rewrite face_ij_loop_ok; auto; change (nb 6) with 28%nat; change (Z.of_nat 28) with 28;
    change (2 ^ 28) with 268435456; change (2 ^ 31) with 2147483648; try lia.
Qed.

(** ** Encoding *)

Lemma from_face_ij_step k i j q o t : r4 o -> (k <= 7)%nat -> 0 <= i -> 0 <= j -> 0 <= q ->
  0 <= t -> Z.of_nat k * 8 + t <= 64 ->
  (let '(p, _) := V 4 o (i / 2 ^ (Z.of_nat k * 4) mod 16) (j / 2 ^ (Z.of_nat k * 4) mod 16) in p < 2 ^ t) ->
  from_face_ij_loop k i j (q * 2 ^ (Z.of_nat k * 8 + t)) o =
  let '(p, o') := V 4 o (i / 2 ^ (Z.of_nat k * 4) mod 16) (j / 2 ^ (Z.of_nat k * 4) mod 16) in
  let n := q * 2 ^ (Z.of_nat k * 8 + t) + p * 2 ^ (Z.of_nat k * 8) in
  match k with
  | O => Some n
  | S k' => from_face_ij_loop k' i j n o'
  end.
Proof.
  intros Ho Hk Hi Hj Hq Ht Htk Hp.
  set (kz := Z.of_nat k) in *. assert (Hkz : 0 <= kz <= 7) by (subst kz; lia).
  set (ci := i / 2 ^ (kz * 4) mod 16) in *. set (cj := j / 2 ^ (kz * 4) mod 16) in *.
  assert (Hci : 0 <= ci < 16) by (apply Z.mod_pos_bound; lia).
  assert (Hcj : 0 <= cj < 16) by (apply Z.mod_pos_bound; lia).
  pose proof (lookup_pos o ci cj Ho Hci Hcj) as EL.
  pose proof (V_range 4 o ci cj Ho) as R.
  assert (Eb : o + Z.shiftl (Z.land (Z.shiftr i (kz * LOOKUP_BITS)) (Z.shiftl 1 LOOKUP_BITS - 1)) (LOOKUP_BITS + 2)
     + Z.shiftl (Z.land (Z.shiftr j (kz * LOOKUP_BITS)) (Z.shiftl 1 LOOKUP_BITS - 1)) 2 = 4 * (16 * ci + cj) + o).
  { rewrite !land_mask by (unfold LOOKUP_BITS; lia). rewrite !Z.shiftr_div_pow2 by (unfold LOOKUP_BITS; lia).
    change (2 ^ LOOKUP_BITS) with 16. change LOOKUP_BITS with 4. fold ci cj.
    rewrite !Z.shiftl_mul_pow2 by lia. change (2 ^ (4 + 2)) with 64. change (2 ^ 2) with 4. lia. }
  destruct k as [| k']; cbn [from_face_ij_loop]; fold kz; rewrite Eb, EL;
    (destruct (V 4 o ci cj) as [p o']; destruct R as [Rp Ro'];
     destruct (decode p o' Ro') as [D1 D2]; rewrite D1; try rewrite D2;
     change LOOKUP_BITS with 4; replace (kz * 2 * 4) with (kz * 8) by lia;
     assert (P8 : 0 < 2 ^ (kz * 8)) by (apply Z.pow_pos_nonneg; lia);
     assert (HW : 0 <= p * 2 ^ (kz * 8) < 2 ^ (kz * 8 + t))
       by (rewrite Z.pow_add_r by lia; split; [apply Z.mul_nonneg_nonneg; lia |];
           rewrite Z.mul_comm; apply Z.mul_lt_mono_pos_l; lia);
     assert (H64 : 2 ^ (kz * 8 + t) <= 2 ^ 64) by (apply Z.pow_le_mono_r; lia);
     rewrite shl64_ok by lia;
     rewrite lor_disjoint by lia; reflexivity).
Qed.

Lemma from_face_ij_loop_ok k : forall i j q o, (k <= 7)%nat -> r4 o -> 0 <= i -> 0 <= j -> 0 <= q ->
  from_face_ij_loop k i j (q * 2 ^ (Z.of_nat k * 8 + 8)) o =
  let '(m, _) := V (nb k) o (i mod 2 ^ Z.of_nat (nb k)) (j mod 2 ^ Z.of_nat (nb k)) in
  Some (q * 2 ^ (Z.of_nat k * 8 + 8) + m).
Proof.
  induction k as [| k IH]; intros i j q o Hk Ho Hi Hj Hq.
  - rewrite from_face_ij_step; auto; try lia.
    + change (Z.of_nat 0 * 4) with 0. change (2 ^ 0) with 1. rewrite !Z.div_1_r.
      change (2 ^ Z.of_nat (nb 0)) with 16. change (nb 0) with 4%nat.
      destruct (V 4 o (i mod 16) (j mod 16)) as [m o']. change (Z.of_nat 0 * 8) with 0.
      change (2 ^ 0) with 1. rewrite Z.mul_1_r. reflexivity.
    + pose proof (V_range 4 o (i / 2 ^ (Z.of_nat 0 * 4) mod 16) (j / 2 ^ (Z.of_nat 0 * 4) mod 16) Ho) as R.
      destruct (V 4 o _ _) as [p ?]. apply R.
  - pose proof (V_range 4 o (i / 2 ^ (Z.of_nat (S k) * 4) mod 16) (j / 2 ^ (Z.of_nat (S k) * 4) mod 16) Ho) as R.
    rewrite from_face_ij_step; auto; try lia; [| destruct (V 4 o _ _) as [p ?]; apply R].
    rewrite nbS, V_app.
    pose proof (pow2pos (nb k)) as P2.
    replace (2 ^ Z.of_nat (nb k + 4)) with (2 ^ Z.of_nat (nb k) * 16)
      by (rewrite Nat2Z.inj_add, Z.pow_add_r by lia; reflexivity).
    rewrite !mod_mul_div, !mod_mul_mod by lia.
    replace (Z.of_nat (S k) * 4) with (Z.of_nat (nb k)) in * by (unfold nb; lia).
    destruct (V 4 o _ _) as [p o1]. destruct R as [Rp Ro1].
    replace (q * 2 ^ (Z.of_nat (S k) * 8 + 8) + p * 2 ^ (Z.of_nat (S k) * 8))
      with ((q * 256 + p) * 2 ^ (Z.of_nat k * 8 + 8)).
    2:{ rewrite (Z.pow_add_r 2 (Z.of_nat (S k) * 8) 8) by lia. change (2 ^ 8) with 256.
        replace (Z.of_nat k * 8 + 8) with (Z.of_nat (S k) * 8) by lia. ring. }
    rewrite IH by (auto; lia).
    destruct (V (nb k) o1 _ _) as [m o2]. f_equal.
    rewrite (Z.pow_add_r 2 (Z.of_nat (S k) * 8) 8) by lia. change (2 ^ 8) with 256.
    replace (Z.of_nat k * 8 + 8) with (Z.of_nat (S k) * 8) by lia.
    replace (4 ^ Z.of_nat (nb k)) with (2 ^ (Z.of_nat (S k) * 8)); [ring |].
    change 4 with (2 ^ 2). rewrite <- Z.pow_mul_r by lia. f_equal. unfold nb. lia.
Qed.

Lemma from_face_ij_ok f i j : 0 <= f < 8 -> 0 <= i < 2 ^ 30 -> 0 <= j < 2 ^ 30 ->
  from_face_ij f i j = Some (2 * (f * 4 ^ 30 + fst (V 30 (f mod 2) i j)) + 1).
Proof.
  intros Hf Hi Hj. unfold from_face_ij.
  assert (Ho : 0 <= f mod 2 < 2) by (apply Z.mod_pos_bound; lia).
  rewrite land_swap. change (POS_BITS - 1) with 60.
  rewrite shl64_ok by (change (2 ^ 60) with 1152921504606846976; change (2 ^ 64) with 18446744073709551616; lia).
  assert (D : forall i, 0 <= i < 2 ^ 30 -> 0 <= i / 2 ^ 28 < 4).
  { intros a Ha. split; [apply Z.div_pos; lia | apply Z.div_lt_upper_bound; lia]. }
  assert (E2 : forall a, 0 <= a < 2 ^ 30 -> a / 2 ^ 28 mod 16 = a / 2 ^ 28).
  { intros a Ha. apply Z.mod_small. specialize (D a Ha). lia. }
  change (f * 2 ^ 60) with (f * 2 ^ (Z.of_nat 7 * 8 + 4)).
  change (Z.of_nat 7 * 8 + 4) with 60.
  pose proof (V_range 2 (f mod 2) (i / 2 ^ 28) (j / 2 ^ 28) ltac:(unfold r4; lia)) as R.
  change (4 ^ Z.of_nat 2) with 16 in R.
  pose proof (from_face_ij_step 7 i j f (f mod 2) 4) as S.
  change (Z.of_nat 7 * 8 + 4) with 60 in S. change (Z.of_nat 7 * 4) with 28 in S.
  change (Z.of_nat 7 * 8) with 56 in S. change (2 ^ 4) with 16 in S.
  rewrite E2, E2, V42 in S by auto.
  rewrite S; [| unfold r4; lia | lia .. | destruct (V 2 _ _ _); apply R]. clear S.
  change 30%nat with (28 + 2)%nat. rewrite V_app. change (Z.of_nat 28) with 28.
  destruct (V 2 (f mod 2) (i / 2 ^ 28) (j / 2 ^ 28)) as [p o1]. destruct R as [Rp Ro1].
  replace (f * 2 ^ 60 + p * 2 ^ 56) with ((f * 16 + p) * 2 ^ (Z.of_nat 6 * 8 + 8)).
  2:{ change (2 ^ 60) with (16 * 2 ^ 56). change (Z.of_nat 6 * 8 + 8) with 56. ring. }
  rewrite from_face_ij_loop_ok by (auto; lia).
  change (nb 6) with 28%nat. change (Z.of_nat 28) with 28.
  pose proof (V_range 28 o1 (i mod 2 ^ 28) (j mod 2 ^ 28) Ro1) as R'.
  change (4 ^ Z.of_nat 28) with (4 ^ 28) in R'.
  destruct (V 28 o1 (i mod 2 ^ 28) (j mod 2 ^ 28)) as [m o2]. destruct R' as [Rm _]. cbn [fst].
  change (Z.of_nat 6 * 8 + 8) with 56. change (2 ^ 56) with 72057594037927936.
  change (4 ^ 28) with 72057594037927936 in *. change (4 ^ 30) with 1152921504606846976.
  unfold mul64, add64. change (2 ^ 64) with 18446744073709551616.
  set (n := _ + m). assert (Hn : 0 <= n < 8 * 1152921504606846976) by (subst n; lia).
  replace (n * 2 <? 18446744073709551616) with true by lia.
  replace (n * 2 + 1 <? 18446744073709551616) with true by lia.
  f_equal. subst n. ring.
Qed.
