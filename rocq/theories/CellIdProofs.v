(** Proofs about the CellID model (properties C01-C13, C18, C19, C57). *)
From Verif Require Import Base Spec CellIdModel CellIdArith.
From Coq Require Import Sorted.

(** ** C01 *)

Lemma face_small x : 0 <= x < 2 ^ 64 -> face x = x / 2 ^ 61.
Proof.
  intros Hx. unfold face, POS_BITS, MAX_LEVEL. rewrite Z.shiftr_div_pow2 by lia.
  change (2 * 30 + 1) with 61. rewrite Z.mod_small; [reflexivity|].
  split; [apply Z.div_pos; lia|]. apply Z.div_lt_upper_bound; lia.
Qed.

Lemma mask_test j : 0 <= j < 64 ->
  (negb (Z.land (2 ^ j) 0x1555555555555555 =? 0) = true <-> j mod 2 = 0 /\ j <= 60).
Proof.
  intros Hj.
  assert (A : forallb (fun n => let j := Z.of_nat n in
      Bool.eqb (negb (Z.land (2 ^ j) 0x1555555555555555 =? 0))
               ((j mod 2 =? 0) && (j <=? 60))) (seq 0 64) = true)
    by (vm_compute; reflexivity).
  rewrite forallb_forall in A.
  specialize (A (Z.to_nat j)). cbv beta zeta in A.
  rewrite Z2Nat.id in A by lia.
  assert (I : In (Z.to_nat j) (seq 0 64)) by (apply in_seq; lia).
  apply A in I. apply Bool.eqb_prop in I. rewrite I.
  rewrite andb_true_iff, Z.eqb_eq, Z.leb_le. reflexivity.
Qed.

Lemma is_valid_correct x : 0 <= x < 2 ^ 64 -> x <> 2 ^ 63 ->
  exists b, is_valid x = Some b /\ (b = true <-> valid_id x).
Proof.
  intros Hx Hn. unfold is_valid. rewrite face_small by lia. unfold NUM_FACES.
  destruct (Z.ltb_spec (x / 2 ^ 61) 6) as [F|F].
  - assert (Hx6 : x < 6 * 2 ^ 61).
    { rewrite (Z.div_mod x (2 ^ 61)) by lia. pose proof (Z.mod_pos_bound x (2 ^ 61)). lia. }
    destruct (Z.eq_dec x 0) as [->|Hx0].
    + exists false. split; [reflexivity|]. split; [discriminate|].
      intros (c & Hc & E). pose proof (code_bounds c Hc). lia.
    + destruct (odd_part x) as (a & j & Ha & Hj & E); [lia|].
      assert (Hj63 : j < 63).
      { destruct (Z.lt_ge_cases j 63) as [|G]; [assumption|exfalso].
        pose proof (pow2_mono 63 j ltac:(lia)).
        destruct (Z.eq_dec j 63) as [->|].
        - apply Hn. assert (a = 0) by nia. subst. reflexivity.
        - pose proof (pow2_mono 64 j ltac:(lia)). nia. }
      rewrite E in *. rewrite lsb_odd_part by lia.
      eexists; split; [reflexivity|].
      rewrite mask_test by lia. split.
      * intros [M L]. pose (h := j / 2).
        assert (Ej : j = 2 * h) by (unfold h; pose proof (Z.div_mod j 2); lia).
        exists (Cell (30 - h) a). split.
        -- split; cbn; [lia|]. split; [lia|].
           rewrite Ej, <- pow4_2 in Hx6 by lia.
           pose proof (pow4_split 30 h ltac:(lia)) as S. rewrite pow4_30 in S.
           pose proof (pow4_pos h ltac:(lia)). pose proof (pow4_pos (30 - h) ltac:(lia)). nia.
        -- unfold code; cbn. rewrite Ej, <- pow4_2 by lia. do 2 f_equal. lia.
      * intros (c & Hc & Ec). rewrite code_odd_part in Ec by assumption.
        destruct Hc as [Hc _]. apply odd_pow_inj in Ec; lia.
  - exists false. split; [reflexivity|]. split; [discriminate|].
    intros (c & Hc & ->). pose proof (code_bounds c Hc).
    assert (code c / 2 ^ 61 < 6) by (apply Z.div_lt_upper_bound; lia). lia.
Qed.

Lemma bits_val_app l1 : forall acc l2, bits_val acc (l1 ++ l2) = bits_val (bits_val acc l1) l2.
Proof. induction l1 as [|b l1 IH]; intros; cbn; auto. Qed.

Lemma bits_val_zeros n : forall acc, bits_val acc (repeat false n) = acc * 2 ^ Z.of_nat n.
Proof.
  induction n as [|n IH]; intros; cbn [repeat bits_val].
  - cbn. rewrite Z.pow_0_r. lia.
  - rewrite IH. rewrite Nat2Z.inj_succ, Z.pow_succ_r by lia. lia.
Qed.

Fixpoint digits_val (acc : Z) (ds : list Z) : Z :=
  match ds with [] => acc | d :: ds' => digits_val (4 * acc + d) ds' end.

Lemma bits_val_digits ds : Forall (fun d => 0 <= d < 4) ds -> forall acc,
  bits_val acc (flat_map (fun d => [bit d 1; bit d 0]) ds) = digits_val acc ds.
Proof.
  induction 1 as [|d ds Hd _ IH]; intros acc; [reflexivity|].
  cbn [flat_map app bits_val digits_val]. rewrite IH. f_equal.
  assert (E : 2 * (if bit d 1 then 1 else 0) + (if bit d 0 then 1 else 0) = d).
  { assert (d = 0 \/ d = 1 \/ d = 2 \/ d = 3) as [-> | [-> | [-> | ->]]] by lia; reflexivity. }
  revert E. generalize (if bit d 1 then 1 else 0), (if bit d 0 then 1 else 0). lia.
Qed.

Lemma digits_val_bounds ds : Forall (fun d => 0 <= d < 4) ds -> forall acc,
  acc * 4 ^ Z.of_nat (length ds) <= digits_val acc ds < (acc + 1) * 4 ^ Z.of_nat (length ds).
Proof.
  induction 1 as [|d ds Hd _ IH]; intros acc; cbn [length digits_val].
  - cbn. rewrite Z.pow_0_r. lia.
  - specialize (IH (4 * acc + d)).
    rewrite Nat2Z.inj_succ, Z.pow_succ_r by lia.
    pose proof (pow4_pos (Z.of_nat (length ds)) ltac:(lia)). nia.
Qed.

Lemma digits_val_app ds d : forall acc, digits_val acc (ds ++ [d]) = 4 * digits_val acc ds + d.
Proof. induction ds as [|e ds IH]; intros; cbn; auto. Qed.

Lemma digits_exist (k : nat) : forall n f, f * 4 ^ Z.of_nat k <= n < (f + 1) * 4 ^ Z.of_nat k ->
  exists ds, length ds = k /\ Forall (fun d => 0 <= d < 4) ds /\ digits_val f ds = n.
Proof.
  induction k as [|k IH]; intros n f H.
  - cbn in H. rewrite Z.pow_0_r in H. exists []. repeat split; auto. cbn. lia.
  - rewrite Nat2Z.inj_succ, Z.pow_succ_r in H by lia.
    destruct (IH (n / 4) f) as (ds & L & Fd & V).
    { pose proof (Z.div_mod n 4 ltac:(lia)). pose proof (Z.mod_pos_bound n 4 ltac:(lia)). nia. }
    exists (ds ++ [n mod 4]). rewrite app_length; cbn. split; [lia|]. split.
    + apply Forall_app; split; [assumption|]. constructor; [|constructor].
      apply Z.mod_pos_bound; lia.
    + rewrite digits_val_app, V. pose proof (Z.div_mod n 4 ltac:(lia)). lia.
Qed.

Lemma doc_bits_val f ds : 0 <= f < 6 -> Forall (fun d => 0 <= d < 4) ds -> (length ds <= 30)%nat ->
  bits_val 0 (doc_bits f ds) = code (Cell (Z.of_nat (length ds)) (digits_val f ds)).
Proof.
  intros Hf Hd Hl. unfold doc_bits. rewrite !bits_val_app, bits_val_digits, bits_val_zeros by assumption.
  assert (bits_val 0 [bit f 2; bit f 1; bit f 0] = f) as ->.
  { assert (f = 0 \/ f = 1 \/ f = 2 \/ f = 3 \/ f = 4 \/ f = 5) as E by lia.
    repeat destruct E as [->|E]; subst; reflexivity. }
  cbn [bits_val]. unfold code; cbn [ix lv]. rewrite pow4_2 by lia.
  do 2 f_equal. lia.
Qed.

Lemma valid_id_documented x : valid_id x <-> documented_id x.
Proof.
  split.
  - intros (c & [Hl Hi] & ->).
    set (f := face_of c).
    pose proof (pow4_pos (lv c) ltac:(lia)) as HP.
    assert (Hf : f * 4 ^ lv c <= ix c < (f + 1) * 4 ^ lv c).
    { unfold f, face_of. pose proof (Z.div_mod (ix c) (4 ^ lv c) ltac:(lia)).
      pose proof (Z.mod_pos_bound (ix c) (4 ^ lv c) ltac:(lia)). nia. }
    destruct (digits_exist (Z.to_nat (lv c)) (ix c) f) as (ds & L & Fd & V).
    { rewrite Z2Nat.id by lia. exact Hf. }
    exists f, ds. split; [nia|]. split; [assumption|]. split; [lia|].
    rewrite doc_bits_val by (try assumption; try nia; lia).
    rewrite L, V, Z2Nat.id by lia. destruct c; reflexivity.
  - intros (f & ds & Hf & Hd & Hl & ->). rewrite doc_bits_val by assumption.
    eexists; split; [|reflexivity].
    pose proof (digits_val_bounds ds Hd f).
    pose proof (pow4_pos (Z.of_nat (length ds)) ltac:(lia)).
    split; cbn; nia.
Qed.

(** ** C02 *)

Lemma face_code c : wf c -> face (code c) = face_of c.
Proof.
  intros H. pose proof (code_bounds c H). rewrite face_small by lia.
  change (2 ^ 61) with (2 * 4 ^ (30 - 0)).
  rewrite code_div by (auto; destruct H; lia). unfold face_of. do 2 f_equal. lia.
Qed.

Lemma pos_code c : wf c -> pos (code c) = code c mod 2 ^ 61.
Proof.
  intros H. unfold pos, not64, FACE_BITS.
  change (Z.shiftr (2 ^ 64 - 1 - 0) 3) with (Z.ones 61).
  rewrite Z.land_ones by lia. reflexivity.
Qed.

Lemma is_leaf_code c : wf c -> is_leaf (code c) = (lv c =? 30).
Proof.
  intros [H _]. unfold is_leaf.
  change 1 with (Z.ones 1) at 1. rewrite Z.land_ones by lia.
  unfold code. destruct (Z.eqb_spec (lv c) 30) as [->|N].
  - change (30 - 30) with 0. rewrite Z.pow_0_r.
    replace ((2 * ix c + 1) * 1) with (1 + ix c * 2 ^ 1) by lia.
    rewrite Z.mod_add by lia. reflexivity.
  - replace (30 - lv c) with ((29 - lv c) + 1) by lia. rewrite pow4_succ by lia.
    replace ((2 * ix c + 1) * (4 * 4 ^ (29 - lv c)))
      with ((2 * ix c + 1) * (2 * 4 ^ (29 - lv c)) * 2 ^ 1) by lia.
    rewrite Z.mod_mul by lia. reflexivity.
Qed.

Lemma is_face_code c : wf c -> is_face (code c) = Some (lv c =? 0).
Proof.
  intros H. unfold is_face. rewrite lsb_for_level_ok by lia.
  rewrite sub64_ok by (change (30 - 0) with 30; rewrite pow4_30; lia).
  f_equal. change (4 ^ (30 - 0) - 1) with (Z.ones 60). rewrite Z.land_ones by lia.
  destruct H as [H _]. unfold code.
  change (2 ^ 60) with (4 ^ 30). rewrite (pow4_split 30 (30 - lv c)) by lia.
  replace (30 - (30 - lv c)) with (lv c) by lia.
  pose proof (pow4_pos (30 - lv c) ltac:(lia)).
  pose proof (pow4_pos (lv c) ltac:(lia)).
  rewrite Z.mul_mod_distr_r by lia.
  destruct (Z.eqb_spec (lv c) 0) as [->|N].
  - rewrite Z.pow_0_r, Z.mod_1_r. reflexivity.
  - apply Z.eqb_neq. replace (lv c) with ((lv c - 1) + 1) by lia.
    rewrite pow4_succ by lia. intros E. apply Z.mul_eq_0 in E. destruct E as [E|E].
    + apply Z.mod_divide in E; [|pose proof (pow4_pos (lv c - 1)); lia].
      destruct E as [q E]. lia.
    + replace (lv c - 1 + 1) with (lv c) in E by lia. lia.
Qed.

Lemma shift_amount_code c : wf c ->
  sub64 MAX_LEVEL (lv c) = Some (30 - lv c).
Proof. intros [H _]. apply sub64_ok. unfold MAX_LEVEL. lia. Qed.

Lemma shr_code c L : wf c -> 0 <= L <= lv c ->
  shr64 (code c) (2 * (30 - L) + 1) = Some (ix c / 4 ^ (lv c - L)).
Proof.
  intros H HL. destruct (H) as [Hl _].
  rewrite shr64_ok by lia. rewrite <- code_div by assumption.
  rewrite Z.pow_add_r, <- pow4_2 by lia. do 2 f_equal. lia.
Qed.

Lemma distance_code c : wf c -> distance_from_begin (code c) = Some (ix c).
Proof.
  intros H. unfold distance_from_begin.
  rewrite level_code, shift_amount_code by assumption.
  destruct (H) as [Hl Hi]. rewrite shr_code by (auto; lia).
  rewrite Z.sub_diag, Z.pow_0_r, Z.div_1_r. f_equal. unfold as_i64.
  pose proof (pow4_mono (lv c) 30). rewrite pow4_30 in *.
  destruct (Z.ltb_spec (ix c) (2 ^ 63)); lia.
Qed.

Lemma child_position_code c k : wf c -> 1 <= k <= lv c ->
  child_position (code c) k = Some (ix (anc k c) mod 4).
Proof.
  intros H Hk. unfold child_position. destruct (H) as [Hl Hi].
  rewrite sub64_ok by (unfold MAX_LEVEL; lia). unfold MAX_LEVEL.
  rewrite shr_code by (auto; lia). f_equal.
  change 3 with (Z.ones 2). rewrite Z.land_ones by lia. reflexivity.
Qed.

(** ** C03 *)

Lemma anc_self c : anc (lv c) c = c.
Proof. unfold anc. rewrite Z.sub_diag, Z.pow_0_r, Z.div_1_r. destruct c; reflexivity. Qed.

Lemma anc_anc c L L' : 0 <= L' <= L -> L <= lv c -> anc L' (anc L c) = anc L' c.
Proof.
  intros. unfold anc; cbn. f_equal.
  pose proof (pow4_pos (lv c - L) ltac:(lia)). pose proof (pow4_pos (L - L') ltac:(lia)).
  rewrite Z.div_div by lia. rewrite <- pow4_add by lia. do 2 f_equal. lia.
Qed.

Lemma anc_is_ancestor c L : 0 <= L <= lv c -> ancestor_or_self (anc L c) c.
Proof. intros. split; cbn; [lia|reflexivity]. Qed.

(** ** C04 *)

Lemma wf_child c k : wf c -> lv c < 30 -> 0 <= k < 4 -> wf (child c k).
Proof.
  intros [Hl Hi] L Hk. unfold wf, child; cbn. rewrite pow4_succ by lia. lia.
Qed.

Lemma code_child c k : wf c -> lv c < 30 ->
  code (child c k) = code c - 4 ^ (30 - lv c) + (2 * k + 1) * 4 ^ (29 - lv c).
Proof.
  intros [Hl Hi] L. unfold code, child; cbn [ix lv].
  replace (30 - lv c) with ((29 - lv c) + 1) by lia. rewrite pow4_succ by lia.
  replace (30 - (lv c + 1)) with (29 - lv c) by lia. lia.
Qed.

Lemma anc_child c k : 0 <= lv c -> 0 <= k < 4 -> anc (lv c) (child c k) = c.
Proof.
  intros H Hk. unfold anc, child; cbn. replace (lv c + 1 - lv c) with 1 by lia.
  rewrite Z.pow_1_r. destruct c as [L n]; cbn. f_equal.
  rewrite Z.mul_comm, Z.div_add_l by lia. rewrite Z.div_small; lia.
Qed.

Lemma shr_pow4 k n : 0 < k -> n = 1 \/ n = 2 ->
  Z.shiftr (4 ^ k) n = (if n =? 1 then 2 else 1) * 4 ^ (k - 1).
Proof.
  intros Hk Hn. replace k with ((k - 1) + 1) at 1 by lia. rewrite pow4_succ by lia.
  rewrite Z.shiftr_div_pow2 by lia.
  destruct Hn as [-> | ->]; cbn.
  - change (2 ^ 1) with 2. replace (4 * 4 ^ (k - 1)) with (2 * 4 ^ (k - 1) * 2) by lia.
    apply Z.div_mul; lia.
  - change (2 ^ 2) with 4. replace (4 * 4 ^ (k - 1)) with (1 * 4 ^ (k - 1) * 4) by lia.
    apply Z.div_mul; lia.
Qed.

Lemma children_code c : wf c -> lv c < 30 ->
  children (code c) = Some (code (child c 0), code (child c 1), code (child c 2), code (child c 3)).
Proof.
  intros H L. unfold children. rewrite lsb_code by assumption.
  pose proof (code_range c H) as [R1 R2].
  rewrite !shr_pow4 by (auto; destruct H; lia). cbn [Z.eqb Pos.eqb].
  rewrite !code_child by assumption.
  replace (30 - lv c - 1) with (29 - lv c) by lia.
  assert (4 ^ (30 - lv c) = 4 * 4 ^ (29 - lv c)) as E.
  { rewrite <- pow4_succ by (destruct H; lia). f_equal; lia. }
  pose proof (pow4_pos (29 - lv c) ltac:(destruct H; lia)).
  rewrite sub64_ok by lia.
  rewrite add64_ok by lia.
  rewrite add64_ok by lia.
  rewrite add64_ok by lia.
  rewrite add64_ok by lia.
  apply f_equal. repeat apply (f_equal2 pair); lia.
Qed.

Lemma children_leaf c : wf c -> lv c = 30 ->
  children (code c) = Some (code c - 1, code c - 1, code c - 1, code c - 1).
Proof.
  intros H L. unfold children. rewrite lsb_code by assumption. rewrite L.
  change (30 - 30) with 0. rewrite Z.pow_0_r. pose proof (code_bounds c H).
  change (Z.shiftr 1 2) with 0. change (Z.shiftr 1 1) with 0.
  rewrite sub64_ok by lia.
  rewrite add64_ok by lia. rewrite Z.add_0_r. rewrite add64_ok by lia. rewrite Z.add_0_r.
  rewrite add64_ok by lia. rewrite Z.add_0_r. rewrite add64_ok by lia. rewrite Z.add_0_r. reflexivity.
Qed.

Lemma leaves_child c k m : wf c -> lv c < 30 ->
  (leaves (child c k) m <->
   (4 * ix c + k) * 4 ^ (29 - lv c) <= m < (4 * ix c + k + 1) * 4 ^ (29 - lv c)).
Proof.
  intros H L. unfold leaves, child; cbn. replace (30 - (lv c + 1)) with (29 - lv c) by lia.
  reflexivity.
Qed.

Lemma children_partition c m : wf c -> lv c < 30 ->
  (leaves c m <-> exists k, 0 <= k < 4 /\ leaves (child c k) m).
Proof.
  intros H L. pose proof (pow4_pos (29 - lv c) ltac:(destruct H; lia)).
  assert (4 ^ (30 - lv c) = 4 * 4 ^ (29 - lv c)) as E.
  { rewrite <- pow4_succ by (destruct H; lia). f_equal; lia. }
  unfold leaves at 1. rewrite E. split.
  - intros Hm.
    exists (m / 4 ^ (29 - lv c) - 4 * ix c). rewrite leaves_child by assumption.
    set (P := 4 ^ (29 - lv c)) in *.
    pose proof (Z.div_mod m P ltac:(lia)). pose proof (Z.mod_pos_bound m P ltac:(lia)).
    assert (4 * ix c <= m / P) by (apply Z.div_le_lower_bound; lia).
    assert (m / P < 4 * ix c + 4) by (apply Z.div_lt_upper_bound; lia).
    split; [lia|]. nia.
  - intros (k & Hk & Hm). rewrite leaves_child in Hm by assumption. nia.
Qed.

Lemma children_disjoint c j k m : wf c -> lv c < 30 ->
  leaves (child c j) m -> leaves (child c k) m -> j = k.
Proof.
  intros H L A B. rewrite leaves_child in A, B by assumption.
  pose proof (pow4_pos (29 - lv c) ltac:(destruct H; lia)). nia.
Qed.

(** ** C05 *)

Lemma next_code c : wf c -> next (code c) = Some (code (Cell (lv c) (ix c + 1))).
Proof.
  intros H. unfold next. rewrite lsb_code by assumption.
  pose proof (code_range c H). pose proof (pow4_pos (30 - lv c) ltac:(destruct H; lia)).
  pose proof (pow4_mono (30 - lv c) 30 ltac:(destruct H; lia)). rewrite pow4_30 in *.
  rewrite shl64_ok by lia. unfold wadd64. f_equal.
  rewrite Z.mod_small by lia. unfold code; cbn. lia.
Qed.

Lemma iter_collect_run L : 0 <= L <= 30 -> forall k fuel n,
  0 <= n -> n + Z.of_nat k <= 6 * 4 ^ L -> (k <= fuel)%nat ->
  iter_collect fuel (code (Cell L n)) (code (Cell L (n + Z.of_nat k)))
  = Some (map (fun i => code (Cell L (n + Z.of_nat i))) (seq 0 k)).
Proof.
  intros HL. pose proof (pow4_pos (30 - L) ltac:(lia)).
  induction k as [|k IH]; intros fuel n Hn Hk Hf.
  - replace (n + Z.of_nat 0) with n by lia. destruct fuel; cbn; rewrite Z.eqb_refl; reflexivity.
  - destruct fuel as [|fuel]; [lia|]. cbn [iter_collect].
    destruct (Z.eqb_spec (code (Cell L n)) (code (Cell L (n + Z.of_nat (S k))))) as [E|_].
    { unfold code in E; cbn in E. nia. }
    rewrite next_code by (split; cbn; lia). cbn [lv ix].
    replace (n + Z.of_nat (S k)) with (n + 1 + Z.of_nat k) by lia.
    rewrite IH by lia. cbn [seq map]. do 2 f_equal.
    + do 2 f_equal. lia.
    + rewrite <- seq_shift, map_map. apply map_ext. intros i. do 2 f_equal. lia.
Qed.

Lemma sorted_map_code L n k : 0 <= L <= 30 -> forall s,
  StronglySorted Z.lt (map (fun i => code (Cell L (n + Z.of_nat i))) (seq s k)).
Proof.
  intros HL. pose proof (pow4_pos (30 - L) ltac:(lia)).
  induction k as [|k IH]; intros s; cbn [seq map]; constructor; [apply IH|].
  rewrite Forall_forall. intros x Hx. apply in_map_iff in Hx.
  destruct Hx as (i & <- & Hi). apply in_seq in Hi. unfold code; cbn. nia.
Qed.

Lemma child_iter_at_level_code c L fuel : wf c -> lv c <= L <= 30 ->
  (Z.to_nat (4 ^ (L - lv c)) <= fuel)%nat ->
  child_iter_at_level fuel (code c) L =
  Some (map (fun i => code (Cell L (ix c * 4 ^ (L - lv c) + Z.of_nat i)))
            (seq 0 (Z.to_nat (4 ^ (L - lv c))))).
Proof.
  intros H HL Hf. unfold child_iter_at_level, child_begin_at_level, child_end_at_level.
  rewrite level_code, lsb_code, lsb_for_level_ok by (auto; destruct H; lia).
  destruct (Z.leb_spec (lv c) L); [|lia].
  pose proof (code_range c H) as [R1 R2].
  pose proof (pow4_mono (30 - L) 30 ltac:(destruct H; lia)) as M1.
  pose proof (pow4_mono (30 - lv c) 30 ltac:(destruct H; lia)) as M2. rewrite pow4_30 in *.
  rewrite sub64_ok by lia. rewrite add64_ok by lia. rewrite add64_ok by lia.
  rewrite add64_ok by lia.
  destruct (H) as [Hl Hi].
  set (D := 4 ^ (L - lv c)) in *. set (P := 4 ^ (30 - L)) in *.
  assert (EP : 4 ^ (30 - lv c) = D * P).
  { unfold D, P. rewrite <- pow4_add by lia. f_equal; lia. }
  assert (0 < D) by (apply pow4_pos; lia).
  assert (EN : 4 ^ L = 4 ^ lv c * D).
  { unfold D. rewrite <- pow4_add by lia. f_equal; lia. }
  rewrite <- (iter_collect_run L ltac:(lia) (Z.to_nat D) fuel (ix c * D)); [| |rewrite EN|]; try nia.
  f_equal.
  - unfold code; cbn [ix lv]. fold P. rewrite EP. lia.
  - unfold code; cbn [ix lv]. fold P. rewrite EP. rewrite Z2Nat.id by lia. lia.
Qed.

Lemma descendants_mem c L x : wf c -> lv c <= L <= 30 ->
  (In x (map (fun i => code (Cell L (ix c * 4 ^ (L - lv c) + Z.of_nat i)))
            (seq 0 (Z.to_nat (4 ^ (L - lv c)))))
   <-> exists d, wf d /\ lv d = L /\ ancestor_or_self c d /\ x = code d).
Proof.
  intros H HL. destruct (H) as [Hl Hi]. rewrite in_map_iff.
  set (D := 4 ^ (L - lv c)) in *.
  assert (0 < D) by (apply pow4_pos; lia).
  assert (EN : 4 ^ L = 4 ^ lv c * D).
  { unfold D. rewrite <- pow4_add by lia. f_equal; lia. }
  split.
  - intros (i & <- & I). apply in_seq in I.
    exists (Cell L (ix c * D + Z.of_nat i)). repeat split; cbn; try lia; try nia.
    + unfold anc; cbn. fold D. destruct c as [Lc n]; cbn. f_equal.
      rewrite Z.div_add_l by lia. rewrite Z.div_small; lia.
  - intros (d & Hd & <- & [_ A] & ->).
    exists (Z.to_nat (ix d - ix c * D)).
    assert (E : ix c = ix d / D) by (rewrite <- A at 1; reflexivity).
    pose proof (Z.div_mod (ix d) D ltac:(lia)). pose proof (Z.mod_pos_bound (ix d) D ltac:(lia)).
    split.
    + rewrite Z2Nat.id by nia. destruct d as [Ld nd]; cbn [lv ix] in *. do 2 f_equal. lia.
    + apply in_seq. nia.
Qed.

Lemma child_iter_at_level_correct c L fuel : wf c -> lv c <= L <= 30 ->
  (Z.to_nat (4 ^ (L - lv c)) <= fuel)%nat ->
  exists l, child_iter_at_level fuel (code c) L = Some l /\
    Z.of_nat (length l) = 4 ^ (L - lv c) /\
    StronglySorted Z.lt l /\
    (forall x, In x l <-> exists d, wf d /\ lv d = L /\ ancestor_or_self c d /\ x = code d).
Proof.
  intros H HL Hf. eexists. split; [apply child_iter_at_level_code; assumption|].
  split; [|split].
  - rewrite map_length, seq_length, Z2Nat.id; [reflexivity|].
    pose proof (pow4_pos (L - lv c)). lia.
  - apply sorted_map_code. destruct H; lia.
  - intros x. apply descendants_mem; assumption.
Qed.

Lemma child_iter_at_level_assert c L fuel : wf c -> L < lv c ->
  child_iter_at_level fuel (code c) L = None.
Proof.
  intros H HL. unfold child_iter_at_level, child_begin_at_level.
  rewrite level_code by assumption. destruct (Z.leb_spec (lv c) L); [lia|reflexivity].
Qed.

Lemma child_iter_code c fuel : wf c -> lv c < 30 -> (4 <= fuel)%nat ->
  child_iter fuel (code c)
  = Some [code (child c 0); code (child c 1); code (child c 2); code (child c 3)].
Proof.
  intros H L Hf. unfold child_iter, child_begin, child_end.
  rewrite lsb_code by assumption.
  rewrite shr_pow4 by (auto; destruct H; lia). cbn [Z.eqb Pos.eqb].
  assert (E : 4 ^ (30 - lv c) = 4 * 4 ^ (29 - lv c)).
  { destruct H. rewrite <- pow4_succ by lia. f_equal. lia. }
  replace (30 - lv c - 1) with (29 - lv c) by lia.
  pose proof (code_range c H) as [R1 R2].
  pose proof (pow4_mono (30 - lv c) 30 ltac:(destruct H; lia)). rewrite pow4_30 in *.
  pose proof (pow4_pos (29 - lv c) ltac:(destruct H; lia)).
  rewrite sub64_ok by lia. rewrite add64_ok by lia. rewrite add64_ok by lia.
  rewrite add64_ok by lia.
  pose proof (iter_collect_run (lv c + 1) ltac:(destruct H; lia) 4 fuel (4 * ix c)) as R.
  cbn [seq map] in R.
  replace (code c - 4 ^ (30 - lv c) + 1 * 4 ^ (29 - lv c)) with (code (Cell (lv c + 1) (4 * ix c)))
    by (change (Cell (lv c + 1) (4 * ix c)) with (Cell (lv c + 1) (4 * ix c));
        unfold code; cbn [ix lv]; rewrite E; replace (30 - (lv c + 1)) with (29 - lv c) by lia; lia).
  replace (code c + 4 ^ (30 - lv c) + 1 * 4 ^ (29 - lv c))
    with (code (Cell (lv c + 1) (4 * ix c + Z.of_nat 4)))
    by (unfold code; cbn [ix lv]; rewrite E; replace (30 - (lv c + 1)) with (29 - lv c) by lia; lia).
  rewrite R.
  - reflexivity.
  - destruct H; lia.
  - destruct H. rewrite pow4_succ by lia. lia.
  - assumption.
Qed.

(** ** C06, C07, C08, C18 *)

Lemma ancestor_antisym a b : ancestor_or_self a b -> ancestor_or_self b a -> a = b.
Proof.
  intros [L1 E1] [L2 E2]. assert (lv a = lv b) as E by lia.
  rewrite E in E1. rewrite anc_self in E1. congruence.
Qed.

Lemma ancestor_trans a b c : 0 <= lv a -> ancestor_or_self a b -> ancestor_or_self b c -> ancestor_or_self a c.
Proof.
  intros Ha [L1 E1] [L2 E2]. split; [lia|]. rewrite <- E2 in E1. rewrite anc_anc in E1 by lia. assumption.
Qed.

Lemma not_intersecting_ordered a b : wf a -> wf b ->
  (forall m, leaves a m -> leaves b m -> False) ->
  (ix a + 1) * 4 ^ (30 - lv a) <= ix b * 4 ^ (30 - lv b) \/
  (ix b + 1) * 4 ^ (30 - lv b) <= ix a * 4 ^ (30 - lv a).
Proof.
  intros Ha Hb N.
  destruct (wf_data a Ha) as (P & Q & EP & _ & HP & HQ & E & Hi & _).
  destruct (wf_data b Hb) as (P' & Q' & EP' & _ & HP' & HQ' & E' & Hi' & _).
  unfold leaves in N. rewrite <- EP, <- EP' in *.
  destruct (Z_le_dec ((ix a + 1) * P) (ix b * P')); [auto|].
  destruct (Z_le_dec ((ix b + 1) * P') (ix a * P)); [auto|].
  exfalso. apply (N (Z.max (ix a * P) (ix b * P'))); nia.
Qed.

Lemma disjoint_order a b : wf a -> wf b ->
  (forall m, leaves a m -> leaves b m -> False) ->
  (code a < code b <-> forall m m', leaves a m -> leaves b m' -> m < m').
Proof.
  intros Ha Hb N. pose proof (not_intersecting_ordered a b Ha Hb N) as O. clear N.
  pose proof (leaves_nonempty a Ha) as Na. pose proof (leaves_nonempty b Hb) as Nb.
  pose proof (pow4_pos (30 - lv a) ltac:(destruct Ha; lia)).
  pose proof (pow4_pos (30 - lv b) ltac:(destruct Hb; lia)).
  unfold leaves, code in *. set (P := 4 ^ (30 - lv a)) in *. set (P' := 4 ^ (30 - lv b)) in *.
  split.
  - intros Lt m m' A B. nia.
  - intros I. pose proof (I _ _ Na Nb). nia.
Qed.

(** ** C09, C10 *)

Lemma prev_code c : wf c -> 0 < ix c -> prev (code c) = Some (code (Cell (lv c) (ix c - 1))).
Proof.
  intros H Hi. unfold prev. rewrite lsb_code by assumption.
  pose proof (code_range c H). pose proof (pow4_pos (30 - lv c) ltac:(destruct H; lia)).
  pose proof (pow4_mono (30 - lv c) 30 ltac:(destruct H; lia)). rewrite pow4_30 in *.
  rewrite shl64_ok by lia. unfold wsub64. f_equal.
  assert (E : code c - 4 ^ (30 - lv c) * 2 ^ 1 = code (Cell (lv c) (ix c - 1)))
    by (unfold code; cbn; lia).
  rewrite E. apply Z.mod_small. unfold code; cbn. unfold code in *. nia.
Qed.

Lemma odd_part_lt j a x : 0 <= x < 2 ^ 64 -> x <> 2 ^ 63 -> 0 <= a -> 0 <= j ->
  x = (2 * a + 1) * 2 ^ j -> j < 63.
Proof.
  intros Hx Hn Ha Hj E.
  destruct (Z.lt_ge_cases j 63) as [|G]; [assumption|exfalso].
  pose proof (pow2_mono 63 j ltac:(lia)).
  destruct (Z.eq_dec j 63) as [->|].
  - apply Hn. assert (a = 0) by nia. subst. reflexivity.
  - pose proof (pow2_mono 64 j ltac:(lia)). nia.
Qed.

(* adding an even multiple of 2^j modulo 2^64 keeps the lsb *)
Lemma lsb_shift_mod a j d : 0 <= a -> 0 <= j < 63 ->
  lsb ((((2 * a + 1) * 2 ^ j) + d * 2 ^ (j + 1)) mod 2 ^ 64) = Some (2 ^ j).
Proof.
  intros Ha Hj. pose proof (pow2_pos j ltac:(lia)).
  assert (E : ((2 * a + 1) * 2 ^ j + d * 2 ^ (j + 1)) mod 2 ^ 64
          = (2 * ((a + d) mod 2 ^ (63 - j)) + 1) * 2 ^ j).
  { replace (2 ^ 64) with (2 ^ (64 - j) * 2 ^ j) by (rewrite <- Z.pow_add_r by lia; f_equal; lia).
    rewrite Z.pow_add_r by lia. change (2 ^ 1) with 2.
    replace ((2 * a + 1) * 2 ^ j + d * (2 ^ j * 2)) with ((2 * (a + d) + 1) * 2 ^ j) by lia.
    pose proof (pow2_pos (64 - j) ltac:(lia)). pose proof (pow2_pos (63 - j) ltac:(lia)).
    rewrite Z.mul_mod_distr_r by lia. f_equal.
    replace (64 - j) with (63 - j + 1) by lia. rewrite Z.pow_add_r by lia. change (2 ^ 1) with 2.
    symmetry. apply (Z.mod_unique_pos _ _ ((a + d) / 2 ^ (63 - j))).
    - pose proof (Z.mod_pos_bound (a + d) (2 ^ (63 - j)) ltac:(lia)). lia.
    - pose proof (Z.div_mod (a + d) (2 ^ (63 - j)) ltac:(lia)). lia. }
  pose proof (Z.mod_pos_bound ((2 * a + 1) * 2 ^ j + d * 2 ^ (j + 1)) (2 ^ 64) ltac:(lia)) as B.
  rewrite E in *. apply lsb_odd_part; lia.
Qed.

Lemma next_prev_inverse x : 0 <= x < 2 ^ 64 -> x <> 2 ^ 63 ->
  (exists y, next x = Some y /\ 0 <= y < 2 ^ 64 /\ prev y = Some x) /\
  (exists y, prev x = Some y /\ 0 <= y < 2 ^ 64 /\ next y = Some x).
Proof.
  intros Hx Hn. destruct (Z.eq_dec x 0) as [->|Hx0].
  { split; exists 0; repeat split; reflexivity. }
  destruct (odd_part x) as (a & j & Ha & Hj & E); [lia|].
  pose proof (odd_part_lt j a x Hx Hn Ha Hj E) as Hj63.
  pose proof (pow2_pos j Hj).
  pose proof (pow2_mono j 62 ltac:(lia)).
  assert (S : shl64 (2 ^ j) 1 = Some (2 ^ (j + 1))).
  { rewrite shl64_ok by lia. rewrite Z.pow_add_r by lia. reflexivity. }
  pose proof (lsb_shift_mod a j 1 Ha ltac:(lia)) as L1.
  pose proof (lsb_shift_mod a j (-1) Ha ltac:(lia)) as L2.
  rewrite <- E in *.
  split.
  - exists ((x + 2 ^ (j + 1)) mod 2 ^ 64). unfold next. rewrite E at 1.
    rewrite lsb_odd_part by lia. rewrite S. split; [reflexivity|].
    split; [apply Z.mod_pos_bound; lia|].
    unfold prev. rewrite Z.mul_1_l in L1. rewrite L1, S. unfold wsub64. f_equal.
    rewrite Zminus_mod_idemp_l.
    replace (x + 2 ^ (j + 1) - 2 ^ (j + 1)) with x by lia. apply Z.mod_small; lia.
  - exists ((x - 2 ^ (j + 1)) mod 2 ^ 64). unfold prev. rewrite E at 1.
    rewrite lsb_odd_part by lia. rewrite S. split; [reflexivity|].
    split; [apply Z.mod_pos_bound; lia|].
    unfold next. replace (x + -1 * 2 ^ (j + 1)) with (x - 2 ^ (j + 1)) in L2 by lia.
    rewrite L2, S. unfold wadd64. f_equal.
    rewrite Zplus_mod_idemp_l.
    replace (x - 2 ^ (j + 1) + 2 ^ (j + 1)) with x by lia. apply Z.mod_small; lia.
Qed.

Lemma wrap_offset_val : WRAP_OFFSET = 6 * 2 ^ 61.
Proof. reflexivity. Qed.

Lemma pow4_wrap L : 0 <= L <= 30 -> 6 * 4 ^ L * 4 ^ (30 - L) * 2 = 6 * 2 ^ 61.
Proof.
  intros. rewrite <- Z.mul_assoc. rewrite <- (Z.mul_assoc 6).
  replace (4 ^ L * (4 ^ (30 - L) * 2)) with (4 ^ L * 4 ^ (30 - L) * 2) by lia.
  rewrite <- pow4_add by lia. replace (L + (30 - L)) with 30 by lia. reflexivity.
Qed.

Lemma next_wrap_code c : wf c ->
  next_wrap (code c) = Some (code (Cell (lv c) ((ix c + 1) mod (6 * 4 ^ lv c)))).
Proof.
  intros H. unfold next_wrap. rewrite next_code by assumption. rewrite wrap_offset_val.
  destruct (H) as [Hl Hi].
  pose proof (pow4_wrap (lv c) Hl) as W. pose proof (pow4_pos (30 - lv c) ltac:(lia)) as HP.
  unfold code; cbn [lv ix].
  set (P := 4 ^ (30 - lv c)) in *. set (N := 6 * 4 ^ lv c) in *.
  destruct (Z.eq_dec (ix c + 1) N) as [E|E].
  - rewrite E. rewrite Z.mod_same by lia.
    destruct (Z.ltb_spec ((2 * N + 1) * P) (6 * 2 ^ 61)); [nia|].
    unfold wsub64. f_equal. rewrite <- W.
    replace ((2 * N + 1) * P - N * P * 2) with P by lia.
    replace ((2 * 0 + 1) * P) with P by lia. apply Z.mod_small.
    split; [lia|]. nia.
  - rewrite (Z.mod_small (ix c + 1)) by lia.
    destruct (Z.ltb_spec ((2 * (ix c + 1) + 1) * P) (6 * 2 ^ 61)); [reflexivity|nia].
Qed.

Lemma prev_wrap_code c : wf c ->
  prev_wrap (code c) = Some (code (Cell (lv c) ((ix c - 1) mod (6 * 4 ^ lv c)))).
Proof.
  intros H. unfold prev_wrap. destruct (H) as [Hl Hi].
  pose proof (pow4_wrap (lv c) Hl) as W. pose proof (pow4_pos (30 - lv c) ltac:(lia)) as HP.
  pose proof (pow4_mono (30 - lv c) 30 ltac:(destruct H; lia)) as HM. rewrite pow4_30 in *.
  destruct (Z.eq_dec (ix c) 0) as [E|E].
  - assert (prev (code c) = Some (2 ^ 64 - 4 ^ (30 - lv c))) as ->.
    { unfold prev. rewrite lsb_code by assumption. rewrite shl64_ok by lia.
      unfold wsub64, code. rewrite E. f_equal.
      set (P := 4 ^ (30 - lv c)) in *.
      symmetry. apply (Z.mod_unique_pos _ _ (-1)); lia. }
    rewrite E, wrap_offset_val. unfold code; cbn [lv ix].
    assert (EM : (0 - 1) mod (6 * 4 ^ lv c) = 6 * 4 ^ lv c - 1).
    { symmetry. apply (Z.mod_unique_pos _ _ (-1)); lia. }
    rewrite EM.
    set (P := 4 ^ (30 - lv c)) in *. set (N := 6 * 4 ^ lv c) in *.
    destruct (Z.ltb_spec (2 ^ 64 - P) (6 * 2 ^ 61)); [nia|].
    unfold wadd64. f_equal. rewrite <- W.
    symmetry. apply (Z.mod_unique_pos _ _ 1); nia.
  - rewrite prev_code by (auto; lia). rewrite wrap_offset_val.
    rewrite (Z.mod_small (ix c - 1)) by lia.
    unfold code; cbn [lv ix]. set (P := 4 ^ (30 - lv c)) in *. set (N := 6 * 4 ^ lv c) in *.
    destruct (Z.ltb_spec ((2 * (ix c - 1) + 1) * P) (6 * 2 ^ 61)); [reflexivity|nia].
Qed.

(** ** C11, C12 *)

Lemma as_i64_small x : 0 <= x < 2 ^ 63 -> as_i64 x = x.
Proof. intros. unfold as_i64. destruct (Z.ltb_spec x (2 ^ 63)); lia. Qed.

Lemma neg_i64_ok x : - 2 ^ 63 < x -> neg_i64 x = Some (- x).
Proof. intros. unfold neg_i64. destruct (Z.eqb_spec x (- 2 ^ 63)); [lia|reflexivity]. Qed.

(* the final shift-and-add step *)
Lemma shift_step L n s : 0 <= L <= 30 -> 0 <= n ->
  0 <= n + s <= 6 * 4 ^ L ->
  (let* m := shl64 (as_u64 s) (2 * (30 - L) + 1) in
   Some (wadd64 ((2 * n + 1) * 4 ^ (30 - L)) m)) =
  Some ((2 * (n + s) + 1) * 4 ^ (30 - L)).
Proof.
  intros HL Hn Hs. unfold shl64. destruct (Z.ltb_spec (2 * (30 - L) + 1) 64); [|lia].
  rewrite Z.shiftl_mul_pow2 by lia. rewrite Z.pow_add_r, <- pow4_2 by lia.
  change (2 ^ 1) with 2. unfold wadd64, as_u64. f_equal.
  rewrite Z.mul_mod_idemp_l, Z.add_mod_idemp_r by lia.
  replace ((2 * n + 1) * 4 ^ (30 - L) + s * (4 ^ (30 - L) * 2))
    with ((2 * (n + s) + 1) * 4 ^ (30 - L)) by lia.
  apply Z.mod_small. pose proof (pow4_wrap L HL) as W.
  pose proof (pow4_pos (30 - L) ltac:(lia)). pose proof (pow4_mono (30 - L) 30 ltac:(lia)).
  rewrite pow4_30 in *. set (P := 4 ^ (30 - L)) in *. set (N := 6 * 4 ^ L) in *. nia.
Qed.

Lemma wrap_minus_code c : wf c ->
  (WRAP_OFFSET - code c) / (4 ^ (30 - lv c) * 2) = 6 * 4 ^ lv c - ix c - 1 /\
  (WRAP_OFFSET + 4 ^ (30 - lv c) - code c) / (4 ^ (30 - lv c) * 2) = 6 * 4 ^ lv c - ix c.
Proof.
  intros H. destruct (H) as [Hl Hi]. rewrite wrap_offset_val, <- (pow4_wrap (lv c) Hl).
  pose proof (pow4_pos (30 - lv c) ltac:(lia)). unfold code.
  set (P := 4 ^ (30 - lv c)) in *. set (N := 6 * 4 ^ lv c) in *. split.
  - symmetry. apply (Z.div_unique_pos _ _ _ P); lia.
  - symmetry. apply (Z.div_unique_pos _ _ _ 0); lia.
Qed.

Lemma level_data c : wf c -> 0 < 6 * 4 ^ lv c < 2 ^ 63.
Proof.
  intros [Hl Hi]. pose proof (pow4_pos (lv c) ltac:(lia)). pose proof (pow4_mono (lv c) 30 ltac:(lia)).
  rewrite pow4_30 in *. lia.
Qed.

Lemma advance_code c k : wf c -> - 2 ^ 63 <= k < 2 ^ 63 ->
  advance (code c) k =
  Some (code (Cell (lv c) (Z.max 0 (Z.min (6 * 4 ^ lv c) (ix c + k))))).
Proof.
  intros H Hk. unfold advance. destruct (H) as [Hl Hi].
  pose proof (level_data c H) as HN. pose proof (code_range c H) as [R1 R2].
  destruct (Z.eqb_spec k 0) as [->|N0].
  { f_equal. f_equal. destruct c as [L n]; cbn in *. f_equal. lia. }
  rewrite level_code, shift_amount_code, lsb_code by assumption.
  rewrite shr_code by (auto; lia).
  rewrite Z.sub_diag, Z.pow_0_r, Z.div_1_r.
  rewrite as_i64_small, neg_i64_ok by lia.
  destruct (Z.ltb_spec k 0) as [Neg|Pos].
  - destruct (Z.ltb_spec k (- ix c)) as [C|C].
    + unfold code at 1. rewrite shift_step by lia. do 2 f_equal. unfold code; cbn [ix lv].
      do 3 f_equal. lia.
    + unfold code at 1. rewrite shift_step by lia. do 2 f_equal. unfold code; cbn [ix lv].
      do 3 f_equal. lia.
  - pose proof (pow4_mono (30 - lv c) 30 ltac:(destruct H; lia)). rewrite pow4_30 in *.
    pose proof (wrap_minus_code c H) as [_ WM]. rewrite wrap_offset_val in *.
    rewrite add64_ok by lia.
    rewrite sub64_ok by (pose proof (pow4_pos (30 - lv c)); lia).
    rewrite shr64_ok by lia.
    rewrite Z.pow_add_r, <- pow4_2 by lia. change (2 ^ 1) with 2.
    rewrite WM, as_i64_small by lia.
    destruct (Z.ltb_spec (6 * 4 ^ lv c - ix c) k) as [C|C];
      unfold code at 1; (rewrite shift_step by lia); unfold code; cbn [ix lv]; do 3 f_equal; lia.
Qed.

Lemma advance_wrap_code c k : wf c -> - 2 ^ 63 <= k < 2 ^ 63 ->
  advance_wrap (code c) k = Some (code (Cell (lv c) ((ix c + k) mod (6 * 4 ^ lv c)))).
Proof.
  intros H Hk. unfold advance_wrap. destruct (H) as [Hl Hi].
  pose proof (level_data c H) as HN. pose proof (code_range c H) as [R1 R2].
  destruct (Z.eqb_spec k 0) as [->|N0].
  { f_equal. f_equal. destruct c as [L n]; cbn in *. f_equal. rewrite Z.add_0_r, Z.mod_small; lia. }
  rewrite level_code, shift_amount_code by assumption.
  rewrite shr_code by (auto; lia).
  rewrite Z.sub_diag, Z.pow_0_r, Z.div_1_r.
  rewrite as_i64_small, neg_i64_ok by lia.
  assert (WS : shr64 WRAP_OFFSET (2 * (30 - lv c) + 1) = Some (6 * 4 ^ lv c)).
  { rewrite shr64_ok by lia. rewrite Z.pow_add_r, <- pow4_2 by lia. change (2 ^ 1) with 2.
    rewrite wrap_offset_val, <- (pow4_wrap (lv c) Hl).
    pose proof (pow4_pos (30 - lv c) ltac:(lia)).
    replace (6 * 4 ^ lv c * 4 ^ (30 - lv c) * 2) with (6 * 4 ^ lv c * (4 ^ (30 - lv c) * 2)) by lia.
    rewrite Z.div_mul by lia. reflexivity. }
  rewrite WS. rewrite (as_i64_small (6 * 4 ^ lv c)) by lia.
  set (N := 6 * 4 ^ lv c) in *.
  assert (FIN : forall s, 0 <= ix c + s < N -> (ix c + s) mod N = (ix c + k) mod N ->
    (let* m := shl64 (as_u64 s) (2 * (30 - lv c) + 1) in Some (wadd64 (code c) m))
    = Some (code (Cell (lv c) ((ix c + k) mod N)))).
  { intros s Hs E. unfold code at 1. rewrite shift_step by lia. unfold code; cbn [ix lv].
    rewrite <- E. rewrite (Z.mod_small (ix c + s)) by lia. reflexivity. }
  assert (REM : (ix c + Z.rem k N) mod N = (ix c + k) mod N).
  { rewrite (Z.quot_rem' k N) at 2.
    replace (ix c + (N * Z.quot k N + Z.rem k N)) with (ix c + Z.rem k N + Z.quot k N * N) by lia.
    symmetry. apply Z.mod_add. lia. }
  destruct (Z.ltb_spec k 0) as [Neg|Pos].
  - pose proof (Z.rem_bound_neg_pos k N ltac:(lia) ltac:(lia)) as RB || idtac.
    destruct (Z.ltb_spec k (- ix c)) as [C|C].
    + destruct (Z.eqb_spec N 0); [lia|].
      pose proof (Z.rem_nonpos k N ltac:(lia) ltac:(lia)).
      pose proof (Z.rem_bound_abs k N ltac:(lia)).
      destruct (Z.ltb_spec (Z.rem k N) (- ix c)) as [D|D].
      * unfold chk_i64. destruct (Z.leb_spec (- 2 ^ 63) (Z.rem k N + N)); [|lia].
        destruct (Z.ltb_spec (Z.rem k N + N) (2 ^ 63)); [|lia]. cbn [andb].
        apply FIN; [lia|]. rewrite <- REM.
        replace (ix c + (Z.rem k N + N)) with (ix c + Z.rem k N + 1 * N) by lia.
        apply Z.mod_add; lia.
      * apply FIN; [lia|assumption].
    + apply FIN; [lia|reflexivity].
  - pose proof (wrap_minus_code c H) as [WM _]. rewrite wrap_offset_val in *.
    rewrite sub64_ok by (pose proof (pow4_pos (30 - lv c)); lia).
    rewrite shr64_ok by lia.
    rewrite Z.pow_add_r, <- pow4_2 by lia. change (2 ^ 1) with 2.
    rewrite WM. fold N. rewrite as_i64_small by lia.
    destruct (Z.ltb_spec (N - ix c - 1) k) as [C|C].
    + destruct (Z.eqb_spec N 0); [lia|].
      pose proof (Z.rem_nonneg k N ltac:(lia) ltac:(lia)).
      pose proof (Z.rem_bound_abs k N ltac:(lia)).
      destruct (Z.ltb_spec (N - ix c - 1) (Z.rem k N)) as [D|D].
      * unfold chk_i64. destruct (Z.leb_spec (- 2 ^ 63) (Z.rem k N - N)); [|lia].
        destruct (Z.ltb_spec (Z.rem k N - N) (2 ^ 63)); [|lia]. cbn [andb].
        apply FIN; [lia|]. rewrite <- REM.
        replace (ix c + Z.rem k N) with (ix c + (Z.rem k N - N) + 1 * N) by lia.
        symmetry. apply Z.mod_add; lia.
      * apply FIN; [lia|assumption].
    + apply FIN; [lia|reflexivity].
Qed.

(** ** C13 *)

Lemma lxor_lt_pow2 x y s : 0 <= s -> 0 <= x -> 0 <= y ->
  (Z.lxor x y < 2 ^ s <-> x / 2 ^ s = y / 2 ^ s).
Proof.
  intros Hs Hx Hy.
  assert (X0 : 0 <= Z.lxor x y) by (apply Z.lxor_nonneg; lia).
  rewrite <- !Z.shiftr_div_pow2 by lia. rewrite <- Z.lxor_eq_0_iff, <- Z.shiftr_lxor.
  rewrite Z.shiftr_div_pow2 by lia. pose proof (pow2_pos s Hs).
  split; intros A.
  - apply Z.div_small; lia.
  - pose proof (Z.div_mod (Z.lxor x y) (2 ^ s) ltac:(lia)).
    pose proof (Z.mod_pos_bound (Z.lxor x y) (2 ^ s) ltac:(lia)). lia.
Qed.

Lemma common_ancestor_level_code a b : wf a -> wf b ->
  exists r, common_ancestor_level (code a) (code b) = Some r /\
  match r with
  | None => face_of a <> face_of b
  | Some k => 0 <= k <= Z.min (lv a) (lv b) /\ anc k a = anc k b /\
      forall k', k < k' <= Z.min (lv a) (lv b) -> anc k' a <> anc k' b
  end.
Proof.
  intros Ha Hb. unfold common_ancestor_level. rewrite !lsb_code by assumption.
  set (X := Z.lxor (code a) (code b)).
  set (B1 := if X <? 4 ^ (30 - lv a) then 4 ^ (30 - lv a) else X).
  set (B := if B1 <? 4 ^ (30 - lv b) then 4 ^ (30 - lv b) else B1).
  assert (EB : B = Z.max X (Z.max (4 ^ (30 - lv a)) (4 ^ (30 - lv b)))).
  { unfold B, B1. destruct (Z.ltb_spec X (4 ^ (30 - lv a)));
      [destruct (Z.ltb_spec (4 ^ (30 - lv a)) (4 ^ (30 - lv b)))|
       destruct (Z.ltb_spec X (4 ^ (30 - lv b)))]; lia. }
  clearbody B. clear B1.
  pose proof (code_bounds a Ha) as Ca. pose proof (code_bounds b Hb) as Cb.
  destruct (Ha) as [La Ia]. destruct (Hb) as [Lb Ib].
  pose proof (pow4_pos (30 - lv a) ltac:(lia)) as Pa.
  pose proof (pow4_pos (30 - lv b) ltac:(lia)) as Pb.
  assert (X0 : 0 <= X) by (apply Z.lxor_nonneg; lia).
  assert (HB : 0 < B) by lia.
  (* key equivalence *)
  assert (KEY : forall k, 0 <= k <= 30 ->
     (B < 2 ^ (2 * (30 - k) + 1) <-> k <= Z.min (lv a) (lv b) /\ anc k a = anc k b)).
  { intros k Hk. rewrite EB, !Z.max_lub_lt_iff.
    assert (PL : forall L, 0 <= L <= 30 -> (4 ^ (30 - L) < 2 ^ (2 * (30 - k) + 1) <-> k <= L)).
    { intros L HL. rewrite pow4_2 by lia. rewrite <- Z.pow_lt_mono_r_iff by lia. lia. }
    rewrite !PL by lia. unfold X. rewrite lxor_lt_pow2 by lia.
    assert (ED : 2 ^ (2 * (30 - k) + 1) = 2 * 4 ^ (30 - k)).
    { rewrite Z.pow_add_r, <- pow4_2 by lia. lia. }
    rewrite ED. split.
    - intros (E & A1 & A2). split; [lia|]. rewrite !code_div in E by (auto; lia).
      unfold anc. f_equal. assumption.
    - intros (A & E). rewrite !code_div by (auto; lia). split; [|lia].
      unfold anc in E. congruence. }
  assert (HB64 : B < 2 ^ 64).
  { assert (X < 2 ^ 64).
    { unfold X. apply lxor_lt_pow2; lia. }
    pose proof (pow4_mono (30 - lv a) 30 ltac:(lia)). pose proof (pow4_mono (30 - lv b) 30 ltac:(lia)).
    rewrite pow4_30 in *. lia. }
  unfold find_msb_set_nonzero64, clz64. destruct (Z.eqb_spec B 0); [lia|].
  assert (LB : 0 <= Z.log2 B < 64).
  { split; [apply Z.log2_nonneg|]. apply Z.log2_lt_pow2; lia. }
  rewrite sub64_ok by lia. replace (63 - (63 - Z.log2 B)) with (Z.log2 B) by lia.
  assert (KEY2 : forall k, 0 <= k <= 30 ->
     (Z.log2 B <= 60 - 2 * k <-> k <= Z.min (lv a) (lv b) /\ anc k a = anc k b)).
  { intros k Hk. rewrite <- KEY by assumption. rewrite Z.log2_lt_pow2 by lia. lia. }
  destruct (Z.ltb_spec 60 (Z.log2 B)) as [G|G]; eexists; (split; [reflexivity|]); cbv beta iota.
  - intros E. assert (A : Z.log2 B <= 60 - 2 * 0); [|lia].
    apply KEY2; [lia|]. split; [lia|]. unfold anc, face_of in *.
    rewrite !Z.sub_0_r. f_equal. assumption.
  - rewrite Z.shiftr_div_pow2 by lia. change (2 ^ 1) with 2.
    set (k := (60 - Z.log2 B) / 2).
    assert (Hk : 2 * k <= 60 - Z.log2 B < 2 * k + 2).
    { unfold k. pose proof (Z.div_mod (60 - Z.log2 B) 2 ltac:(lia)).
      pose proof (Z.mod_pos_bound (60 - Z.log2 B) 2 ltac:(lia)). lia. }
    assert (K30 : 0 <= k <= 30) by lia.
    destruct (proj1 (KEY2 k K30)) as [M E]; [lia|].
    repeat split; try lia; try assumption.
    intros k' Hk' E'. assert (Z.log2 B <= 60 - 2 * k'); [|lia].
    apply KEY2; [lia|]. split; [lia|assumption].
Qed.

Lemma common_ancestor_level_sym a b : common_ancestor_level a b = common_ancestor_level b a \/
  lsb a = None \/ lsb b = None.
Proof.
  unfold common_ancestor_level. destruct (lsb a) as [la|], (lsb b) as [lb|]; auto.
  left. rewrite (Z.lxor_comm b a).
  set (X := Z.lxor a b).
  replace (if (if X <? lb then lb else X) <? la then la else (if X <? lb then lb else X))
    with (if (if X <? la then la else X) <? lb then lb else (if X <? la then la else X)); [reflexivity|].
  destruct (Z.ltb_spec X la), (Z.ltb_spec X lb);
    try destruct (Z.ltb_spec la lb); try destruct (Z.ltb_spec lb la);
    try destruct (Z.ltb_spec X la); try destruct (Z.ltb_spec X lb); lia.
Qed.

(** ** C19 *)

Lemma from_face_ok f : 0 <= f < 6 -> from_face f = Some (code (Cell 0 f)).
Proof.
  intros Hf. unfold from_face. unfold POS_BITS, MAX_LEVEL. change (2 * 30 + 1) with 61.
  rewrite shl64_ok by lia. rewrite lsb_for_level_ok by lia.
  change (30 - 0) with 30. rewrite pow4_30. rewrite add64_ok by lia.
  f_equal. unfold code; cbn [ix lv]. change (30 - 0) with 30. rewrite pow4_30. lia.
Qed.

Lemma lor_1 p : 0 <= p -> Z.lor p 1 = 2 * (p / 2) + 1.
Proof.
  intros Hp. pose proof (lor_pow2 p 0 ltac:(lia)) as E.
  change (2 ^ 0) with 1 in E. rewrite Z.mul_1_r in E. rewrite E.
  change (2 ^ (0 + 1)) with 2. lia.
Qed.

(* the leaf at 61-bit position p of face f has index f*4^30 + p/2 *)
Lemma from_face_pos_level_ok f p L : 0 <= f < 6 -> 0 <= p < 2 ^ 61 -> 0 <= L <= 30 ->
  from_face_pos_level f p L = Some (code (anc L (leaf (f * 4 ^ 30 + p / 2)))).
Proof.
  intros Hf Hp HL. unfold from_face_pos_level, POS_BITS, MAX_LEVEL. change (2 * 30 + 1) with 61.
  rewrite shl64_ok by lia. rewrite lor_1 by lia.
  pose proof (Z.div_mod p 2 ltac:(lia)). pose proof (Z.mod_pos_bound p 2 ltac:(lia)).
  rewrite add64_ok by lia.
  replace (f * 2 ^ 61 + (2 * (p / 2) + 1)) with (code (leaf (f * 4 ^ 30 + p / 2))).
  - apply parent_code; [|cbn; lia]. unfold wf, leaf; cbn. rewrite pow4_30. lia.
  - rewrite code_leaf, pow4_30. lia.
Qed.

(** ** C57 *)

Lemma lsb_none_iff x : 0 <= x < 2 ^ 64 -> (lsb x = None <-> x = 2 ^ 63).
Proof.
  intros Hx. split.
  - intros E. destruct (Z.eq_dec x (2 ^ 63)) as [|N]; [assumption|exfalso].
    destruct (Z.eq_dec x 0) as [->|N0]; [discriminate|].
    destruct (odd_part x) as (a & j & Ha & Hj & Ex); [lia|].
    pose proof (odd_part_lt j a x Hx N Ha Hj Ex).
    rewrite Ex, lsb_odd_part in E by lia. discriminate.
  - intros ->. reflexivity.
Qed.

Lemma is_valid_none_iff x : 0 <= x < 2 ^ 64 -> (is_valid x = None <-> x = 2 ^ 63).
Proof.
  intros Hx. split.
  - intros E. destruct (Z.eq_dec x (2 ^ 63)) as [|N]; [assumption|exfalso].
    destruct (is_valid_correct x Hx N) as (b & Hb & _). congruence.
  - intros ->. reflexivity.
Qed.

Lemma level_none_iff x : 0 <= x < 2 ^ 64 -> (level x = None <-> exists q, x = q * 2 ^ 62).
Proof.
  intros Hx. destruct (Z.eq_dec x 0) as [->|N0].
  - split; [|reflexivity]. intros _. exists 0. reflexivity.
  - destruct (odd_part x) as (a & j & Ha & Hj & Ex); [lia|]. rewrite Ex.
    unfold level. rewrite ctz64_odd_part by lia.
    rewrite Z.shiftr_div_pow2 by lia. change (2 ^ 1) with 2. unfold sub64, MAX_LEVEL.
    pose proof (Z.div_mod j 2 ltac:(lia)). pose proof (Z.mod_pos_bound j 2 ltac:(lia)).
    destruct (Z.leb_spec (j / 2) 30) as [G|G].
    + split; [discriminate|]. intros (q & E).
      assert (j < 62) by lia.
      replace 62 with ((61 - j) + 1 + j) in E by lia.
      rewrite !Z.pow_add_r in E by lia. rewrite !Z.mul_assoc in E.
      apply Z.mul_cancel_r in E; [lia|]. pose proof (pow2_pos j); lia.
    + split; [|reflexivity]. intros _. exists ((2 * a + 1) * 2 ^ (j - 62)).
      rewrite <- Z.mul_assoc, <- Z.pow_add_r by lia. do 2 f_equal. lia.
Qed.

Lemma range_none_iff x : 0 <= x < 2 ^ 64 ->
  (range_min x = None <-> x = 0 \/ x = 2 ^ 63) /\
  (range_max x = None <-> x = 0 \/ x = 2 ^ 63).
Proof.
  intros Hx.
  destruct (Z.eq_dec x 0) as [->|N0]; [split; (split; [auto|reflexivity])|].
  destruct (Z.eq_dec x (2 ^ 63)) as [->|N63]; [split; (split; [auto|reflexivity])|].
  destruct (odd_part x) as (a & j & Ha & Hj & Ex); [lia|].
  pose proof (odd_part_lt j a x Hx N63 Ha Hj Ex).
  pose proof (pow2_pos j Hj).
  assert (x + 2 ^ j <= 2 ^ 64).
  { assert (2 ^ 64 = 2 ^ (63 - j) * 2 * 2 ^ j) as E64.
    { replace 64 with ((63 - j) + 1 + j) by lia. rewrite !Z.pow_add_r by lia. reflexivity. }
    rewrite E64 in *. rewrite Ex in *. destruct Hx as [_ Hx].
    apply Z.mul_lt_mono_pos_r in Hx; [|lia]. nia. }
  unfold range_min, range_max.
  assert (lsb x = Some (2 ^ j)) as -> by (rewrite Ex; apply lsb_odd_part; lia).
  rewrite !sub64_ok by nia. rewrite add64_ok by lia.
  split; (split; [discriminate|lia]).
Qed.
