(** Arithmetic facts about the id operations. *)
From Verif Require Import Base Spec CellIdModel.

Global Arguments Z.pow : simpl never.
Global Arguments Z.mul : simpl never.
Global Arguments Z.add : simpl never.
Global Arguments Z.sub : simpl never.
Global Arguments Z.div : simpl never.
Global Arguments Z.modulo : simpl never.
Global Arguments Z.shiftl : simpl never.
Global Arguments Z.shiftr : simpl never.
Global Arguments Z.land : simpl never.
Global Arguments Z.lor : simpl never.
Global Arguments Z.opp : simpl never.

(** ** Powers *)

Lemma pow4_pos k : 0 <= k -> 0 < 4 ^ k.
Proof. intros; apply Z.pow_pos_nonneg; lia. Qed.

Lemma pow2_pos k : 0 <= k -> 0 < 2 ^ k.
Proof. intros; apply Z.pow_pos_nonneg; lia. Qed.

Lemma pow4_2 k : 0 <= k -> 4 ^ k = 2 ^ (2 * k).
Proof. intros; rewrite Z.pow_mul_r by lia; reflexivity. Qed.

Lemma pow4_add a b : 0 <= a -> 0 <= b -> 4 ^ (a + b) = 4 ^ a * 4 ^ b.
Proof. intros; apply Z.pow_add_r; lia. Qed.

Lemma pow4_split a b : 0 <= b <= a -> 4 ^ a = 4 ^ (a - b) * 4 ^ b.
Proof. intros; rewrite <- pow4_add by lia; f_equal; lia. Qed.

Lemma pow4_succ k : 0 <= k -> 4 ^ (k + 1) = 4 * 4 ^ k.
Proof. intros; rewrite pow4_add by lia; lia. Qed.

Lemma pow4_mono a b : 0 <= a <= b -> 4 ^ a <= 4 ^ b.
Proof. intros; apply Z.pow_le_mono_r; lia. Qed.

Lemma pow2_mono a b : 0 <= a <= b -> 2 ^ a <= 2 ^ b.
Proof. intros; apply Z.pow_le_mono_r; lia. Qed.

Lemma pow4_30 : 4 ^ 30 = 1152921504606846976.
Proof. reflexivity. Qed.

(** ** Odd-part decomposition *)

Lemma odd_part x : 0 < x -> exists a j, 0 <= a /\ 0 <= j /\ x = (2 * a + 1) * 2 ^ j.
Proof.
  intros Hx.
  destruct x as [|p|p]; try lia. clear Hx.
  induction p as [p IH|p IH|].
  - exists (Zpos p), 0. rewrite Z.pow_0_r. lia.
  - destruct IH as (a & j & Ha & Hj & E). exists a, (j + 1).
    rewrite Z.pow_add_r by lia. split; [|split]; lia.
  - exists 0, 0. rewrite Z.pow_0_r. lia.
Qed.

Lemma ctz_pos_nonneg p : 0 <= ctz_pos p.
Proof. induction p; cbn [ctz_pos]; lia. Qed.

Lemma ctz64_odd_part a j : 0 <= a -> 0 <= j -> ctz64 ((2 * a + 1) * 2 ^ j) = j.
Proof.
  intros Ha Hj.
  pose proof (pow2_pos j Hj) as Hp.
  destruct ((2 * a + 1) * 2 ^ j) as [|p|p] eqn:E; try nia.
  cbn [ctz64].
  revert a j Ha Hj Hp E.
  induction p as [p IH|p IH|]; intros a j Ha Hj Hp E; cbn [ctz_pos].
  - destruct (Z.eq_dec j 0); [lia|].
    replace j with ((j - 1) + 1) in E by lia.
    rewrite Z.pow_add_r in E by lia. lia.
  - destruct (Z.eq_dec j 0) as [->|].
    + rewrite Z.pow_0_r in E. lia.
    + assert (Hp' := pow2_pos (j - 1) ltac:(lia)).
      replace j with ((j - 1) + 1) in E by lia.
      rewrite Z.pow_add_r in E by lia.
      rewrite (IH a (j - 1)); lia.
  - destruct (Z.eq_dec j 0); [lia|].
    replace j with ((j - 1) + 1) in E by lia.
    rewrite Z.pow_add_r in E by lia. lia.
Qed.

(** ** Bit operations *)

Lemma land_opp_odd a : Z.land (2 * a + 1) (- (2 * a + 1)) = 1.
Proof.
  replace (- (2 * a + 1)) with (Z.lnot (2 * a)) by (unfold Z.lnot; lia).
  rewrite <- Z.ldiff_land.
  apply Z.bits_inj'; intros n Hn.
  rewrite Z.ldiff_spec.
  destruct (Z.eq_dec n 0) as [->|].
  - rewrite Z.testbit_odd_0, Z.testbit_even_0. reflexivity.
  - replace n with (Z.succ (n - 1)) by lia.
    rewrite Z.testbit_odd_succ, Z.testbit_even_succ by lia.
    rewrite andb_negb_r.
    replace 1 with (2 * 0 + 1) by reflexivity.
    rewrite Z.testbit_odd_succ by lia. rewrite Z.bits_0. reflexivity.
Qed.

Lemma land_opp_odd_part a j : 0 <= j ->
  Z.land ((2 * a + 1) * 2 ^ j) (- ((2 * a + 1) * 2 ^ j)) = 2 ^ j.
Proof.
  intros Hj.
  rewrite <- Z.mul_opp_l, <- !Z.shiftl_mul_pow2, <- Z.shiftl_land, land_opp_odd by lia.
  rewrite Z.shiftl_mul_pow2 by lia. lia.
Qed.

Lemma land_mod_pow2 x y k : 0 <= k -> 0 <= x < 2 ^ k ->
  Z.land x (y mod 2 ^ k) = Z.land x y.
Proof.
  intros Hk Hx. rewrite <- Z.land_ones by lia.
  rewrite (Z.land_comm y), Z.land_assoc, Z.land_ones by lia.
  rewrite Z.mod_small by lia. reflexivity.
Qed.

Lemma land_opp_pow2 x j : 0 <= j -> Z.land x (- 2 ^ j) = x / 2 ^ j * 2 ^ j.
Proof.
  intros Hj.
  replace (- 2 ^ j) with (Z.lnot (Z.ones j))
    by (rewrite Z.ones_equiv; unfold Z.lnot; lia).
  rewrite <- Z.ldiff_land, Z.ldiff_ones_r by lia.
  rewrite Z.shiftl_mul_pow2, Z.shiftr_div_pow2 by lia. reflexivity.
Qed.

Lemma lor_pow2 q j : 0 <= j ->
  Z.lor (q * 2 ^ j) (2 ^ j) = q / 2 * 2 ^ (j + 1) + 2 ^ j.
Proof.
  intros Hj.
  replace (2 ^ j) with (1 * 2 ^ j) at 2 by lia.
  rewrite <- !Z.shiftl_mul_pow2 by lia. rewrite <- Z.shiftl_lor.
  replace (Z.lor q 1) with (q / 2 * 2 + 1).
  - rewrite !Z.shiftl_mul_pow2 by lia. rewrite Z.pow_add_r by lia. lia.
  - apply Z.bits_inj'; intros n Hn.
    rewrite Z.lor_spec.
    replace (q / 2 * 2 + 1) with (2 * (q / 2) + 1) by lia.
    destruct (Z.eq_dec n 0) as [->|].
    + rewrite Z.testbit_odd_0, orb_true_r. reflexivity.
    + replace n with (Z.succ (n - 1)) by lia.
      rewrite Z.testbit_odd_succ by lia.
      replace 1 with (2 * 0 + 1) at 3 by reflexivity.
      rewrite Z.testbit_odd_succ, Z.bits_0, orb_false_r by lia.
      rewrite Z.div2_bits by lia. reflexivity.
Qed.

Lemma as_i64_bounds x : 0 <= x < 2 ^ 64 ->
  - 2 ^ 63 <= as_i64 x < 2 ^ 63 /\ (x - as_i64 x) mod 2 ^ 64 = 0.
Proof.
  intros; unfold as_i64. destruct (Z.ltb_spec x (2 ^ 63)).
  - split; [lia|]. rewrite Z.sub_diag. reflexivity.
  - split; [lia|]. replace (x - (x - 2 ^ 64)) with (2 ^ 64) by lia. reflexivity.
Qed.

Lemma neg_i64_as_i64 x : 0 <= x < 2 ^ 64 -> x <> 2 ^ 63 ->
  exists m, neg_i64 (as_i64 x) = Some m /\ as_u64 m = (- x) mod 2 ^ 64.
Proof.
  intros Hx Hn. exists (- as_i64 x). unfold neg_i64, as_u64, as_i64.
  destruct (Z.ltb_spec x (2 ^ 63)).
  - destruct (Z.eqb_spec x (- 2 ^ 63)); [lia|]. auto.
  - destruct (Z.eqb_spec (x - 2 ^ 64) (- 2 ^ 63)); [lia|].
    split; [reflexivity|].
    replace (- (x - 2 ^ 64)) with (- x + 1 * 2 ^ 64) by lia.
    apply Z.mod_add. lia.
Qed.

(** [lsb] on every id except 2^63. *)
Lemma lsb_odd_part a j : 0 <= a -> 0 <= j < 63 ->
  (2 * a + 1) * 2 ^ j < 2 ^ 64 ->
  lsb ((2 * a + 1) * 2 ^ j) = Some (2 ^ j).
Proof.
  intros Ha Hj Hx. pose proof (pow2_pos j ltac:(lia)).
  set (x := (2 * a + 1) * 2 ^ j) in *.
  assert (x <> 2 ^ 63).
  { unfold x. intros E.
    replace 63 with ((62 - j) + 1 + j) in E by lia.
    rewrite !Z.pow_add_r in E by lia. apply Z.mul_cancel_r in E; lia. }
  unfold lsb.
  destruct (neg_i64_as_i64 x) as (m & -> & ->); [unfold x; nia|assumption|].
  rewrite land_mod_pow2 by (unfold x; nia).
  unfold x. rewrite land_opp_odd_part by lia. reflexivity.
Qed.

Lemma lsb_panics : lsb (2 ^ 63) = None.
Proof. reflexivity. Qed.

Lemma lsb_zero : lsb 0 = Some 0.
Proof. reflexivity. Qed.

(** ** Well-formed cells *)

(* The numeric data of a well-formed cell, in a form lia/nia can use. *)
Lemma wf_data c : wf c ->
  exists P Q, P = 4 ^ (30 - lv c) /\ Q = 4 ^ lv c /\ 0 < P /\ 0 < Q /\
    P * Q = 4 ^ 30 /\ 0 <= ix c < 6 * Q /\ code c = (2 * ix c + 1) * P.
Proof.
  intros [Hl Hi]. exists (4 ^ (30 - lv c)), (4 ^ lv c).
  repeat split; try lia; try (apply pow4_pos; lia).
  rewrite <- pow4_add by lia. f_equal; lia.
Qed.

Lemma code_bounds c : wf c -> 0 < code c < 6 * 2 ^ 61.
Proof.
  intros H. destruct (wf_data c H) as (P & Q & _ & _ & HP & HQ & E & Hi & ->).
  rewrite pow4_30 in E. nia.
Qed.

Lemma code_range c : wf c ->
  0 <= code c - 4 ^ (30 - lv c) /\ code c + 4 ^ (30 - lv c) <= 6 * 2 ^ 61.
Proof.
  intros H. destruct (wf_data c H) as (P & Q & EP & _ & HP & HQ & E & Hi & ->).
  rewrite <- EP. rewrite pow4_30 in E. nia.
Qed.

Lemma code_odd_part c : wf c ->
  code c = (2 * ix c + 1) * 2 ^ (2 * (30 - lv c)).
Proof. intros [H _]. unfold code. rewrite pow4_2 by lia. reflexivity. Qed.

Lemma lsb_code c : wf c -> lsb (code c) = Some (4 ^ (30 - lv c)).
Proof.
  intros H. pose proof (code_bounds c H) as B.
  rewrite code_odd_part in * by assumption. destruct H as [Hl Hi].
  rewrite lsb_odd_part by lia. rewrite pow4_2 by lia. reflexivity.
Qed.

Lemma level_code c : wf c -> level (code c) = Some (lv c).
Proof.
  intros H. rewrite code_odd_part by assumption. destruct H as [Hl Hi].
  unfold level. rewrite ctz64_odd_part by lia.
  rewrite Z.shiftr_div_pow2 by lia. change (2 ^ 1) with 2.
  replace (2 * (30 - lv c) / 2) with (30 - lv c)
    by (rewrite Z.mul_comm, Z.div_mul; lia).
  unfold sub64, MAX_LEVEL. destruct (Z.leb_spec (30 - lv c) 30); [f_equal|]; lia.
Qed.

Lemma odd_pow_inj a b j k : 0 <= j -> 0 <= k ->
  (2 * a + 1) * 2 ^ j = (2 * b + 1) * 2 ^ k -> j = k /\ a = b.
Proof.
  intros Hj Hk E.
  destruct (Z.lt_trichotomy j k) as [L|[->|L]].
  - replace k with ((k - j - 1) + 1 + j) in E by lia.
    rewrite !Z.pow_add_r in E by lia. rewrite Z.mul_assoc in E.
    apply Z.mul_cancel_r in E; [lia|]. pose proof (pow2_pos j); lia.
  - apply Z.mul_cancel_r in E; [lia|]. pose proof (pow2_pos k); lia.
  - replace j with ((j - k - 1) + 1 + k) in E by lia.
    rewrite !Z.pow_add_r in E by lia. rewrite Z.mul_assoc in E.
    apply Z.mul_cancel_r in E; [lia|]. pose proof (pow2_pos k); lia.
Qed.

Lemma code_inj a b : wf a -> wf b -> code a = code b -> a = b.
Proof.
  intros Ha Hb E. rewrite !code_odd_part in E by assumption.
  destruct Ha, Hb. apply odd_pow_inj in E; try lia.
  destruct a, b; cbn in *. f_equal; lia.
Qed.

Lemma lsb_for_level_ok L : 0 <= L <= 30 -> lsb_for_level L = Some (4 ^ (30 - L)).
Proof.
  intros H. unfold lsb_for_level, sub64, MAX_LEVEL.
  destruct (Z.leb_spec L 30); [|lia].
  unfold shl64. destruct (Z.ltb_spec (2 * (30 - L)) 64); [|lia].
  rewrite Z.shiftl_1_l, <- pow4_2 by lia.
  rewrite Z.mod_small; [reflexivity|].
  pose proof (pow4_pos (30 - L)). pose proof (pow4_mono (30 - L) 30).
  rewrite pow4_30 in *. lia.
Qed.

Lemma lsb_for_level_panics L : 30 < L -> lsb_for_level L = None.
Proof.
  intros H. unfold lsb_for_level, sub64, MAX_LEVEL.
  destruct (Z.leb_spec L 30); [lia|reflexivity].
Qed.

(** Checked arithmetic that succeeds. *)
Lemma add64_ok a b : a + b < 2 ^ 64 -> add64 a b = Some (a + b).
Proof. intros; unfold add64. destruct (Z.ltb_spec (a + b) (2 ^ 64)); [auto|lia]. Qed.
Lemma sub64_ok a b : b <= a -> sub64 a b = Some (a - b).
Proof. intros; unfold sub64. destruct (Z.leb_spec b a); [auto|lia]. Qed.
Lemma shl64_ok a k : 0 <= k < 64 -> 0 <= a -> a * 2 ^ k < 2 ^ 64 ->
  shl64 a k = Some (a * 2 ^ k).
Proof.
  intros Hk Ha Hb; unfold shl64. destruct (Z.ltb_spec k 64); [|lia].
  rewrite Z.shiftl_mul_pow2 by lia. rewrite Z.mod_small; [auto|].
  pose proof (pow2_pos k). nia.
Qed.
Lemma shr64_ok a k : 0 <= k < 64 -> shr64 a k = Some (a / 2 ^ k).
Proof.
  intros Hk; unfold shr64. destruct (Z.ltb_spec k 64); [|lia].
  rewrite Z.shiftr_div_pow2 by lia. reflexivity.
Qed.

(** [parent] in closed form, for any u64. *)
Lemma mask_lor x l j : 0 <= x < 2 ^ 64 -> 0 <= j < 63 -> l = 2 ^ j ->
  (let* m := neg_i64 (as_i64 l) in Some (Z.lor (Z.land x (as_u64 m)) l))
  = Some (x / 2 ^ (j + 1) * 2 ^ (j + 1) + 2 ^ j).
Proof.
  intros Hx Hj ->. pose proof (pow2_pos j ltac:(lia)).
  pose proof (Z.pow_lt_mono_r 2 j 63 ltac:(lia) ltac:(lia) ltac:(lia)).
  destruct (neg_i64_as_i64 (2 ^ j)) as (m & -> & ->); [lia|lia|].
  rewrite land_mod_pow2, land_opp_pow2, lor_pow2 by lia.
  rewrite Z.div_div by lia. rewrite (Z.pow_add_r 2 j 1) by lia. reflexivity.
Qed.

Lemma parent_closed x L : 0 <= x < 2 ^ 64 -> 0 <= L <= 30 ->
  parent x L = Some ((2 * (x / (2 * 4 ^ (30 - L))) + 1) * 4 ^ (30 - L)).
Proof.
  intros Hx HL. unfold parent. rewrite lsb_for_level_ok by lia.
  rewrite (mask_lor x _ (2 * (30 - L))) by (try rewrite pow4_2; lia).
  rewrite Z.pow_add_r, <- pow4_2 by lia. f_equal.
  change (2 ^ 1) with 2. rewrite (Z.mul_comm _ 2). lia.
Qed.

Lemma code_div c L : wf c -> 0 <= L <= lv c ->
  code c / (2 * 4 ^ (30 - L)) = ix c / 4 ^ (lv c - L).
Proof.
  intros [Hl Hi] HL. unfold code.
  replace (30 - L) with ((lv c - L) + (30 - lv c)) by lia.
  rewrite pow4_add by lia.
  replace (2 * (4 ^ (lv c - L) * 4 ^ (30 - lv c)))
    with (2 * 4 ^ (lv c - L) * 4 ^ (30 - lv c)) by lia.
  pose proof (pow4_pos (30 - lv c)). pose proof (pow4_pos (lv c - L)).
  rewrite Z.div_mul_cancel_r by lia.
  rewrite <- Z.div_div by lia. f_equal.
  rewrite Z.mul_comm, Z.div_add_l by lia. change (1 / 2) with 0. lia.
Qed.

Lemma wf_anc c L : wf c -> 0 <= L <= lv c -> wf (anc L c).
Proof.
  intros [Hl Hi] HL. unfold wf, anc; cbn.
  pose proof (pow4_pos (lv c - L)). split; [lia|]. split.
  - apply Z.div_pos; lia.
  - apply Z.div_lt_upper_bound; [lia|].
    rewrite (pow4_split (lv c) L) in Hi by lia. lia.
Qed.

Lemma parent_code c L : wf c -> 0 <= L <= lv c ->
  parent (code c) L = Some (code (anc L c)).
Proof.
  intros H HL. pose proof (code_bounds c H).
  rewrite parent_closed by (destruct H; lia).
  rewrite code_div by assumption. reflexivity.
Qed.

Lemma immediate_parent_code c : wf c -> 0 < lv c ->
  immediate_parent (code c) = Some (code (anc (lv c - 1) c)).
Proof.
  intros H HL. pose proof (code_bounds c H). unfold immediate_parent.
  rewrite lsb_code by assumption.
  assert (E : 4 ^ (30 - lv c) * 2 ^ 2 = 4 ^ (30 - (lv c - 1))).
  { change (2 ^ 2) with 4. replace (30 - (lv c - 1)) with ((30 - lv c) + 1) by lia.
    destruct H. rewrite pow4_succ by lia. lia. }
  pose proof (pow4_mono (30 - (lv c - 1)) 30 ltac:(destruct H; lia)).
  pose proof (pow4_pos (30 - lv c) ltac:(destruct H; lia)).
  rewrite pow4_30 in *.
  rewrite shl64_ok by lia. rewrite E.
  rewrite <- parent_code by (auto; lia).
  unfold parent. rewrite lsb_for_level_ok by (destruct H; lia). reflexivity.
Qed.

(** ** Ranges *)

Lemma range_min_code c : wf c ->
  range_min (code c) = Some (2 * (ix c * 4 ^ (30 - lv c)) + 1).
Proof.
  intros H. unfold range_min. rewrite lsb_code by assumption.
  destruct (wf_data c H) as (P & Q & EP & _ & HP & HQ & E & Hi & ->).
  rewrite <- EP. rewrite sub64_ok by lia. rewrite sub64_ok by nia. f_equal. lia.
Qed.

Lemma range_max_code c : wf c ->
  range_max (code c) = Some (2 * ((ix c + 1) * 4 ^ (30 - lv c) - 1) + 1).
Proof.
  intros H. unfold range_max. rewrite lsb_code by assumption.
  destruct (wf_data c H) as (P & Q & EP & _ & HP & HQ & E & Hi & ->).
  rewrite <- EP. rewrite pow4_30 in E. rewrite sub64_ok by lia. rewrite add64_ok by nia.
  f_equal. lia.
Qed.

Lemma code_leaf m : code (leaf m) = 2 * m + 1.
Proof. unfold code, leaf; cbn. rewrite Z.pow_0_r. lia. Qed.

Lemma leaves_nonempty c : wf c -> leaves c (ix c * 4 ^ (30 - lv c)).
Proof. intros [H _]. unfold leaves. pose proof (pow4_pos (30 - lv c)). nia. Qed.

Lemma leaves_bounds c m : wf c -> leaves c m -> 0 <= m < 6 * 4 ^ 30.
Proof.
  intros H. destruct (wf_data c H) as (P & Q & EP & _ & HP & HQ & E & Hi & _).
  unfold leaves. rewrite <- EP, <- E. nia.
Qed.

Lemma leaves_div c m : wf c -> (leaves c m <-> m / 4 ^ (30 - lv c) = ix c).
Proof.
  intros [H _]. unfold leaves. pose proof (pow4_pos (30 - lv c) ltac:(lia)).
  set (P := 4 ^ (30 - lv c)) in *. split; intros A.
  - symmetry. apply (Z.div_unique m P (ix c) (m - ix c * P)); lia.
  - subst. pose proof (Z.mod_pos_bound m P ltac:(lia)).
    pose proof (Z.div_mod m P ltac:(lia)). nia.
Qed.

(* ancestry is inclusion of leaf sets *)
Lemma ancestor_leaves a b : wf a -> wf b ->
  (ancestor_or_self a b <-> forall m, leaves b m -> leaves a m).
Proof.
  intros Ha Hb. split.
  - intros [Hl E] m Hm. rewrite leaves_div in * by assumption.
    destruct Ha as [Ha _], Hb as [Hb _].
    assert (ix a = ix b / 4 ^ (lv b - lv a)) as -> by (rewrite <- E at 1; reflexivity).
    rewrite <- Hm. rewrite Z.div_div by (try apply Z.pow_nonzero; try apply pow4_pos; lia).
    rewrite <- pow4_add by lia. do 2 f_equal. lia.
  - intros I.
    assert (Hl : lv a <= lv b).
    { destruct (Z.le_gt_cases (lv a) (lv b)) as [|G]; [assumption|exfalso].
      pose proof (leaves_nonempty b Hb) as N1. apply I in N1.
      assert (N2 : leaves b ((ix b + 1) * 4 ^ (30 - lv b) - 1)).
      { destruct Hb. unfold leaves. pose proof (pow4_pos (30 - lv b)). nia. }
      apply I in N2. destruct Ha as [Ha _], Hb as [Hb _]. unfold leaves in N1, N2.
      pose proof (pow4_pos (30 - lv a) ltac:(lia)).
      assert (4 ^ (30 - lv b) >= 4 * 4 ^ (30 - lv a)).
      { rewrite <- pow4_succ by lia. apply Z.le_ge, pow4_mono. lia. }
      nia. }
    split; [assumption|].
    pose proof (leaves_nonempty b Hb) as N. apply I in N.
    rewrite leaves_div in N by assumption. unfold anc. destruct a as [La na]; cbn in *.
    f_equal. rewrite <- N. destruct Hb as [Hb _], Ha as [Ha _]; cbn in *.
    replace (30 - La) with ((30 - lv b) + (lv b - La)) by lia.
    rewrite pow4_add by lia. pose proof (pow4_pos (30 - lv b)). pose proof (pow4_pos (lv b - La)).
    rewrite <- Z.div_div by lia. rewrite Z.div_mul by lia. reflexivity.
Qed.

Lemma ancestor_dec a b : ancestor_or_self a b \/ ~ ancestor_or_self a b.
Proof.
  unfold ancestor_or_self, anc. destruct a as [La na]; cbn.
  destruct (Z_le_dec La (lv b)), (Z.eq_dec (ix b / 4 ^ (lv b - La)) na).
  - left. split; [lia|]. f_equal; assumption.
  - right. intros [_ E]. congruence.
  - right. lia.
  - right. lia.
Qed.

(* id interval test = leaf interval inclusion *)
Lemma code_between a b : wf a -> wf b ->
  (2 * (ix a * 4 ^ (30 - lv a)) + 1 <= code b <= 2 * ((ix a + 1) * 4 ^ (30 - lv a) - 1) + 1
   <-> ancestor_or_self a b).
Proof.
  intros Ha Hb. rewrite ancestor_leaves by assumption.
  destruct (wf_data a Ha) as (P & Q & EP & _ & HP & HQ & E & Hi & _).
  destruct (wf_data b Hb) as (P' & Q' & EP' & _ & HP' & HQ' & E' & Hi' & ->).
  unfold leaves. rewrite <- EP, <- EP'.
  split.
  - intros B m Hm.
    (* P' is a multiple of P or P a multiple of P' *)
    destruct Ha as [La _], Hb as [Lb _].
    destruct (Z.le_gt_cases (lv a) (lv b)) as [G|G].
    + assert (P = 4 ^ (lv b - lv a) * P') as EPP.
      { rewrite EP, EP', <- pow4_add by lia. f_equal; lia. }
      pose proof (pow4_pos (lv b - lv a) ltac:(lia)) as HD.
      set (D := 4 ^ (lv b - lv a)) in *. rewrite EPP in *.
      assert (2 * (ix a * D) * P' < (2 * ix b + 1) * P') as B1 by lia.
      assert ((2 * ix b + 1) * P' < 2 * ((ix a + 1) * D) * P') as B2 by lia.
      apply Z.mul_lt_mono_pos_r in B1, B2; try lia. nia.
    + exfalso.
      assert (P' = 4 ^ (lv a - lv b - 1) * 4 * P) as EPP.
      { rewrite EP, EP', <- Z.mul_assoc. rewrite <- pow4_succ, <- pow4_add by lia. f_equal; lia. }
      pose proof (pow4_pos (lv a - lv b - 1) ltac:(lia)) as HD.
      set (D := 4 ^ (lv a - lv b - 1)) in *. rewrite EPP in *.
      assert (2 * ix a * P < (2 * ix b + 1) * (D * 4) * P) as B1 by lia.
      assert ((2 * ix b + 1) * (D * 4) * P < 2 * (ix a + 1) * P) as B2 by lia.
      apply Z.mul_lt_mono_pos_r in B1, B2; try lia.
  - intros I.
    pose proof (I (ix b * P') ltac:(nia)). pose proof (I ((ix b + 1) * P' - 1) ltac:(nia)).
    nia.
Qed.

Lemma contains_code a b : wf a -> wf b ->
  exists r, contains (code a) (code b) = Some r /\ (r = true <-> ancestor_or_self a b).
Proof.
  intros Ha Hb. unfold contains.
  rewrite range_min_code, range_max_code by assumption.
  pose proof (code_between a b Ha Hb) as B.
  destruct (Z.leb_spec (2 * (ix a * 4 ^ (30 - lv a)) + 1) (code b)); eexists; split; try reflexivity.
  - rewrite Z.leb_le, <- B. lia.
  - rewrite <- B. split; [discriminate|lia].
Qed.

Lemma leaves_laminar a b : wf a -> wf b ->
  ancestor_or_self a b \/ ancestor_or_self b a \/ (forall m, leaves a m -> leaves b m -> False).
Proof.
  intros Ha Hb.
  destruct (ancestor_dec a b) as [|N1]; [auto|].
  destruct (ancestor_dec b a) as [|N2]; [auto|].
  right; right. intros m Ma Mb.
  rewrite leaves_div in Ma, Mb by assumption.
  destruct Ha as [Ha _], Hb as [Hb _].
  destruct (Z.le_gt_cases (lv a) (lv b)) as [G|G].
  - apply N1. split; [lia|]. unfold anc. destruct a as [La na]; cbn in *. f_equal.
    rewrite <- Mb, <- Ma. rewrite Z.div_div by (try apply Z.pow_nonzero; try apply pow4_pos; lia).
    rewrite <- pow4_add by lia. do 2 f_equal. lia.
  - apply N2. split; [lia|]. unfold anc. destruct b as [Lb nb]; cbn in *. f_equal.
    rewrite <- Mb, <- Ma. rewrite Z.div_div by (try apply Z.pow_nonzero; try apply pow4_pos; lia).
    rewrite <- pow4_add by lia. do 2 f_equal. lia.
Qed.

Lemma intersects_code a b : wf a -> wf b ->
  exists r, intersects (code a) (code b) = Some r /\
    (r = true <-> exists m, leaves a m /\ leaves b m).
Proof.
  intros Ha Hb. unfold intersects.
  rewrite !range_min_code, !range_max_code by assumption.
  destruct (wf_data a Ha) as (P & Q & EP & _ & HP & HQ & E & Hi & _).
  destruct (wf_data b Hb) as (P' & Q' & EP' & _ & HP' & HQ' & E' & Hi' & _).
  unfold leaves. rewrite <- EP, <- EP'.
  destruct (Z.leb_spec (2 * (ix b * P') + 1) (2 * ((ix a + 1) * P - 1) + 1));
    eexists; (split; [reflexivity|]).
  - rewrite Z.geb_le. split.
    + intros G. exists (Z.max (ix a * P) (ix b * P')). nia.
    + intros (m & A & B). lia.
  - split; [discriminate|]. intros (m & A & B). lia.
Qed.
