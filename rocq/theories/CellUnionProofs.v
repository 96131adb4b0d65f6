(** Proofs about the CellUnion model, part 1: search, membership tests,
    validity tests, sibling test, normalize. *)
From Verif Require Import Base Spec CellIdModel CellIdArith CellIdProofs CellOrder CellUnionModel.
From Coq Require Import Permutation.

(** ** C46: binary search *)

Lemma search_loop_correct p f len fuel : forall i j,
  (forall k, (k < len)%nat -> f k = Some (p k)) ->
  (i <= j <= len)%nat -> (j - i <= fuel)%nat ->
  (i = 0%nat \/ p (i - 1)%nat = false) -> (j = len \/ p j = true) ->
  exists r, search_loop fuel f i j = Some r /\ (i <= r <= j)%nat /\
    (r = 0%nat \/ p (r - 1)%nat = false) /\ (r = len \/ p r = true).
Proof.
  induction fuel as [|fuel IH]; intros i j Hf Hij Hfuel Hi Hj; cbn [search_loop].
  - destruct (Nat.ltb_spec i j); [lia|]. exists i. assert (i = j) by lia. subst j.
    repeat split; auto; lia.
  - destruct (Nat.ltb_spec i j) as [L|L].
    + set (h := (i + (j - i) / 2)%nat).
      assert (Hh : (i <= h < j)%nat).
      { unfold h. split; [lia|]. assert ((j - i) / 2 < j - i)%nat by (apply Nat.div_lt; lia). lia. }
      rewrite Hf by lia. destruct (p h) eqn:E.
      * destruct (IH i h) as (r & R & B & C); auto; try lia.
        exists r. split; [auto|]. split; [lia|auto].
      * destruct (IH (h + 1)%nat j) as (r & R & B & C); auto; try lia.
        { right. replace (h + 1 - 1)%nat with h by lia. auto. }
        exists r. split; [auto|]. split; [lia|auto].
    + exists i. assert (i = j) by lia. subst j. repeat split; auto; lia.
Qed.

Lemma search_lower_by_any p f len :
  (forall k, (k < len)%nat -> f k = Some (p k)) ->
  exists r, search_lower_by len f = Some r /\ (r <= len)%nat /\
    (r = 0%nat \/ p (r - 1)%nat = false) /\ (r = len \/ p r = true).
Proof.
  intros Hf. destruct (search_loop_correct p f len len 0 len) as (r & R & B & C); auto; try lia.
  exists r. split; [auto|]. split; [lia|auto].
Qed.

Lemma search_lower_by_mono p f len :
  (forall k, (k < len)%nat -> f k = Some (p k)) ->
  (forall i j, (i <= j < len)%nat -> p i = true -> p j = true) ->
  exists r, search_lower_by len f = Some r /\ (r <= len)%nat /\
    (forall k, (k < r)%nat -> p k = false) /\
    (forall k, (r <= k < len)%nat -> p k = true).
Proof.
  intros Hf Hm. destruct (search_lower_by_any p f len Hf) as (r & R & B & C1 & C2).
  exists r. split; [auto|]. split; [auto|]. split.
  - intros k Hk. destruct C1 as [|C1]; [lia|].
    destruct (p k) eqn:E; [|auto]. rewrite (Hm k (r - 1)%nat) in C1; auto; lia.
  - intros k Hk. destruct C2 as [|C2]; [lia|]. apply (Hm r k); auto.
Qed.

(** ** Search in a sorted list of ids splits the list *)

Lemma valid_sorted_code cs c d : valid_cells (c :: cs) -> In d cs -> code c < code d.
Proof.
  intros V I. pose proof V as V'. apply valid_cells_cons in V'. destruct V' as (W & V' & F).
  rewrite Forall_forall in F. specialize (F d I).
  pose proof (lohi c W). pose proof (lohi d (valid_wf _ d V' I)). rewrite !code_lohi. lia.
Qed.

Lemma code_nth_mono cs : valid_cells cs -> forall i j a b, (i < j)%nat ->
  nth_error cs i = Some a -> nth_error cs j = Some b -> hi a <= lo b.
Proof.
  induction cs as [|c cs IH]; intros V i j a b Hij Ha Hb.
  - destruct i; discriminate.
  - apply valid_cells_cons in V. destruct V as (W & V & F). rewrite Forall_forall in F.
    destruct j as [|j]; [lia|]. cbn in Hb. destruct i as [|i]; cbn in Ha.
    + injection Ha as <-. apply F. eapply nth_error_In; eauto.
    + eapply (IH V i j); eauto. lia.
Qed.

(* the search used by contains_cellid and intersects_cellid *)
Lemma union_search cs id : valid_cells cs ->
  exists r, search_lower_by (length (map code cs))
      (fun i => let* c := nth_error (map code cs) i in Some (id <? c)) = Some r /\
    (r <= length cs)%nat /\
    (forall k c, (k < r)%nat -> nth_error cs k = Some c -> code c <= id) /\
    (forall k c, (r <= k)%nat -> nth_error cs k = Some c -> id < code c).
Proof.
  intros V.
  pose (p := fun i => match nth_error cs i with Some c => id <? code c | None => true end).
  destruct (search_lower_by_mono p
     (fun i => let* c := nth_error (map code cs) i in Some (id <? c)) (length (map code cs)))
    as (r & R & B & C1 & C2).
  - intros k Hk. rewrite map_length in Hk. rewrite nth_error_map. unfold p.
    destruct (nth_error cs k) eqn:E; [reflexivity|].
    apply nth_error_None in E. lia.
  - intros i j Hij. unfold p. destruct (nth_error cs i) as [a|] eqn:Ea.
    + destruct (nth_error cs j) as [b|] eqn:Eb; [|auto].
      destruct (Nat.eq_dec i j) as [->|N]; [congruence|].
      pose proof (code_nth_mono cs V i j a b ltac:(lia) Ea Eb).
      pose proof (lohi a (valid_wf _ a V (nth_error_In _ _ Ea))).
      pose proof (lohi b (valid_wf _ b V (nth_error_In _ _ Eb))).
      rewrite !code_lohi. lia.
    + apply nth_error_None in Ea. rewrite map_length in Hij. lia.
  - rewrite map_length in *. exists r. split; [exact R|]. split; [exact B|]. split.
    + intros k c Hk E. specialize (C1 k Hk). unfold p in C1. rewrite E in C1. lia.
    + intros k c Hk E. assert (k < length cs)%nat by (apply nth_error_Some; congruence).
      specialize (C2 k ltac:(lia)). unfold p in C2. rewrite E in C2. lia.
Qed.

Lemma nth_error_lt {A} (l : list A) i : (i < length l)%nat -> exists x, nth_error l i = Some x.
Proof.
  intros H. destruct (nth_error l i) eqn:E; [eauto|]. apply nth_error_None in E. lia.
Qed.

(** C30/C31 general form: on any sorted disjoint list. *)
Lemma contains_cellid_single cs c : valid_cells cs -> wf c ->
  exists r, contains_cellid (map code cs) (code c) = Some r /\
    (r = true <-> exists d, In d cs /\ lo d <= lo c /\ hi c <= hi d).
Proof.
  intros V Wc. unfold contains_cellid.
  destruct (union_search cs (code c) V) as (i & -> & B & C1 & C2). rewrite map_length.
  pose proof (lohi c Wc) as Lc. pose proof (code_lohi c) as Ec.
  (* the second test *)
  assert (T2 : (forall k d, (i <= k)%nat -> nth_error cs k = Some d -> ~ (lo d <= lo c /\ hi c <= hi d)) ->
    exists r, (if (i =? 0)%nat then Some false
       else let* c0 := nth_error (map code cs) (i - 1) in
            let* hi0 := range_max c0 in Some (hi0 >=? code c)) = Some r /\
      (r = true <-> exists d, In d cs /\ lo d <= lo c /\ hi c <= hi d)).
  { intros N. destruct (Nat.eqb_spec i 0) as [->|Ni].
    - exists false. split; [reflexivity|]. split; [discriminate|].
      intros (d & I & L). apply In_nth_error in I. destruct I as [k E].
      exfalso. eapply (N k d); eauto. lia.
    - destruct (nth_error_lt cs (i - 1)) as [d Ed]; [lia|].
      rewrite nth_error_map, Ed. cbn [option_map].
      pose proof (valid_wf _ d V (nth_error_In _ _ Ed)) as Wd.
      rewrite range_max_hi by assumption. eexists; split; [reflexivity|].
      pose proof (lohi d Wd) as Ld. pose proof (code_lohi d) as Ecd.
      pose proof (C1 (i - 1)%nat d ltac:(lia) Ed) as Le.
      pose proof (code_in_range d c Wd Wc) as R.
      rewrite Z.geb_le. split.
      + intros G. exists d. split; [eapply nth_error_In; eauto|]. apply R. lia.
      + intros (e & I & L). apply In_nth_error in I. destruct I as [k Ek].
        assert (k < i)%nat.
        { destruct (Nat.lt_ge_cases k i); [auto|]. exfalso. eapply (N k e); eauto. }
        destruct (Nat.eq_dec k (i - 1)) as [->|Nk].
        * rewrite Ed in Ek. injection Ek as ->. lia.
        * pose proof (code_nth_mono cs V k (i - 1)%nat e d ltac:(lia) Ek Ed). lia. }
  destruct (Nat.eqb_spec i (length cs)) as [Ei|Ni].
  - apply T2. intros k d Hk Ed. assert (k < length cs)%nat by (apply nth_error_Some; congruence). lia.
  - destruct (nth_error_lt cs i) as [d Ed]; [lia|].
    rewrite nth_error_map, Ed. cbn [option_map].
    pose proof (valid_wf _ d V (nth_error_In _ _ Ed)) as Wd.
    rewrite range_min_lo by assumption.
    pose proof (lohi d Wd) as Ld. pose proof (code_lohi d) as Ecd.
    pose proof (C2 i d ltac:(lia) Ed) as Lt.
    pose proof (code_in_range d c Wd Wc) as R.
    destruct (Z.leb_spec (2 * lo d + 1) (code c)) as [G|G].
    + exists true. split; [reflexivity|]. split; [|auto]. intros _. exists d.
      split; [eapply nth_error_In; eauto|]. apply R. lia.
    + apply T2. intros k e Hk Ek L.
      destruct (Nat.eq_dec k i) as [->|Nk].
      * rewrite Ed in Ek. injection Ek as ->. lia.
      * pose proof (code_nth_mono cs V i k d e ltac:(lia) Ed Ek). lia.
Qed.

Lemma intersects_cellid_correct cs c : valid_cells cs -> wf c ->
  exists r, intersects_cellid (map code cs) (code c) = Some r /\
    (r = true <-> exists d, In d cs /\ lo d < hi c /\ lo c < hi d).
Proof.
  intros V Wc. unfold intersects_cellid.
  destruct (union_search cs (code c) V) as (i & -> & B & C1 & C2). rewrite map_length.
  pose proof (lohi c Wc) as Lc. pose proof (code_lohi c) as Ec.
  assert (T2 : (forall k d, (i <= k)%nat -> nth_error cs k = Some d -> ~ (lo d < hi c /\ lo c < hi d)) ->
    exists r, (if (i =? 0)%nat then Some false
       else let* c0 := nth_error (map code cs) (i - 1) in
            let* hi0 := range_max c0 in let* lo0 := range_min (code c) in Some (hi0 >=? lo0)) = Some r /\
      (r = true <-> exists d, In d cs /\ lo d < hi c /\ lo c < hi d)).
  { intros N. destruct (Nat.eqb_spec i 0) as [->|Ni].
    - exists false. split; [reflexivity|]. split; [discriminate|].
      intros (d & I & L). apply In_nth_error in I. destruct I as [k E].
      exfalso. eapply (N k d); eauto. lia.
    - destruct (nth_error_lt cs (i - 1)) as [d Ed]; [lia|].
      rewrite nth_error_map, Ed. cbn [option_map].
      pose proof (valid_wf _ d V (nth_error_In _ _ Ed)) as Wd.
      rewrite range_max_hi, range_min_lo by assumption. eexists; split; [reflexivity|].
      pose proof (lohi d Wd) as Ld. pose proof (code_lohi d) as Ecd.
      pose proof (C1 (i - 1)%nat d ltac:(lia) Ed) as Le.
      rewrite Z.geb_le. split.
      + intros G. exists d. split; [eapply nth_error_In; eauto|].
        destruct (cases c d Wc Wd) as [C|[C|[C|C]]]; lia.
      + intros (e & I & L). apply In_nth_error in I. destruct I as [k Ek].
        assert (k < i)%nat.
        { destruct (Nat.lt_ge_cases k i); [auto|]. exfalso. eapply (N k e); eauto. }
        destruct (Nat.eq_dec k (i - 1)) as [->|Nk].
        * rewrite Ed in Ek. injection Ek as ->. lia.
        * pose proof (code_nth_mono cs V k (i - 1)%nat e d ltac:(lia) Ek Ed). lia. }
  destruct (Nat.eqb_spec i (length cs)) as [Ei|Ni].
  - apply T2. intros k d Hk Ed. assert (k < length cs)%nat by (apply nth_error_Some; congruence). lia.
  - destruct (nth_error_lt cs i) as [d Ed]; [lia|].
    rewrite nth_error_map, Ed. cbn [option_map].
    pose proof (valid_wf _ d V (nth_error_In _ _ Ed)) as Wd.
    rewrite range_max_hi, range_min_lo by assumption.
    pose proof (lohi d Wd) as Ld. pose proof (code_lohi d) as Ecd.
    pose proof (C2 i d ltac:(lia) Ed) as Lt.
    destruct (Z.leb_spec (2 * lo d + 1) (2 * hi c - 1)) as [G|G].
    + exists true. split; [reflexivity|]. split; [|auto]. intros _. exists d.
      split; [eapply nth_error_In; eauto|].
      destruct (cases c d Wc Wd) as [C|[C|[C|C]]]; lia.
    + apply T2. intros k e Hk Ek L.
      destruct (Nat.eq_dec k i) as [->|Nk].
      * rewrite Ed in Ek. injection Ek as ->. lia.
      * pose proof (code_nth_mono cs V i k d e ltac:(lia) Ed Ek). lia.
Qed.

Lemma overlap_leaves cs c : Forall wf cs -> wf c ->
  ((exists d, In d cs /\ lo d < hi c /\ lo c < hi d) <-> exists m, leaves c m /\ cov cs m).
Proof.
  intros F Wc. pose proof (lohi c Wc). rewrite Forall_forall in F. split.
  - intros (d & I & L). pose proof (lohi d (F d I)). exists (Z.max (lo c) (lo d)). split.
    + rewrite leaves_lohi. lia.
    + exists d. rewrite leaves_lohi. split; [auto|lia].
  - intros (m & A & d & I & B). exists d. rewrite leaves_lohi in *. split; [auto|lia].
Qed.

Lemma contains_cellid_normalized cs c : normalized_cells cs -> wf c ->
  exists r, contains_cellid (map code cs) (code c) = Some r /\
    (r = true <-> forall m, leaves c m -> cov cs m).
Proof.
  intros N Wc. destruct (contains_cellid_single cs c (proj1 N) Wc) as (r & E & V).
  exists r. split; [auto|]. rewrite V. split.
  - intros (d & I & L) m Hm. exists d. rewrite leaves_lohi in *. split; [auto|lia].
  - intros A. exact (normalized_contains cs N c Wc A).
Qed.

(** ** The sibling test *)

Lemma ldiff_sub x y : Z.ldiff x y = x - Z.land x y.
Proof.
  rewrite Z.sub_nocarry_ldiff.
  - apply Z.bits_inj'; intros n Hn. rewrite !Z.ldiff_spec, Z.land_spec.
    destruct (Z.testbit x n), (Z.testbit y n); reflexivity.
  - apply Z.bits_inj'; intros n Hn. rewrite Z.ldiff_spec, Z.land_spec, Z.bits_0.
    destruct (Z.testbit x n), (Z.testbit y n); reflexivity.
Qed.

Lemma land_not64 x y : 0 <= x < 2 ^ 64 -> 0 <= y < 2 ^ 64 -> Z.land x (not64 y) = Z.ldiff x y.
Proof.
  intros Hx Hy. unfold not64.
  replace (2 ^ 64 - 1 - y) with ((Z.lnot y) mod 2 ^ 64).
  - rewrite land_mod_pow2 by lia. symmetry. apply Z.ldiff_land.
  - unfold Z.lnot. symmetry. apply (Z.mod_unique_pos _ _ (-1)); lia.
Qed.

Lemma land_3 x j : 0 <= j -> Z.land x (3 * 2 ^ j) = ((x / 2 ^ j) mod 4) * 2 ^ j.
Proof.
  intros Hj. rewrite <- !Z.shiftl_mul_pow2 by lia. rewrite <- Z.shiftr_div_pow2 by lia.
  change 4 with (2 ^ 2). rewrite <- Z.land_ones by lia. change (Z.ones 2) with 3.
  apply Z.bits_inj'; intros n Hn.
  rewrite Z.land_spec, !Z.shiftl_spec, Z.land_spec by lia.
  destruct (Z.lt_ge_cases n j).
  - rewrite !(Z.testbit_neg_r _ (n - j)) by lia. rewrite andb_false_r. reflexivity.
  - rewrite Z.shiftr_spec by lia. replace (n - j + j) with n by lia. reflexivity.
Qed.

Definition masked (x j : Z) : Z := (x / 2 ^ (j + 2)) * 2 ^ (j + 2) + x mod 2 ^ j.

Lemma ldiff_3 x j : 0 <= j -> Z.ldiff x (3 * 2 ^ j) = masked x j.
Proof.
  intros Hj. rewrite ldiff_sub, land_3 by lia. unfold masked.
  pose proof (pow2_pos j Hj).
  rewrite Z.pow_add_r by lia. change (2 ^ 2) with 4.
  rewrite <- Z.div_div by lia.
  pose proof (Z.div_mod x (2 ^ j) ltac:(lia)) as E1.
  pose proof (Z.div_mod (x / 2 ^ j) 4 ltac:(lia)) as E2.
  rewrite E1 at 1. rewrite E2 at 1. lia.
Qed.

Lemma masked_inj x y j : 0 <= j -> masked x j = masked y j ->
  x / 2 ^ (j + 2) = y / 2 ^ (j + 2) /\ x mod 2 ^ j = y mod 2 ^ j.
Proof.
  intros Hj E. pose proof (pow2_pos j Hj) as Pj. pose proof (pow2_mono j (j + 2) ltac:(lia)) as M.
  pose proof (Z.mod_pos_bound x (2 ^ j) ltac:(lia)) as B1.
  pose proof (Z.mod_pos_bound y (2 ^ j) ltac:(lia)) as B2.
  unfold masked in E.
  rewrite (Z.mul_comm (x / _)), (Z.mul_comm (y / _)) in E.
  apply Z.div_mod_unique in E; [exact E| |]; left.
  - split; [apply B1|eapply Z.lt_le_trans; [apply B1|exact M]].
  - split; [apply B2|eapply Z.lt_le_trans; [apply B2|exact M]].
Qed.

Lemma sibling_mask_code d : wf d ->
  sibling_mask (code d) = Some (not64 (3 * 2 ^ (2 * (30 - lv d) + 1))).
Proof.
  intros H. unfold sibling_mask. rewrite lsb_code by assumption. destruct H as [H _].
  pose proof (pow4_pos (30 - lv d) ltac:(lia)). pose proof (pow4_mono (30 - lv d) 30 ltac:(lia)).
  rewrite pow4_30 in *.
  rewrite shl64_ok by lia. rewrite shl64_ok by lia. rewrite add64_ok by lia.
  do 2 f_equal. rewrite Z.pow_add_r, <- pow4_2 by lia. lia.
Qed.

(* the mask comparison of a with d *)
Definition mask_eq (a d : cell) : bool :=
  Z.land (code a) (not64 (3 * 2 ^ (2 * (30 - lv d) + 1)))
  =? Z.land (code d) (not64 (3 * 2 ^ (2 * (30 - lv d) + 1))).

Lemma mask_eq_iff a d : wf a -> wf d ->
  (mask_eq a d = true <-> lv a = lv d /\ ix a / 4 = ix d / 4).
Proof.
  intros Ha Hd. unfold mask_eq. rewrite Z.eqb_eq.
  pose proof (code_bounds a Ha). pose proof (code_bounds d Hd).
  destruct (Ha) as [La _]. destruct (Hd) as [Ld _].
  set (j := 2 * (30 - lv d) + 1).
  assert (0 <= 3 * 2 ^ j < 2 ^ 64).
  { unfold j. rewrite Z.pow_add_r, <- pow4_2 by lia.
    pose proof (pow4_pos (30 - lv d) ltac:(lia)). pose proof (pow4_mono (30 - lv d) 30 ltac:(lia)).
    rewrite pow4_30 in *. lia. }
  rewrite !land_not64 by lia. rewrite !ldiff_3 by (unfold j; lia).
  assert (Md : code d mod 2 ^ j = 2 ^ (2 * (30 - lv d))).
  { rewrite code_odd_part by assumption. unfold j. rewrite Z.pow_add_r by lia.
    pose proof (pow2_pos (2 * (30 - lv d)) ltac:(lia)).
    rewrite (Z.mul_comm _ (2 ^ 1)). rewrite Z.mul_mod_distr_r by lia. change (2 ^ 1) with 2.
    replace (2 * ix d + 1) with (1 + ix d * 2) by lia. rewrite Z.mod_add by lia.
    change (1 mod 2) with 1. lia. }
  assert (Q : forall c, wf c -> lv c = lv d -> code c / 2 ^ (j + 2) = ix c / 4).
  { intros c Hc E. rewrite code_odd_part by assumption. unfold j. rewrite E.
    replace (2 * (30 - lv d) + 1 + 2) with (3 + 2 * (30 - lv d)) by lia.
    rewrite Z.pow_add_r by lia. pose proof (pow2_pos (2 * (30 - lv d)) ltac:(lia)).
    rewrite Z.div_mul_cancel_r by lia. change (2 ^ 3) with (2 * 4).
    rewrite <- Z.div_div by lia. f_equal.
    rewrite Z.mul_comm, Z.div_add_l by lia. change (1 / 2) with 0. lia. }
  split.
  - intros E. apply masked_inj in E; [|unfold j; lia]. destruct E as [E1 E2].
    assert (lv a = lv d).
    { rewrite Md in E2.
      assert (Pj : 0 < 2 ^ j) by (apply pow2_pos; unfold j; lia).
      pose proof (Z.div_mod (code a) (2 ^ j) ltac:(lia)) as DM. rewrite E2 in DM.
      assert (X : (2 * ix a + 1) * 2 ^ (2 * (30 - lv a)) =
              (2 * (code a / 2 ^ j) + 1) * 2 ^ (2 * (30 - lv d))).
      { rewrite <- (code_odd_part a) by assumption. rewrite DM at 1.
        unfold j at 1. rewrite (Z.pow_add_r 2 (2 * (30 - lv d)) 1) by lia. change (2 ^ 1) with 2. lia. }
      apply odd_pow_inj in X; lia. }
    split; [assumption|]. rewrite !Q in E1 by (auto; lia). assumption.
  - intros [E1 E2]. unfold masked. rewrite !Q by auto. rewrite E2. f_equal.
    rewrite Md. assert (Ma : code a mod 2 ^ j = 2 ^ (2 * (30 - lv d))); [|exact Ma].
    rewrite code_odd_part by assumption. rewrite E1. unfold j. rewrite Z.pow_add_r by lia.
    pose proof (pow2_pos (2 * (30 - lv d)) ltac:(lia)).
    rewrite (Z.mul_comm _ (2 ^ 1)). rewrite Z.mul_mod_distr_r by lia. change (2 ^ 1) with 2.
    replace (2 * ix a + 1) with (1 + ix a * 2) by lia. rewrite Z.mod_add by lia.
    change (1 mod 2) with 1. lia.
Qed.

Lemma add8_lxor q r : 0 <= r < 8 -> 8 * q + r = Z.lxor (8 * q) r.
Proof.
  intros Hr. apply Z.add_nocarry_lxor. apply Z.bits_inj'; intros n Hn.
  rewrite Z.land_spec, Z.bits_0. change 8 with (2 ^ 3). rewrite Z.mul_comm, <- Z.shiftl_mul_pow2 by lia.
  rewrite Z.shiftl_spec by lia. destruct (Z.lt_ge_cases n 3).
  - rewrite Z.testbit_neg_r by lia. reflexivity.
  - destruct (Z.eq_dec r 0) as [->|]; [rewrite Z.bits_0, andb_false_r; reflexivity|].
    rewrite (Z.bits_above_log2 r); [apply andb_false_r|lia|].
    apply Z.log2_lt_pow2; [lia|]. apply Z.lt_le_trans with (2 ^ 3); [lia|].
    apply pow2_mono. lia.
Qed.

Lemma lxor4 a : forall r0 r1 r2 r3,
  Z.lxor (Z.lxor (Z.lxor (Z.lxor a r0) (Z.lxor a r1)) (Z.lxor a r2)) (Z.lxor a r3)
  = Z.lxor (Z.lxor (Z.lxor r0 r1) r2) r3.
Proof.
  intros. apply Z.bits_inj'; intros n Hn. rewrite !Z.lxor_spec.
  destruct (Z.testbit a n), (Z.testbit r0 n), (Z.testbit r1 n), (Z.testbit r2 n), (Z.testbit r3 n); reflexivity.
Qed.

Lemma lxor_children p : wf p -> lv p < 30 ->
  Z.lxor (Z.lxor (Z.lxor (code (child p 0)) (code (child p 1))) (code (child p 2))) (code (child p 3)) = 0.
Proof.
  intros Hp L.
  assert (E : forall k, code (child p k) = Z.shiftl (8 * ix p + (2 * k + 1)) (2 * (29 - lv p))).
  { intros k. unfold code, child; cbn [ix lv]. rewrite Z.shiftl_mul_pow2 by lia.
    rewrite pow4_2 by lia. replace (30 - (lv p + 1)) with (29 - lv p) by lia. f_equal. lia. }
  rewrite !E, <- !Z.shiftl_lxor.
  rewrite !add8_lxor by lia. rewrite lxor4.
  change (Z.lxor (Z.lxor (Z.lxor (2 * 0 + 1) (2 * 1 + 1)) (2 * 2 + 1)) (2 * 3 + 1)) with 0.
  apply Z.shiftl_0_l.
Qed.

(* four cells in curve order pass the test iff they are the children of one cell *)
Definition four_siblings (a b c d : cell) : Prop :=
  exists p, wf p /\ lv p < 30 /\ a = child p 0 /\ b = child p 1 /\ c = child p 2 /\ d = child p 3.

Lemma child_of_index c L q r : lv c = L + 1 -> ix c = 4 * q + r -> c = child (Cell L q) r.
Proof. destruct c; cbn; intros; unfold child; cbn; congruence. Qed.

Lemma sibling_test a b c d : wf a -> wf b -> wf c -> wf d ->
  hi a <= lo b -> hi b <= lo c -> hi c <= lo d ->
  (mask_eq a d = true /\ mask_eq b d = true /\ mask_eq c d = true /\ lv d <> 0 <-> four_siblings a b c d).
Proof.
  intros Ha Hb Hc Hd L1 L2 L3. rewrite !mask_eq_iff by assumption. split.
  - intros ((La & Ia) & (Lb & Ib) & (Lc & Ic) & N).
    assert (P : 0 < 4 ^ (30 - lv d)) by (apply pow4_pos; destruct Hd; lia).
    unfold lo, hi in *. rewrite La, Lb, Lc in *.
    assert (ix a + 1 <= ix b) by nia. assert (ix b + 1 <= ix c) by nia. assert (ix c + 1 <= ix d) by nia.
    pose proof (Z.div_mod (ix a) 4 ltac:(lia)). pose proof (Z.mod_pos_bound (ix a) 4 ltac:(lia)).
    pose proof (Z.div_mod (ix b) 4 ltac:(lia)). pose proof (Z.mod_pos_bound (ix b) 4 ltac:(lia)).
    pose proof (Z.div_mod (ix c) 4 ltac:(lia)). pose proof (Z.mod_pos_bound (ix c) 4 ltac:(lia)).
    pose proof (Z.div_mod (ix d) 4 ltac:(lia)). pose proof (Z.mod_pos_bound (ix d) 4 ltac:(lia)).
    exists (Cell (lv d - 1) (ix d / 4)). split; [|split; [cbn; destruct Hd; lia|]].
    + destruct Hd as [Hd1 Hd2]. split; cbn; [lia|].
      replace (lv d) with ((lv d - 1) + 1) in Hd2 by lia. rewrite pow4_succ in Hd2 by lia. lia.
    + repeat split; apply child_of_index; lia.
  - intros (p & Hp & Lp & -> & -> & -> & ->). cbn [lv ix child].
    assert (D : forall k, 0 <= k < 4 -> (4 * ix p + k) / 4 = ix p).
    { intros k Hk. rewrite Z.mul_comm, Z.div_add_l, Z.div_small by lia. lia. }
    rewrite !D by lia. destruct Hp as [Hp _]. repeat split; lia.
Qed.

Lemma are_siblings_code a b c d : wf a -> wf b -> wf c -> wf d ->
  hi a <= lo b -> hi b <= lo c -> hi c <= lo d ->
  exists r, are_siblings (code a) (code b) (code c) (code d) = Some r /\
    (r = true <-> four_siblings a b c d).
Proof.
  intros Ha Hb Hc Hd L1 L2 L3. pose proof (sibling_test a b c d Ha Hb Hc Hd L1 L2 L3) as T.
  unfold are_siblings.
  destruct (Z.eqb_spec (Z.lxor (Z.lxor (code a) (code b)) (code c)) (code d)) as [X|X]; cbn [negb].
  - rewrite sibling_mask_code by assumption. fold (mask_eq a d) (mask_eq b d) (mask_eq c d).
    destruct (mask_eq a d); cbn [negb]; [|eexists; split; [reflexivity|]; rewrite <- T; split; [discriminate|intuition congruence]].
    destruct (mask_eq b d); cbn [negb]; [|eexists; split; [reflexivity|]; rewrite <- T; split; [discriminate|intuition congruence]].
    destruct (mask_eq c d); cbn [negb]; [|eexists; split; [reflexivity|]; rewrite <- T; split; [discriminate|intuition congruence]].
    rewrite is_face_code by assumption. eexists; split; [reflexivity|]. rewrite <- T.
    destruct (Z.eqb_spec (lv d) 0); cbn; intuition congruence.
  - eexists; split; [reflexivity|]. split; [discriminate|].
    intros (p & Hp & Lp & -> & -> & -> & ->). exfalso. apply X.
    apply Z.lxor_eq. apply lxor_children; assumption.
Qed.

(** ** C32: validity tests *)

Lemma valid_id_dec x : 0 <= x < 2 ^ 64 -> x <> 2 ^ 63 ->
  (exists c, wf c /\ x = code c /\ is_valid x = Some true) \/
  (~ valid_id x /\ is_valid x = Some false).
Proof.
  intros Hx Hn. destruct (is_valid_correct x Hx Hn) as (b & E & V).
  destruct b.
  - left. destruct (proj1 V eq_refl) as (c & W & Ec). eauto.
  - right. split; [|auto]. intros A. apply V in A. discriminate.
Qed.

Lemma Forall_rev_iff {A} (P : A -> Prop) l : Forall P (rev l) <-> Forall P l.
Proof. rewrite !Forall_forall. split; intros H x I; apply H; [apply -> in_rev|apply <- in_rev]; auto. Qed.

(* no four siblings, over a reversed prefix plus rest *)
Definition no_sib (cs : list cell) : Prop :=
  forall p, wf p -> ~ (forall k, 0 <= k < 4 -> In (child p k) cs).

(* in a valid list, four siblings are consecutive *)
Lemma siblings_consecutive_last cs d p : valid_cells (cs ++ [d]) -> wf p ->
  (forall k, 0 <= k < 4 -> In (child p k) (cs ++ [d])) -> ~ (forall k, 0 <= k < 4 -> In (child p k) cs) ->
  exists pre, cs = pre ++ [child p 0; child p 1; child p 2] /\ d = child p 3 /\ lv p < 30.
Proof.
  intros V Wp I N.
  assert (Lp : lv p < 30).
  { assert (W : wf (child p 0)) by (eapply valid_wf; eauto; apply I; lia).
    destruct W as [W _]. cbn in W. lia. }
  pose proof (pow4_pos (29 - lv p) ltac:(destruct Wp; lia)) as P.
  assert (G : forall k, lo (child p k) = lo p + k * 4 ^ (29 - lv p) /\ hi (child p k) = lo p + (k + 1) * 4 ^ (29 - lv p)).
  { intros k. destruct (lo_child p k Wp Lp) as (A & B & _). auto. }
  set (Q := 4 ^ (29 - lv p)) in *.
  (* d is one of the four, hence child 3 *)
  assert (D : d = child p 3).
  { assert (E : exists k, 0 <= k < 4 /\ d = child p k).
    { destruct (cell_dec d (child p 0)); [exists 0; split; [lia|auto]|].
      destruct (cell_dec d (child p 1)); [exists 1; split; [lia|auto]|].
      destruct (cell_dec d (child p 2)); [exists 2; split; [lia|auto]|].
      destruct (cell_dec d (child p 3)); [exists 3; split; [lia|auto]|].
      exfalso. apply N. intros k Hk. specialize (I k Hk). apply in_app_or in I.
      destruct I as [|[E|[]]]; [auto|]. assert (k = 0 \/ k = 1 \/ k = 2 \/ k = 3) as X by lia.
      repeat destruct X as [->|X]; subst; congruence. }
    destruct E as (k & Hk & ->). destruct (Z.eq_dec k 3) as [->|N3]; [auto|exfalso].
    assert (I3 : In (child p 3) cs).
    { specialize (I 3 ltac:(lia)). apply in_app_or in I. destruct I as [|[E|[]]]; [auto|].
      unfold child in E. injection E. lia. }
    apply valid_cells_app in V. destruct V as (_ & _ & V).
    specialize (V (child p 3) (child p k) I3 (or_introl eq_refl)).
    rewrite (proj1 (G k)), (proj2 (G 3)) in V. nia. }
  subst d.
  (* general: if child p k in cs and everything of cs is before child p (k+1), cs ends with it *)
  assert (LAST : forall k l, 0 <= k < 4 -> valid_cells l -> In (child p k) l ->
            (forall c, In c l -> hi c <= lo p + (k + 1) * Q) -> exists pre, l = pre ++ [child p k]).
  { intros k l Hk Vl Il B. destruct (exists_last (l := l)) as (pre & z & ->).
    { intros ->; destruct Il. }
    exists pre. f_equal. f_equal. apply in_app_or in Il. destruct Il as [Il|[E|[]]]; [exfalso|auto].
    apply valid_cells_app in Vl. destruct Vl as (_ & Vz & X).
    specialize (X (child p k) z Il (or_introl eq_refl)).
    pose proof (lohi z (valid_wf _ z Vz (or_introl eq_refl))).
    specialize (B z ltac:(apply in_or_app; right; left; reflexivity)).
    rewrite (proj2 (G k)) in X. lia. }
  assert (STEP : forall k l, 0 <= k < 3 -> valid_cells (l ++ [child p (k + 1)]) ->
            In (child p k) (l ++ [child p (k + 1)]) -> exists pre, l = pre ++ [child p k]).
  { intros k l Hk Vl Il. apply LAST; [lia| | |].
    - apply valid_cells_app in Vl. tauto.
    - apply in_app_or in Il. destruct Il as [|[E|[]]]; [auto|]. exfalso. unfold child in E. injection E. lia.
    - intros c Ic. apply valid_cells_app in Vl. destruct Vl as (_ & _ & X).
      specialize (X c _ Ic (or_introl eq_refl)). rewrite (proj1 (G (k + 1))) in X. lia. }
  assert (X2 : exists pre, cs = pre ++ [child p 2]).
  { apply STEP; [lia|exact V|apply I; lia]. }
  destruct X2 as (l2 & ->).
  assert (V2 : valid_cells (l2 ++ [child p 2])) by (apply valid_cells_app in V; tauto).
  assert (I2 : forall k, 0 <= k < 3 -> In (child p k) (l2 ++ [child p 2])).
  { intros k Hk. specialize (I k ltac:(lia)). apply in_app_or in I. destruct I as [|[E|[]]]; [auto|].
    unfold child in E. injection E. lia. }
  assert (X1 : exists pre, l2 = pre ++ [child p 1]).
  { apply (STEP 1); [lia|exact V2|apply I2; lia]. }
  destruct X1 as (l1 & ->).
  assert (V1 : valid_cells (l1 ++ [child p 1])) by (apply valid_cells_app in V2; tauto).
  assert (I1 : In (child p 0) (l1 ++ [child p 1])).
  { specialize (I2 0 ltac:(lia)). apply in_app_or in I2. destruct I2 as [|[E|[]]]; [auto|].
    unfold child in E. injection E. lia. }
  assert (X0 : exists pre, l1 = pre ++ [child p 0]).
  { apply (STEP 0); [lia|exact V1|exact I1]. }
  destruct X0 as (l0 & ->).
  exists l0. rewrite <- !app_assoc. cbn. auto.
Qed.

Lemma valid_cells_snoc cs d : valid_cells (cs ++ [d]) <->
  valid_cells cs /\ wf d /\ forall c, In c cs -> hi c <= lo d.
Proof.
  rewrite valid_cells_app. split.
  - intros (A & B & C). split; [auto|]. split; [eapply valid_wf; eauto; left; auto|].
    intros c I. apply C; cbn; auto.
  - intros (A & B & C). split; [auto|]. split.
    + split; [constructor; auto|repeat constructor].
    + intros c e I [<-|[]]. auto.
Qed.

(* sibling-freeness of l ++ [d] in terms of the last four elements *)
Lemma no_sib_snoc l d : valid_cells (l ++ [d]) -> no_sib l ->
  (no_sib (l ++ [d]) <->
   forall pre a b c, l = pre ++ [a; b; c] -> ~ four_siblings a b c d).
Proof.
  intros V N. split.
  - intros N2 pre a b c -> (p & Wp & Lp & -> & -> & -> & ->). apply (N2 p Wp).
    intros k Hk. assert (k = 0 \/ k = 1 \/ k = 2 \/ k = 3) as E by lia.
    rewrite <- app_assoc. apply in_or_app. right. cbn.
    repeat destruct E as [->|E]; subst; auto.
  - intros H p Wp I.
    destruct (siblings_consecutive_last l d p V Wp I (N p Wp)) as (pre & E & D & Lp).
    apply (H pre _ _ _ E). exists p. auto 10.
Qed.

Lemma map_code_inj cs ds : Forall wf cs -> Forall wf ds -> map code cs = map code ds -> cs = ds.
Proof.
  revert ds. induction cs as [|c cs IH]; intros [|d ds] Fc Fd E; cbn in E; try discriminate; auto.
  inversion Fc; inversion Fd; subst. injection E as E1 E2. f_equal; auto using code_inj.
Qed.

Lemma rev3 {A} (l : list A) a b c : rev (c :: b :: a :: l) = rev l ++ [a; b; c].
Proof. cbn. rewrite <- !app_assoc. reflexivity. Qed.

Lemma check_loop_correct (norm : bool) : forall v bef,
  valid_cells (rev bef) -> (norm = true -> no_sib (rev bef)) ->
  Forall (fun x => 0 <= x < 2 ^ 64 /\ x <> 2 ^ 63) v ->
  exists r, check_loop norm (map code bef) v = Some r /\
    (r = true <-> exists cs, v = map code cs /\ valid_cells (rev bef ++ cs) /\
                    (norm = true -> no_sib (rev bef ++ cs))).
Proof.
  induction v as [|x v IH]; intros bef V N F; cbn [check_loop].
  - exists true. split; [reflexivity|]. split; [|auto]. intros _. exists [].
    rewrite app_nil_r. auto.
  - apply Forall_cons_iff in F. destruct F as [[Hx Hn] F].
    assert (REJ : forall Q : Prop, ~ Q -> exists r : bool, Some false = Some r /\ (r = true <-> Q)).
    { intros Q NQ. exists false. split; [reflexivity|]. split; [discriminate|tauto]. }
    destruct (valid_id_dec x Hx Hn) as [(c & Wc & -> & ->)|[NV ->]]; cbn [negb].
    2:{ apply REJ. intros (cs & E & Vc & _). destruct cs as [|d cs]; [discriminate|]. cbn in E.
        injection E as E1 E2. apply NV. exists d. split; [|auto].
        eapply valid_wf; eauto. apply in_or_app. right. left. auto. }
    assert (EQ : forall cs, code c :: v = map code cs -> valid_cells (rev bef ++ cs) ->
               exists cs', cs = c :: cs' /\ v = map code cs').
    { intros cs E Vc. destruct cs as [|d cs]; [discriminate|]. cbn in E. injection E as E1 E2.
      assert (d = c) as ->.
      { apply code_inj; auto. eapply valid_wf; eauto. apply in_or_app. right. left. auto. }
      eauto. }
    pose proof (lohi c Wc) as Lc.
    (* the overlap test *)
    assert (OV : exists ov, match map code bef with
          | [] => Some false
          | p :: _ => let* hi0 := range_max p in let* lo0 := range_min (code c) in Some (hi0 >=? lo0)
          end = Some ov /\ (ov = false <-> forall d, In d (rev bef) -> hi d <= lo c)).
    { destruct bef as [|p bef]; cbn [map].
      - exists false. split; [reflexivity|]. split; [intros _ d []|auto].
      - cbn [rev] in V. apply valid_cells_snoc in V. destruct V as (Vb & Wp & Hp).
        rewrite range_max_hi, range_min_lo by assumption. eexists; split; [reflexivity|].
        rewrite Z.geb_leb, Z.leb_gt. pose proof (lohi p Wp). split.
        + intros L d I. cbn [rev] in I. apply in_app_or in I. destruct I as [I|[<-|[]]]; [|lia].
          specialize (Hp d I). pose proof (lohi p Wp). lia.
        + intros H1. specialize (H1 p). cbn [rev] in H1.
          assert (hi p <= lo c) by (apply H1, in_or_app; right; left; auto). lia. }
    destruct OV as (ov & -> & OV). destruct ov.
    { apply REJ. intros (cs & E & Vc & _). destruct (EQ cs E Vc) as (cs' & -> & _).
      assert (true = false); [|discriminate]. apply OV. intros d I.
      apply valid_cells_app in Vc. destruct Vc as (_ & _ & Vc). apply Vc; cbn; auto. }
    assert (Vn : valid_cells (rev bef ++ [c])).
    { apply valid_cells_snoc. split; [auto|]. split; [auto|]. apply OV. auto. }
    assert (SIB : exists sb, (if norm then
         match map code bef with
         | p1 :: p2 :: p3 :: _ => are_siblings p3 p2 p1 (code c)
         | _ => Some false
         end else Some false) = Some sb /\
         (sb = false <-> (norm = true -> no_sib (rev bef ++ [c])))).
    { destruct norm; [|exists false; split; [reflexivity|split; [discriminate|auto]]].
      pose proof (no_sib_snoc (rev bef) c Vn (N eq_refl)) as NS.
      destruct bef as [|p1 [|p2 [|p3 bef]]]; cbn [map].
      - exists false. split; [reflexivity|]. split; [|auto]. intros _ _. apply NS.
        intros pre a b d E. cbn in E. destruct pre; discriminate.
      - exists false. split; [reflexivity|]. split; [|auto]. intros _ _. apply NS.
        intros pre a b d E. cbn in E. destruct pre as [|? [|? ?]]; discriminate.
      - exists false. split; [reflexivity|]. split; [|auto]. intros _ _. apply NS.
        intros pre a b d E. cbn in E. destruct pre as [|? [|? [|? ?]]]; discriminate.
      - rewrite rev3 in V, NS, Vn, OV.
        assert (W : wf p1 /\ wf p2 /\ wf p3 /\ hi p3 <= lo p2 /\ hi p2 <= lo p1 /\ hi p1 <= lo c).
        { pose proof (proj1 (valid_cells_app _ _) V) as (_ & V3 & _).
          rewrite !valid_cells_cons, !Forall_forall in V3.
          destruct V3 as (A3 & (A2 & (A1 & _) & F1) & F2).
          repeat split; try tauto; try apply A1; try apply A2; try apply A3.
          - apply F2. left; auto.
          - apply F1. left; auto.
          - apply OV; auto. apply in_or_app. right. cbn. auto. }
        destruct W as (W1 & W2 & W3 & H1 & H2 & H3).
        destruct (are_siblings_code p3 p2 p1 c) as (r & -> & R); auto.
        exists r. split; [reflexivity|]. rewrite rev3, NS. split.
        + intros -> _ pre a b d E FS. assert (false = true); [|discriminate]. apply R.
          apply (f_equal (@rev cell)) in E. rewrite !rev_app_distr in E. cbn in E.
          injection E as -> -> -> _. exact FS.
        + intros H. destruct r; [|reflexivity]. exfalso. apply (H eq_refl (rev bef) p3 p2 p1 eq_refl).
          apply R. reflexivity. }
    destruct SIB as (sb & -> & SB). destruct sb.
    { apply REJ. intros (cs & E & Vc & Nc). destruct (EQ cs E Vc) as (cs' & -> & _).
      assert (true = false); [|discriminate]. apply SB. intros En p Wp I.
      apply (Nc En p Wp). intros k Hk. specialize (I k Hk).
      rewrite (app_assoc _ [c] cs'). apply in_or_app. left. exact I. }
    destruct (IH (c :: bef)) as (r & R & RV); [exact Vn|intros En; apply SB; auto|exact F|].
    exists r. split; [exact R|]. rewrite RV. cbn [rev]. split.
    + intros (cs & -> & Vc & Nc). exists (c :: cs). rewrite <- app_assoc in *. auto.
    + intros (cs & E & Vc & Nc). destruct (EQ cs E Vc) as (cs' & -> & E'). exists cs'.
      rewrite <- app_assoc. auto.
Qed.
