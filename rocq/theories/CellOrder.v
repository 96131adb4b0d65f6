(** Cells as dyadic intervals of leaves; facts about sorted lists of cells. *)
From Verif Require Import Base Spec CellIdModel CellIdArith CellIdProofs.

Definition lo (c : cell) : Z := ix c * 4 ^ (30 - lv c).
Definition hi (c : cell) : Z := (ix c + 1) * 4 ^ (30 - lv c).

Lemma leaves_lohi c m : leaves c m <-> lo c <= m < hi c.
Proof. reflexivity. Qed.

Lemma code_lohi c : code c = lo c + hi c.
Proof. unfold code, lo, hi. lia. Qed.

Lemma lohi c : wf c -> 0 <= lo c /\ lo c < hi c /\ hi c <= 6 * 4 ^ 30.
Proof.
  intros H. destruct (wf_data c H) as (P & Q & EP & _ & HP & HQ & E & Hi & _).
  unfold lo, hi. rewrite <- EP, <- E. nia.
Qed.

Lemma range_min_lo c : wf c -> range_min (code c) = Some (2 * lo c + 1).
Proof. exact (range_min_code c). Qed.
Lemma range_max_hi c : wf c -> range_max (code c) = Some (2 * hi c - 1).
Proof. intros H. rewrite range_max_code by assumption. f_equal. unfold hi. lia. Qed.

Lemma before_iff a b : wf a -> wf b -> (before a b <-> hi a <= lo b).
Proof.
  intros Ha Hb. pose proof (lohi a Ha). pose proof (lohi b Hb).
  unfold before. split.
  - intros B. pose proof (B (hi a - 1) (lo b)) as C. rewrite !leaves_lohi in C. lia.
  - intros L m m'. rewrite !leaves_lohi. lia.
Qed.

Lemma anc_iff a b : wf a -> wf b -> (ancestor_or_self a b <-> lo a <= lo b /\ hi b <= hi a).
Proof.
  intros Ha Hb. pose proof (lohi a Ha). pose proof (lohi b Hb).
  rewrite ancestor_leaves by assumption. split.
  - intros I. pose proof (I (lo b)) as I1. pose proof (I (hi b - 1)) as I2.
    rewrite !leaves_lohi in I1, I2. lia.
  - intros L m. rewrite !leaves_lohi. lia.
Qed.

(* laminarity *)
Lemma cases a b : wf a -> wf b ->
  hi a <= lo b \/ hi b <= lo a \/
  (lo a <= lo b /\ hi b <= hi a) \/ (lo b <= lo a /\ hi a <= hi b).
Proof.
  intros Ha Hb. pose proof (lohi a Ha). pose proof (lohi b Hb).
  destruct (leaves_laminar a b Ha Hb) as [L|[L|L]].
  - rewrite anc_iff in L by assumption. auto.
  - rewrite anc_iff in L by assumption. auto.
  - destruct (not_intersecting_ordered a b Ha Hb L) as [O|O]; unfold lo, hi in *; lia.
Qed.

(* a cell strictly inside another lies in one of its halves *)
Lemma halves a b : wf a -> wf b -> lo a <= lo b -> hi b <= hi a -> a <> b ->
  2 * hi b <= lo a + hi a \/ lo a + hi a <= 2 * lo b.
Proof.
  intros Ha Hb L1 L2 N.
  assert (A : ancestor_or_self a b) by (apply anc_iff; auto).
  destruct A as [Hl E].
  destruct (Z.eq_dec (lv a) (lv b)) as [El|Nl].
  { exfalso. apply N. rewrite El, anc_self in E. congruence. }
  destruct (Ha) as [La _], (Hb) as [Lb _].
  assert (E2 : 4 ^ (30 - lv a) = 2 * 2 * 4 ^ (lv b - lv a - 1) * 4 ^ (30 - lv b)).
  { rewrite <- Z.mul_assoc, <- pow4_add by lia. change (2 * 2) with 4.
    rewrite <- pow4_succ by lia. f_equal. lia. }
  pose proof (pow4_pos (lv b - lv a - 1) ltac:(lia)).
  pose proof (pow4_pos (30 - lv b) ltac:(lia)).
  unfold lo, hi in *. rewrite E2 in *.
  set (P := 4 ^ (30 - lv b)) in *. set (D := 4 ^ (lv b - lv a - 1)) in *.
  destruct (Z_le_dec (2 * (ix b + 1)) ((2 * ix a + 1) * (2 * 2 * D))) as [G|G].
  - left. replace (ix a * (2 * 2 * D * P) + (ix a + 1) * (2 * 2 * D * P))
      with ((2 * ix a + 1) * (2 * 2 * D) * P) by lia.
    replace (2 * ((ix b + 1) * P)) with (2 * (ix b + 1) * P) by lia.
    apply Z.mul_le_mono_nonneg_r; lia.
  - right. replace (ix a * (2 * 2 * D * P) + (ix a + 1) * (2 * 2 * D * P))
      with ((2 * ix a + 1) * (2 * 2 * D) * P) by lia.
    replace (2 * (ix b * P)) with (2 * ix b * P) by lia.
    apply Z.mul_le_mono_nonneg_r; [lia|].
    assert (exists z, (2 * ix a + 1) * (2 * 2 * D) = 2 * z) as [z Ez].
    { exists ((2 * ix a + 1) * (2 * D)). lia. }
    lia.
Qed.

Lemma cell_eq a b : wf a -> wf b -> lo a = lo b -> hi a = hi b -> a = b.
Proof. intros. apply code_inj; auto. rewrite !code_lohi. lia. Qed.

(* id comparisons *)
Lemma code_in_range a b : wf a -> wf b ->
  (2 * lo a + 1 <= code b <= 2 * hi a - 1 <-> lo a <= lo b /\ hi b <= hi a).
Proof.
  intros Ha Hb. rewrite <- anc_iff by assumption. rewrite <- code_between by assumption.
  unfold lo, hi. lia.
Qed.

Lemma lo_child c k : wf c -> lv c < 30 ->
  lo (child c k) = lo c + k * 4 ^ (29 - lv c) /\ hi (child c k) = lo c + (k + 1) * 4 ^ (29 - lv c)
  /\ hi c = lo c + 4 * 4 ^ (29 - lv c).
Proof.
  intros [H _] L. unfold lo, hi, child; cbn [lv ix].
  replace (30 - lv c) with ((29 - lv c) + 1) by lia. rewrite pow4_succ by lia.
  replace (30 - (lv c + 1)) with (29 - lv c) by lia. lia.
Qed.

(* if a is a strict ancestor of child p k then a is an ancestor-or-self of p *)
Lemma anc_of_child a p k : wf a -> wf p -> lv p < 30 -> 0 <= k < 4 ->
  lo a <= lo (child p k) -> hi (child p k) <= hi a -> a <> child p k ->
  lo a <= lo p /\ hi p <= hi a.
Proof.
  intros Ha Hp Lp Hk L1 L2 N.
  pose proof (wf_child p k Hp Lp Hk) as Wc.
  destruct (lo_child p k Hp Lp) as (E1 & E2 & E3).
  pose proof (pow4_pos (29 - lv p) ltac:(destruct Hp; lia)) as PP.
  destruct (cases a p Ha Hp) as [C|[C|[C|C]]]; try nia.
  (* a inside p, contains child k, differs from it: a = p *)
  destruct (Z_le_dec (lo a) (lo p)) as [D|D]; [destruct (Z_le_dec (hi p) (hi a)); [auto|]|].
  - exfalso. apply N. assert (Hl : ancestor_or_self p a) by (apply anc_iff; auto).
    assert (Hl2 : ancestor_or_self a (child p k)) by (apply anc_iff; auto; lia).
    destruct Hl as [Hl _], Hl2 as [Hl2 E]. cbn [lv child] in Hl2.
    destruct (Z.eq_dec (lv a) (lv p)) as [El|Nl].
    + exfalso. rewrite El in E. rewrite anc_child in E by (destruct Hp; lia). subst. lia.
    + rewrite <- E. replace (lv a) with (lv (child p k)) by (cbn; lia). apply anc_self.
  - exfalso. apply N. assert (Hl : ancestor_or_self p a) by (apply anc_iff; auto).
    assert (Hl2 : ancestor_or_self a (child p k)) by (apply anc_iff; auto; lia).
    destruct Hl as [Hl _], Hl2 as [Hl2 E]. cbn [lv child] in Hl2.
    destruct (Z.eq_dec (lv a) (lv p)) as [El|Nl].
    + exfalso. rewrite El in E. rewrite anc_child in E by (destruct Hp; lia). subst. lia.
    + rewrite <- E. replace (lv a) with (lv (child p k)) by (cbn; lia). apply anc_self.
Qed.

(** ** Lists of cells *)

Definition lohi_sorted (cs : list cell) : Prop :=
  StronglySorted (fun a b => hi a <= lo b) cs.

Lemma valid_cells_iff cs : valid_cells cs <-> Forall wf cs /\ lohi_sorted cs.
Proof.
  unfold valid_cells, lohi_sorted. split; intros [F S]; split; auto.
  - induction S as [|c cs S IH H]; constructor.
    + apply IH. inversion F; auto.
    + inversion F; subst. rewrite Forall_forall in *. intros d Hd.
      apply before_iff; auto.
  - induction S as [|c cs S IH H]; constructor.
    + apply IH. inversion F; auto.
    + inversion F; subst. rewrite Forall_forall in *. intros d Hd.
      apply before_iff; auto.
Qed.

Lemma valid_cells_cons c cs : valid_cells (c :: cs) <->
  wf c /\ valid_cells cs /\ Forall (fun d => hi c <= lo d) cs.
Proof.
  rewrite !valid_cells_iff. unfold lohi_sorted. split.
  - intros [F S]. inversion F; inversion S; subst. auto.
  - intros (W & [F S] & H). split; constructor; auto.
Qed.

Lemma valid_cells_app a b : valid_cells (a ++ b) <->
  valid_cells a /\ valid_cells b /\ (forall c d, In c a -> In d b -> hi c <= lo d).
Proof.
  induction a as [|c a IH].
  - cbn. split; [intros H; split; [split; constructor|split; [exact H|intros c d []]]|tauto].
  - cbn [app]. rewrite !valid_cells_cons, IH, !Forall_forall. split.
    + intros (W & (Va & Vb & H) & F). split; [split; [auto|split; [auto|]]|split; [auto|]].
      * intros d Hd. apply F, in_or_app; auto.
      * intros x d [<-|Hx] Hd; [apply F, in_or_app; auto|auto].
    + intros ((W & Va & F) & Vb & H). split; [auto|split; [split; [auto|split; [auto|]]|]].
      * intros x d Hx Hd. apply H; cbn; auto.
      * intros d Hd. apply in_app_or in Hd. destruct Hd; [auto|]. apply H; cbn; auto.
Qed.

Lemma valid_wf cs c : valid_cells cs -> In c cs -> wf c.
Proof. intros [F _] H. rewrite Forall_forall in F. auto. Qed.

(* distinct members of a valid list are disjoint *)
Lemma valid_disjoint cs c d : valid_cells cs -> In c cs -> In d cs ->
  c = d \/ hi c <= lo d \/ hi d <= lo c.
Proof.
  induction cs as [|e cs IH]; intros V Hc Hd; [destruct Hc|].
  apply valid_cells_cons in V. destruct V as (W & V & F). rewrite Forall_forall in F.
  destruct Hc as [<-|Hc], Hd as [<-|Hd]; auto.
Qed.

Lemma valid_nodup cs : valid_cells cs -> NoDup cs.
Proof.
  induction cs as [|e cs IH]; intros V; constructor; apply valid_cells_cons in V;
    destruct V as (W & V & F); auto.
  intros I. rewrite Forall_forall in F. pose proof (F e I). pose proof (lohi e W). lia.
Qed.

(* a valid list is determined by its set of members *)
Lemma valid_ext cs ds : valid_cells cs -> valid_cells ds ->
  (forall c, In c cs <-> In c ds) -> cs = ds.
Proof.
  revert ds. induction cs as [|c cs IH]; intros ds Vc Vd E.
  - destruct ds as [|d ds]; [reflexivity|]. exfalso. apply (E d). left; auto.
  - destruct ds as [|d ds]; [exfalso; apply (E c); left; auto|].
    pose proof Vc as Vc'. pose proof Vd as Vd'.
    apply valid_cells_cons in Vc, Vd. destruct Vc as (Wc & Vc & Fc), Vd as (Wd & Vd & Fd).
    rewrite Forall_forall in Fc, Fd. pose proof (lohi c Wc). pose proof (lohi d Wd).
    assert (c = d).
    { assert (I1 : In c (d :: ds)) by (apply E; left; auto).
      assert (I2 : In d (c :: cs)) by (apply E; left; auto).
      destruct I1 as [|I1]; [auto|]. destruct I2 as [|I2]; [auto|].
      apply Fc in I2. apply Fd in I1. lia. }
    subst d. f_equal. apply IH; auto. intros x. split; intros I.
    + assert (I1 : In x (c :: ds)) by (apply E; right; auto).
      destruct I1 as [<-|]; [|auto]. apply Fc in I. lia.
    + assert (I1 : In x (c :: cs)) by (apply E; right; auto).
      destruct I1 as [<-|]; [|auto]. apply Fd in I. lia.
Qed.

Lemma covered_map cs m : Forall wf cs -> (covered (map code cs) m <-> cov cs m).
Proof.
  intros F. rewrite Forall_forall in F. split.
  - intros (c & Wc & I & L). apply in_map_iff in I. destruct I as (d & E & I).
    exists d. split; [auto|]. apply code_inj in E; auto. subst; auto.
  - intros (c & I & L). exists c. split; [auto|]. split; [apply in_map; auto|auto].
Qed.

Lemma cov_cons c cs m : cov (c :: cs) m <-> leaves c m \/ cov cs m.
Proof.
  unfold cov. cbn. split.
  - intros (d & [<-|I] & L); eauto.
  - intros [L|(d & I & L)]; eauto.
Qed.

Lemma cov_app a b m : cov (a ++ b) m <-> cov a m \/ cov b m.
Proof.
  unfold cov. split.
  - intros (d & I & L). apply in_app_or in I. destruct I; eauto.
  - intros [(d & I & L)|(d & I & L)]; exists d; split; auto using in_or_app.
Qed.

Lemma cov_nil m : cov [] m <-> False.
Proof. unfold cov. cbn. firstorder. Qed.

(** The key property of normalized lists: a fully covered cell lies inside one
    member. *)
Lemma normalized_contains cs : normalized_cells cs -> forall c, wf c ->
  (forall m, leaves c m -> cov cs m) -> exists d, In d cs /\ lo d <= lo c /\ hi c <= hi d.
Proof.
  intros [V N] c.
  assert (G : forall n c, wf c -> lv c = 30 - Z.of_nat n -> (forall m, leaves c m -> cov cs m) ->
            exists d, In d cs /\ lo d <= lo c /\ hi c <= hi d).
  { clear c. induction n as [|n IH]; intros c Hc Hn Hm.
    - pose proof (lohi c Hc). destruct (Hm (lo c)) as (d & I & L); [rewrite leaves_lohi; lia|].
      exists d. rewrite leaves_lohi in L. split; [auto|].
      assert (hi c = lo c + 1).
      { unfold hi, lo. rewrite Hn. change (30 - (30 - Z.of_nat 0)) with 0. rewrite Z.pow_0_r. lia. }
      lia.
    - assert (Lc : lv c < 30) by lia.
      (* each child is inside some member *)
      assert (K : forall k, 0 <= k < 4 -> exists d, In d cs /\ lo d <= lo (child c k) /\ hi (child c k) <= hi d).
      { intros k Hk. apply IH; [apply wf_child; auto|cbn; lia|].
        intros m L. apply Hm. apply children_partition; eauto. }
      (* either some such member contains c, or all children are members *)
      assert (A : (exists d, In d cs /\ lo d <= lo c /\ hi c <= hi d) \/
                  forall k, 0 <= k < 4 -> In (child c k) cs).
      { assert (D : forall k, 0 <= k < 4 ->
           (exists d, In d cs /\ lo d <= lo c /\ hi c <= hi d) \/ In (child c k) cs).
        { intros k Hk. destruct (K k Hk) as (d & I & L1 & L2).
          assert (Wd : wf d) by (eapply valid_wf; eauto).
          assert (dec : d = child c k \/ d <> child c k).
          { destruct (Z.eq_dec (lv d) (lv (child c k))), (Z.eq_dec (ix d) (ix (child c k)));
              [left|right|right|right]; try congruence.
            destruct d, (child c k); cbn in *; congruence. }
          destruct dec as [->|Nd]; [auto|]. left. exists d. split; [auto|].
          eapply anc_of_child; eauto. }
        destruct (D 0) as [|D0]; [lia|auto|]. destruct (D 1) as [|D1]; [lia|auto|].
        destruct (D 2) as [|D2]; [lia|auto|]. destruct (D 3) as [|D3]; [lia|auto|].
        right. intros k Hk. assert (k = 0 \/ k = 1 \/ k = 2 \/ k = 3) as E by lia.
        repeat destruct E as [->|E]; subst; auto. }
      destruct A as [A|A]; [auto|]. exfalso. apply N. exists c. auto. }
  intros Hc Hm. apply (G (Z.to_nat (30 - lv c)) c); auto. destruct Hc; lia.
Qed.

Lemma wf_leaf m : 0 <= m < 6 * 4 ^ 30 -> wf (leaf m).
Proof. intros. split; cbn; lia. Qed.

Lemma lo_leaf m : lo (leaf m) = m /\ hi (leaf m) = m + 1.
Proof. unfold lo, hi, leaf; cbn. rewrite Z.pow_0_r. lia. Qed.

Lemma cell_dec (a b : cell) : a = b \/ a <> b.
Proof.
  destruct a as [La na], b as [Lb nb].
  destruct (Z.eq_dec La Lb), (Z.eq_dec na nb); [left|right|right|right]; congruence.
Qed.
