(** Proofs about the CellUnion model, part 3: set operations. *)
From Verif Require Import Base Spec CellIdModel CellIdArith CellIdProofs CellOrder
  CellUnionModel CellUnionProofs CellUnionNormalize.

(** ** is_normalized on lists of valid ids *)

Lemma code_ne_2_63 c : wf c -> code c <> 2 ^ 63.
Proof.
  intros H E. rewrite code_odd_part in E by assumption.
  change (2 ^ 63) with ((2 * 0 + 1) * 2 ^ 63) in E.
  apply odd_pow_inj in E; destruct H; lia.
Qed.

Lemma code_u64 cs : Forall wf cs -> Forall (fun x => 0 <= x < 2 ^ 64 /\ x <> 2 ^ 63) (map code cs).
Proof.
  intros F. rewrite Forall_forall in *. intros x I. apply in_map_iff in I.
  destruct I as (c & <- & I). specialize (F c I). pose proof (code_bounds c F).
  split; [lia|]. apply code_ne_2_63; auto.
Qed.

Lemma union_is_valid_any v : Forall (fun x => 0 <= x < 2 ^ 64 /\ x <> 2 ^ 63) v ->
  exists r, union_is_valid v = Some r /\ (r = true <-> exists cs, v = map code cs /\ valid_cells cs).
Proof.
  intros F. destruct (check_loop_correct false v []) as (r & E & R); auto.
  - split; constructor.
  - discriminate.
  - exists r. split; [exact E|]. rewrite R. cbn. split; intros (cs & A & B).
    + exists cs. tauto.
    + exists cs. split; [auto|]. split; [auto|discriminate].
Qed.

Lemma is_normalized_any v : Forall (fun x => 0 <= x < 2 ^ 64 /\ x <> 2 ^ 63) v ->
  exists r, is_normalized v = Some r /\ (r = true <-> exists cs, v = map code cs /\ normalized_cells cs).
Proof.
  intros F. destruct (check_loop_correct true v []) as (r & E & R); auto.
  - split; constructor.
  - intros _ p Wp I. destruct (I 0). lia.
  - exists r. split; [exact E|]. rewrite R. cbn. split; intros (cs & A & B).
    + exists cs. rewrite normalized_iff. tauto.
    + exists cs. rewrite normalized_iff in B. tauto.
Qed.

Lemma is_normalized_code cs : Forall wf cs ->
  exists r, is_normalized (map code cs) = Some r /\ (r = true <-> normalized_cells cs).
Proof.
  intros F. destruct (is_normalized_any (map code cs) (code_u64 cs F)) as (r & E & R).
  exists r. split; [auto|]. rewrite R. split.
  - intros (ds & M & N). apply map_code_inj in M; auto; [subst; auto|]. apply N.
  - intros N. exists cs. auto.
Qed.

Lemma union_is_valid_code cs : Forall wf cs ->
  exists r, union_is_valid (map code cs) = Some r /\ (r = true <-> valid_cells cs).
Proof.
  intros F. destruct (union_is_valid_any (map code cs) (code_u64 cs F)) as (r & E & R).
  exists r. split; [auto|]. rewrite R. split.
  - intros (ds & M & N). apply map_code_inj in M; auto; [subst; auto|]. apply N.
  - intros N. exists cs. auto.
Qed.

(** ** merge and union *)

Lemma merge_correct css : Forall (Forall wf) css ->
  exists cs, merge (map (map code) css) = Some (map code cs) /\ normalized_cells cs /\
    forall m, cov cs m <-> exists l, In l css /\ cov l m.
Proof.
  intros F. unfold merge. rewrite <- concat_map.
  destruct (normalize_correct (concat css)) as (cs & E & N & C).
  { clear -F. induction F; cbn; [constructor|]. apply Forall_app; auto. }
  exists cs. split; [auto|]. split; [auto|]. intros m. rewrite C. unfold cov. split.
  - intros (c & I & L). apply in_concat in I. destruct I as (l & Il & Ic). eauto.
  - intros (l & Il & c & Ic & L). exists c. split; [apply in_concat; eauto|auto].
Qed.

(** ** C37 *)

Lemma contains_cell_union_correct cs ds : normalized_cells cs -> Forall wf ds ->
  exists r, contains_cell_union (map code cs) (map code ds) = Some r /\
    (r = true <-> forall m, cov ds m -> cov cs m).
Proof.
  intros N. induction ds as [|d ds IH]; intros F; cbn [map contains_cell_union].
  - exists true. split; [reflexivity|]. split; [|auto]. intros _ m A. apply cov_nil in A. destruct A.
  - inversion F; subst. destruct (contains_cellid_normalized cs d N) as (r & -> & R); auto.
    destruct r.
    + destruct IH as (r & -> & R'); auto. exists r. split; [reflexivity|]. rewrite R'.
      pose proof (proj1 R eq_refl). split; intros A m; [rewrite cov_cons; intros [|]; auto|].
      intros B. apply A. apply cov_cons; auto.
    + exists false. split; [reflexivity|]. split; [discriminate|]. intros A. apply R.
      intros m L. apply A. apply cov_cons; auto.
Qed.

Lemma intersects_cell_union_correct cs ds : Forall wf cs -> valid_cells ds ->
  exists r, intersects_cell_union (map code cs) (map code ds) = Some r /\
    (r = true <-> exists m, cov cs m /\ cov ds m).
Proof.
  intros F V. induction cs as [|c cs IH]; cbn [map intersects_cell_union].
  - exists false. split; [reflexivity|]. split; [discriminate|]. intros (m & A & _). apply cov_nil in A. destruct A.
  - inversion F; subst. destruct (intersects_cellid_correct ds c V) as (r & -> & R); auto.
    rewrite overlap_leaves in R by (auto; apply V).
    destruct r.
    + exists true. split; [reflexivity|]. split; [|auto]. intros _.
      destruct (proj1 R eq_refl) as (m & A & B). exists m. rewrite cov_cons. auto.
    + destruct IH as (r & -> & R'); auto. exists r. split; [reflexivity|]. rewrite R'.
      split; intros (m & A & B); exists m; rewrite cov_cons in *; [auto|].
      destruct A as [A|A]; [|auto]. exfalso. assert (false = true); [|discriminate]. apply R. eauto.
Qed.

(** ** C34: intersection *)

Lemma is_sorted_valid cs : valid_cells cs -> is_sorted (map code cs) = true.
Proof.
  induction cs as [|c cs IH]; intros V; [reflexivity|].
  destruct cs as [|d cs]; [reflexivity|]. cbn [map is_sorted].
  pose proof (valid_sorted_code _ c d V (or_introl eq_refl)).
  apply valid_cells_cons in V. destruct V as (_ & V & _).
  apply andb_true_intro. split; [apply Z.leb_le; lia|exact (IH V)].
Qed.

Lemma nth_error_skipn {A} (l : list A) n : forall k, nth_error (skipn n l) k = nth_error l (n + k).
Proof.
  revert l. induction n as [|n IH]; intros l k; [reflexivity|].
  destruct l; cbn; [destruct k; reflexivity|apply IH].
Qed.

Lemma valid_nth x i c : nth_error x i = Some c -> valid_cells x -> wf c.
Proof. intros E V. apply (valid_wf x c V (nth_error_In _ _ E)). Qed.

Lemma skipn_nth {A} (l : list A) i x : nth_error l i = Some x -> skipn i l = x :: skipn (S i) l.
Proof.
  revert l. induction i as [|i IH]; intros [|y l] E; cbn in *; try discriminate; [congruence|].
  apply IH in E. exact E.
Qed.

Lemma lower_bound_from_spec id : forall v i,
  let r := lower_bound_from v i id in
  (i <= r <= i + length v)%nat /\
  (forall k x, (i <= k < r)%nat -> nth_error v (k - i) = Some x -> x < id) /\
  (forall x, nth_error v (r - i) = Some x -> id <= x).
Proof.
  induction v as [|c v IH]; intros i; cbn [lower_bound_from length].
  - split; [lia|]. split; [lia|]. intros x. rewrite Nat.sub_diag. discriminate.
  - rewrite Z.geb_leb. destruct (Z.leb_spec id c).
    + split; [lia|]. split; [lia|]. intros x. rewrite Nat.sub_diag. cbn. congruence.
    + specialize (IH (S i)). cbn zeta in *. set (r := lower_bound_from v (S i) id) in *.
      destruct IH as (B & C & D). split; [lia|]. split.
      * intros k x Hk E. destruct (Nat.eq_dec k i) as [->|N].
        { rewrite Nat.sub_diag in E. cbn in E. congruence. }
        replace (k - i)%nat with (S (k - S i)) in E by lia. cbn in E. apply (C k x); auto. lia.
      * intros x E. replace (r - i)%nat with (S (r - S i)) in E by lia. cbn in E. auto.
Qed.

Lemma lower_bound_spec v start id : (start <= length v)%nat ->
  let r := lower_bound_cellids v start id in
  (start <= r <= length v)%nat /\
  (forall k x, (start <= k < r)%nat -> nth_error v k = Some x -> x < id) /\
  (forall x, nth_error v r = Some x -> id <= x).
Proof.
  intros H. unfold lower_bound_cellids.
  pose proof (lower_bound_from_spec id (skipn start v) start) as S. cbn zeta in *.
  rewrite skipn_length in S. destruct S as (B & C & D). split; [lia|]. split.
  - intros k x Hk E. apply (C k x Hk). rewrite nth_error_skipn. rewrite <- E. f_equal. lia.
  - intros x E. apply D. rewrite nth_error_skipn. rewrite <- E. f_equal. lia.
Qed.

(* the branch that skips cells of y lying before xi *)
Lemma skip_branch y j yj xi : valid_cells y -> wf xi -> nth_error y j = Some yj -> hi yj <= lo xi ->
  let j' := lower_bound_cellids (map code y) (S j) (2 * lo xi + 1) in
  exists yp, nth_error y (j' - 1) = Some yp /\
    let j2 := if code xi <=? 2 * hi yp - 1 then (j' - 1)%nat else j' in
    (j < j2 <= length y)%nat /\
    (forall k d, (j <= k < j2)%nat -> nth_error y k = Some d -> hi d <= lo xi).
Proof.
  intros V Wx Ej L. cbn zeta.
  assert (Hj : (j < length y)%nat) by (apply nth_error_Some; congruence).
  pose proof (lower_bound_spec (map code y) (S j) (2 * lo xi + 1)) as LB. cbn zeta in LB.
  rewrite map_length in LB. specialize (LB ltac:(lia)).
  set (j' := lower_bound_cellids (map code y) (S j) (2 * lo xi + 1)) in *.
  destruct LB as (B & C & D).
  destruct (nth_error_lt y (j' - 1)) as [yp Ep]; [lia|]. exists yp. split; [auto|].
  pose proof (lohi xi Wx) as Lx. pose proof (code_lohi xi) as Cx.
  assert (Wp : wf yp) by (eapply valid_nth; eauto).
  pose proof (lohi yp Wp) as Lp.
  (* everything strictly below j'-1 ends before xi *)
  assert (LOW : forall k d, (j <= k < j' - 1)%nat -> nth_error y k = Some d -> hi d <= lo xi).
  { intros k d Hk E. destruct (nth_error_lt y (k + 1)) as [e Ee]; [lia|].
    assert (code e < 2 * lo xi + 1).
    { apply (C (k + 1)%nat); [lia|]. rewrite nth_error_map, Ee. reflexivity. }
    pose proof (code_nth_mono y V k (k + 1)%nat d e ltac:(lia) E Ee).
    pose proof (lohi e (valid_wf _ _ V (nth_error_In _ _ Ee))). rewrite code_lohi in *. lia. }
  destruct (Z.leb_spec (code xi) (2 * hi yp - 1)) as [G|G].
  - split; [|exact LOW]. split; [|lia].
    destruct (Nat.eq_dec j (j' - 1)) as [E|]; [|lia].
    rewrite <- E in Ep. rewrite Ej in Ep. injection Ep as <-. lia.
  - split; [lia|]. intros k d Hk E.
    destruct (Nat.eq_dec k (j' - 1)) as [->|N]; [|apply (LOW k); auto; lia].
    rewrite Ep in E. injection E as <-.
    destruct (Nat.eq_dec (j' - 1) j) as [Eq|Nq].
    { rewrite Eq, Ej in Ep. injection Ep as <-. auto. }
    assert (code yp < 2 * lo xi + 1).
    { apply (C (j' - 1)%nat); [lia|]. rewrite nth_error_map, Ep. reflexivity. }
    rewrite code_lohi in *.
    destruct (cases yp xi Wp Wx) as [X|[X|[X|X]]]; lia.
Qed.

Lemma cov_skip_drop y j j2 b m : valid_cells y -> (j <= j2)%nat ->
  (forall k d, (j <= k < j2)%nat -> nth_error y k = Some d -> hi d <= b) ->
  b <= m -> (cov (skipn j y) m <-> cov (skipn j2 y) m).
Proof.
  intros V H D Hm. split; intros (d & I & L).
  - apply In_nth_error in I. destruct I as [k E]. rewrite nth_error_skipn in E.
    destruct (Nat.lt_ge_cases (j + k) j2) as [Lt|Ge].
    + specialize (D _ _ (conj (Nat.le_add_r j k) Lt) E). rewrite leaves_lohi in L. lia.
    + exists d. split; [|auto]. apply (nth_error_In _ (j + k - j2)). rewrite nth_error_skipn.
      rewrite <- E. f_equal. lia.
  - apply In_nth_error in I. destruct I as [k E]. rewrite nth_error_skipn in E.
    exists d. split; [|auto]. apply (nth_error_In _ (j2 + k - j)). rewrite nth_error_skipn.
    rewrite <- E. f_equal. lia.
Qed.

Lemma In_skipn {A} (l : list A) n x : In x (skipn n l) -> In x l.
Proof. intros I. rewrite <- (firstn_skipn n l). apply in_or_app; auto. Qed.

Lemma In_skipn_S {A} (l : list A) n x : In x (skipn (S n) l) -> In x (skipn n l).
Proof.
  revert l. induction n as [|n IH]; intros [|y l] I; [exact I|right; exact I|exact I|].
  apply (IH l). exact I.
Qed.

Lemma In_skipn_le {A} (l : list A) n k x : (n <= k)%nat -> In x (skipn k l) -> In x (skipn n l).
Proof. intros H. induction H; auto using In_skipn_S. Qed.

(* remaining cells of a valid list start at or after the current one *)
Lemma skipn_ge x i xi d : valid_cells x -> nth_error x i = Some xi -> In d (skipn i x) -> lo xi <= lo d.
Proof.
  intros V E I. rewrite (skipn_nth _ _ _ E) in I. destruct I as [<-|I]; [lia|].
  apply In_nth_error in I. destruct I as [k Ek]. rewrite nth_error_skipn in Ek.
  pose proof (code_nth_mono x V i (S i + k)%nat xi d ltac:(lia) E Ek).
  pose proof (lohi xi (valid_wf _ _ V (nth_error_In _ _ E))). lia.
Qed.

Lemma skipn_S_after x i xi d : valid_cells x -> nth_error x i = Some xi -> In d (skipn (S i) x) -> hi xi <= lo d.
Proof.
  intros V E I. apply In_nth_error in I. destruct I as [k Ek]. rewrite nth_error_skipn in Ek.
  exact (code_nth_mono x V i (S i + k)%nat xi d ltac:(lia) E Ek).
Qed.

Lemma cov_skipn_nil x i m : (length x <= i)%nat -> ~ cov (skipn i x) m.
Proof. intros H. rewrite skipn_all2 by lia. rewrite cov_nil. auto. Qed.

Definition inside (c : cell) (l : list cell) : Prop := exists d, In d l /\ lo d <= lo c /\ hi c <= hi d.

Definition inter_inv (x y : list cell) (i j : nat) (cu : list cell) : Prop :=
  (forall m, cov cu m \/ (cov (skipn i x) m /\ cov (skipn j y) m) <-> cov x m /\ cov y m) /\
  valid_cells (rev cu) /\
  (forall c, In c cu -> (forall d, In d (skipn i x) -> hi c <= lo d) \/
                        (forall e, In e (skipn j y) -> hi c <= lo e)) /\
  (forall c, In c cu -> (In c x /\ inside c y) \/ (In c y /\ inside c x)).

Lemma inter_inv_sym x y i j cu : inter_inv x y i j cu -> inter_inv y x j i cu.
Proof.
  intros (A & B & C & D). split; [|split; [auto|split]].
  - intros m. specialize (A m). tauto.
  - intros c I. specialize (C c I). tauto.
  - intros c I. specialize (D c I). tauto.
Qed.

(* pushing xi when it lies inside yj *)
Lemma inter_push x y i j cu xi yj : valid_cells x -> valid_cells y -> inter_inv x y i j cu ->
  nth_error x i = Some xi -> nth_error y j = Some yj -> lo yj <= lo xi -> hi xi <= hi yj ->
  inter_inv x y (S i) j (xi :: cu).
Proof.
  intros Vx Vy (A & B & C & D) Ei Ej L1 L2.
  assert (Wx : wf xi) by (eapply valid_nth; eauto).
  pose proof (lohi xi Wx) as Lx.
  pose proof (skipn_nth _ _ _ Ei) as Sx. pose proof (skipn_nth _ _ _ Ej) as Sy.
  split; [|split; [|split]].
  - intros m. rewrite <- A. rewrite Sx, !cov_cons.
    assert (leaves xi m -> cov (skipn j y) m).
    { intros L. rewrite Sy, cov_cons. left. rewrite leaves_lohi in *. lia. }
    tauto.
  - cbn [rev]. apply valid_cells_snoc. split; [auto|]. split; [auto|]. intros c I. apply in_rev in I.
    destruct (C c I) as [H|H].
    + apply H. rewrite Sx. left; auto.
    + specialize (H yj). rewrite Sy in H. specialize (H (or_introl eq_refl)). lia.
  - intros c [<-|I].
    + left. intros d Id. exact (skipn_S_after x i xi d Vx Ei Id).
    + destruct (C c I) as [H|H]; [left|right]; auto. intros d Id. apply H. apply In_skipn_S. auto.
  - intros c [<-|I]; [|auto]. left. split; [eauto using nth_error_In|]. exists yj.
    split; [eauto using nth_error_In|]. lia.
Qed.

(* skipping cells of y that end before xi *)
Lemma inter_skip x y i j j2 cu xi : valid_cells x -> valid_cells y -> inter_inv x y i j cu ->
  nth_error x i = Some xi -> (j <= j2)%nat ->
  (forall k d, (j <= k < j2)%nat -> nth_error y k = Some d -> hi d <= lo xi) ->
  inter_inv x y i j2 cu.
Proof.
  intros Vx Vy (A & B & C & D) Ei Hj H.
  split; [|split; [auto|split; [|auto]]].
  - intros m. rewrite <- A.
    assert (E : cov (skipn i x) m -> (cov (skipn j y) m <-> cov (skipn j2 y) m)); [|tauto].
    intros (d & I & L). apply (cov_skip_drop y j j2 (lo xi)); auto.
    pose proof (skipn_ge x i xi d Vx Ei I). rewrite leaves_lohi in L. lia.
  - intros c I. destruct (C c I) as [X|X]; [left; auto|right]. intros e Ie. apply X.
    eapply In_skipn_le; eauto.
Qed.

Lemma intersection_loop_correct x y : valid_cells x -> valid_cells y ->
  forall fuel i j cu, (length x - i + (length y - j) <= fuel)%nat -> inter_inv x y i j cu ->
  exists cu', intersection_loop fuel (map code x) (map code y) i j (map code cu) = Some (map code cu') /\
    (forall m, cov cu' m <-> cov x m /\ cov y m) /\ valid_cells (rev cu') /\
    (forall c, In c cu' -> (In c x /\ inside c y) \/ (In c y /\ inside c x)).
Proof.
  intros Vx Vy.
  assert (DONE : forall i j cu, inter_inv x y i j cu -> (length x <= i \/ length y <= j)%nat ->
    exists cu', Some (map code cu) = Some (map code cu') /\
    (forall m, cov cu' m <-> cov x m /\ cov y m) /\ valid_cells (rev cu') /\
    (forall c, In c cu' -> (In c x /\ inside c y) \/ (In c y /\ inside c x))).
  { intros i j cu (A & B & C & D) H. exists cu. split; [reflexivity|]. split; [|auto].
    intros m. rewrite <- A. split; [auto|]. intros [|[A1 A2]]; [auto|].
    destruct H; [apply cov_skipn_nil in A1|apply cov_skipn_nil in A2]; tauto. }
  induction fuel as [|fuel IH]; intros i j cu Hf Inv; cbn [intersection_loop]; rewrite !map_length.
  { destruct (Nat.ltb_spec i (length x)), (Nat.ltb_spec j (length y)); cbn [andb]; try lia;
      eapply DONE; eauto. }
  destruct (Nat.ltb_spec i (length x)) as [Li|Li], (Nat.ltb_spec j (length y)) as [Lj|Lj]; cbn [andb];
    try (eapply DONE; eauto; lia).
  destruct (nth_error_lt x i Li) as [xi Ei]. destruct (nth_error_lt y j Lj) as [yj Ej].
  rewrite !nth_error_map, Ei, Ej. cbn [option_map].
  assert (Wx : wf xi) by (eapply valid_nth; eauto).
  assert (Wy : wf yj) by (eapply valid_nth; eauto).
  pose proof (lohi xi Wx) as Lx. pose proof (lohi yj Wy) as Ly.
  pose proof (code_lohi xi) as Cx. pose proof (code_lohi yj) as Cy.
  rewrite !range_min_lo, !range_max_hi by assumption. rewrite !Z.gtb_ltb.
  destruct (Z.ltb_spec (2 * lo yj + 1) (2 * lo xi + 1)) as [G|G].
  - destruct (Z.leb_spec (code xi) (2 * hi yj - 1)) as [K|K].
    + change (code xi :: map code cu) with (map code (xi :: cu)). apply IH; [lia|].
      eapply inter_push; eauto; try lia.
      destruct (cases xi yj Wx Wy) as [X|[X|[X|X]]]; lia.
    + assert (hi yj <= lo xi) by (destruct (cases xi yj Wx Wy) as [X|[X|[X|X]]]; lia).
      destruct (skip_branch y j yj xi Vy Wx Ej H) as (yp & Ep & B & D).
      cbn zeta. rewrite nth_error_map, Ep. cbn [option_map].
      rewrite range_max_hi by (eapply valid_nth; eauto).
      apply IH; [lia|]. eapply inter_skip; eauto. lia.
  - destruct (Z.ltb_spec (2 * lo xi + 1) (2 * lo yj + 1)) as [G2|G2].
    + destruct (Z.leb_spec (code yj) (2 * hi xi - 1)) as [K|K].
      * change (code yj :: map code cu) with (map code (yj :: cu)). apply IH; [lia|].
        apply inter_inv_sym. eapply inter_push; eauto using inter_inv_sym; try lia.
        destruct (cases xi yj Wx Wy) as [X|[X|[X|X]]]; lia.
      * assert (hi xi <= lo yj) by (destruct (cases xi yj Wx Wy) as [X|[X|[X|X]]]; lia).
        destruct (skip_branch x i xi yj Vx Wy Ei H) as (yp & Ep & B & D).
        cbn zeta. rewrite nth_error_map, Ep. cbn [option_map].
        rewrite range_max_hi by (eapply valid_nth; eauto).
        apply IH; [lia|]. apply inter_inv_sym.
        eapply inter_skip; eauto using inter_inv_sym. lia.
    + destruct (Z.ltb_spec (code xi) (code yj)) as [K|K].
      * change (code xi :: map code cu) with (map code (xi :: cu)). apply IH; [lia|].
        eapply inter_push; eauto; lia.
      * change (code yj :: map code cu) with (map code (yj :: cu)). apply IH; [lia|].
        apply inter_inv_sym. eapply inter_push; eauto using inter_inv_sym; lia.
Qed.

(* four children of p in a list covered by a normalized list x: p fits in a member of x *)
Lemma siblings_inside x cs p : normalized_cells x -> (forall m, cov cs m -> cov x m) -> wf p ->
  Forall wf cs -> (forall k, 0 <= k < 4 -> In (child p k) cs) -> inside p x /\ lv p < 30.
Proof.
  intros N H Wp F I.
  assert (Lp : lv p < 30).
  { rewrite Forall_forall in F. specialize (F _ (I 0 ltac:(lia))). destruct F as [F _]. cbn in F. lia. }
  split; [|auto]. apply normalized_contains; auto.
  intros m L. apply H. rewrite children_partition in L by auto. destruct L as (k & Hk & L).
  exists (child p k). auto.
Qed.

(* a child of p is not a member of a valid list one of whose members contains p *)
Lemma child_not_member x p k : valid_cells x -> wf p -> lv p < 30 -> 0 <= k < 4 ->
  inside p x -> ~ In (child p k) x.
Proof.
  intros V Wp Lp Hk (d & Id & L1 & L2) I.
  destruct (lo_child p k Wp Lp) as (E1 & E2 & E3).
  pose proof (pow4_pos (29 - lv p) ltac:(destruct Wp; lia)).
  destruct (valid_disjoint x (child p k) d V I Id) as [E|[E|E]]; [|nia|nia].
  subst d. nia.
Qed.

Theorem intersection_correct x y : valid_cells x -> valid_cells y ->
  exists z, intersection (map code x) (map code y) = Some (map code z) /\
    valid_cells z /\ (forall m, cov z m <-> cov x m /\ cov y m) /\
    (normalized_cells x -> normalized_cells y -> normalized_cells z).
Proof.
  intros Vx Vy. unfold intersection.
  rewrite !is_sorted_valid by assumption. cbn [negb]. rewrite !map_length.
  destruct (intersection_loop_correct x y Vx Vy (length x + length y) 0 0 []) as (cu & E & C & V & M); [lia| |].
  { split; [|split; [split; constructor|split; intros c []]]. intros m. rewrite cov_nil. cbn. tauto. }
  cbn [map] in E. rewrite E. rewrite <- map_rev.
  assert (C' : forall m, cov (rev cu) m <-> cov x m /\ cov y m) by (intros m; rewrite cov_rev; auto).
  assert (N : normalized_cells x -> normalized_cells y -> normalized_cells (rev cu)).
  { intros Nx Ny. split; [auto|]. intros (p & Wp & I).
    destruct (siblings_inside x (rev cu) p Nx) as [Ix Lp]; auto; [intros m A; apply C'; auto|apply V|].
    destruct (siblings_inside y (rev cu) p Ny) as [Iy _]; auto; [intros m A; apply C'; auto|apply V|].
    specialize (I 0 ltac:(lia)). apply in_rev in I. destruct (M _ I) as [[I2 _]|[I2 _]].
    - eapply (child_not_member x p 0); eauto. lia.
    - eapply (child_not_member y p 0); eauto. lia. }
  rewrite is_sorted_valid by assumption. cbn [negb].
  destruct (is_normalized_code (rev cu)) as (r & -> & R); [apply V|].
  destruct (is_normalized_code x) as (rx & -> & Rx); [apply Vx|].
  destruct (is_normalized_code y) as (ry & -> & Ry); [apply Vy|].
  assert (OK : oror (Some r) (oror (onot (Some rx)) (onot (Some ry))) = Some true).
  { unfold oror, onot. destruct r; [reflexivity|]. destruct rx; [|reflexivity]. destruct ry; [|reflexivity].
    exfalso. assert (false = true); [|discriminate]. apply R, N; [apply Rx|apply Ry]; auto. }
  rewrite OK. exists (rev cu). auto.
Qed.

(** ** C35: intersection with a cell *)

Lemma take_le_spec h : forall v, valid_cells v ->
  exists pre post, v = pre ++ post /\ take_le (map code v) h = map code pre /\
    (forall c, In c pre -> code c <= h) /\ (forall c, In c post -> h < code c).
Proof.
  induction v as [|c v IH]; intros V; cbn [map take_le].
  - exists [], []. split; [auto|]. split; [auto|]. split; intros c [].
  - pose proof V as V'. apply valid_cells_cons in V. destruct V as (W & V & F).
    destruct (Z.leb_spec (code c) h) as [L|L].
    + destruct (IH V) as (pre & post & -> & -> & A & B). exists (c :: pre), post.
      split; [auto|]. split; [auto|]. split; [|auto]. intros d [<-|I]; auto.
    + exists [], (c :: v). split; [auto|]. split; [auto|]. split; [intros d []|].
      intros d [<-|I]; [auto|]. pose proof (valid_sorted_code v c d V' I). lia.
Qed.

Theorem intersection_with_cell_id_correct x c : valid_cells x -> wf c ->
  exists z, intersection_with_cell_id (map code x) (code c) = Some (map code z) /\
    valid_cells z /\ (forall m, cov z m <-> cov x m /\ leaves c m) /\
    (normalized_cells x -> normalized_cells z).
Proof.
  intros V W. unfold intersection_with_cell_id.
  destruct (valid_id_dec (code c)) as [(c' & W' & _ & ->)|[NV _]].
  { pose proof (code_bounds c W). lia. } { apply code_ne_2_63; auto. }
  2:{ exfalso. apply NV. exists c. auto. }
  cbn [negb]. clear c' W'.
  destruct (contains_cellid_single x c V W) as (b & -> & B).
  rewrite range_max_hi, range_min_lo by assumption.
  pose proof (lohi c W) as Lc.
  assert (OUT : exists z, (if b then Some [code c] else
      Some (take_le (skipn (lower_bound_cellids (map code x) 0 (2 * lo c + 1)) (map code x)) (2 * hi c - 1)))
      = Some (map code z) /\
    valid_cells z /\ (forall m, cov z m <-> cov x m /\ leaves c m) /\
    (normalized_cells x -> normalized_cells z)).
  { destruct b.
    - exists [c]. destruct (proj1 B eq_refl) as (d & Id & L1 & L2).
      assert (V1 : valid_cells [c]) by (split; [constructor; auto|repeat constructor]).
      split; [reflexivity|]. split; [auto|]. split.
      + intros m. rewrite cov_cons, cov_nil. split; [|tauto]. intros [L|[]]. split; [|auto].
        exists d. rewrite leaves_lohi in *. split; [auto|lia].
      + intros _. split; [auto|]. intros (p & Wp & I).
        destruct (I 0 ltac:(lia)) as [E0|[]]. destruct (I 1 ltac:(lia)) as [E1|[]].
        rewrite E0 in E1. unfold child in E1. injection E1. lia.
    - pose proof (lower_bound_spec (map code x) 0 (2 * lo c + 1) ltac:(lia)) as LB. cbn zeta in LB.
      set (s := lower_bound_cellids (map code x) 0 (2 * lo c + 1)) in *. rewrite map_length in LB.
      destruct LB as (Hs & LB1 & LB2).
      rewrite skipn_map.
      assert (Vs : valid_cells (skipn s x)).
      { rewrite <- (firstn_skipn s x) in V. apply valid_cells_app in V. tauto. }
      destruct (take_le_spec (2 * hi c - 1) (skipn s x) Vs) as (pre & post & Es & -> & P1 & P2).
      exists pre. split; [reflexivity|].
      assert (Vp : valid_cells pre) by (rewrite Es in Vs; apply valid_cells_app in Vs; tauto).
      assert (Ip : forall d, In d pre -> In d x).
      { intros d I. apply (In_skipn x s). rewrite Es. apply in_or_app; auto. }
      (* members of pre are exactly the members of x inside c *)
      assert (GE : forall d, In d (skipn s x) -> 2 * lo c + 1 <= code d).
      { intros d I. destruct (nth_error x s) as [a|] eqn:Ea.
        - assert (2 * lo c + 1 <= code a) by (apply LB2; rewrite nth_error_map, Ea; reflexivity).
          rewrite (skipn_nth _ _ _ Ea) in I. destruct I as [<-|I]; [auto|].
          pose proof (skipn_S_after x s a d V Ea I).
          pose proof (lohi a (valid_wf _ _ V (nth_error_In _ _ Ea))).
          pose proof (lohi d (valid_wf _ _ V (In_skipn _ _ _ I))). rewrite code_lohi in *. lia.
        - apply nth_error_None in Ea. rewrite skipn_all2 in I by lia. destruct I. }
      assert (IN : forall d, In d pre <-> In d x /\ lo c <= lo d /\ hi d <= hi c).
      { intros d. split.
        - intros I. assert (Wd : wf d) by (eapply valid_wf; [exact V|auto]). split; [auto|].
          apply code_in_range; auto. split; [|auto]. apply GE. rewrite Es. apply in_or_app; auto.
        - intros (I & L). assert (Wd : wf d) by (eapply valid_wf; [exact V|auto]).
          apply code_in_range in L; auto.
          assert (I2 : In d (skipn s x)).
          { apply In_nth_error in I. destruct I as [k Ek].
            destruct (Nat.lt_ge_cases k s) as [Hk|Hk].
            - assert (code d < 2 * lo c + 1); [|lia]. apply (LB1 k); [lia|]. rewrite nth_error_map, Ek. reflexivity.
            - apply (nth_error_In _ (k - s)). rewrite nth_error_skipn. rewrite <- Ek. f_equal. lia. }
          rewrite Es in I2. apply in_app_or in I2. destruct I2 as [|I2]; [auto|].
          specialize (P2 d I2). lia. }
      split; [auto|]. split.
      + intros m. split.
        * intros (d & I & L). apply IN in I. destruct I as (I & L1 & L2). split; [exists d; auto|].
          rewrite leaves_lohi in *. lia.
        * intros ((d & I & L) & Lm). exists d. split; [|auto]. apply IN. split; [auto|].
          assert (Wd : wf d) by (eapply valid_wf; [exact V|auto]). rewrite leaves_lohi in *.
          destruct (cases c d W Wd) as [X|[X|[X|X]]]; [lia|lia|auto|].
          exfalso. assert (false = true); [|discriminate]. apply B. exists d. auto.
      + intros [_ N]. split; [auto|]. intros (p & Wp & I). apply N. exists p. auto. }
  destruct OUT as (z & EZ & Vz & Cz & Nz). 
  destruct b; injection EZ as EZ.
  - change [code c] with ([code c] : list Z) in EZ. rewrite EZ.
    destruct (is_normalized_code z) as (r & -> & R); [apply Vz|].
    destruct (is_normalized_code x) as (rx & -> & Rx); [apply V|].
    assert (OK : oror (Some r) (onot (Some rx)) = Some true).
    { unfold oror, onot. destruct r; [reflexivity|]. destruct rx; [|reflexivity].
      exfalso. assert (false = true); [|discriminate]. apply R, Nz, Rx. auto. }
    rewrite OK. exists z. auto.
  - rewrite EZ.
    destruct (is_normalized_code z) as (r & -> & R); [apply Vz|].
    destruct (is_normalized_code x) as (rx & -> & Rx); [apply V|].
    assert (OK : oror (Some r) (onot (Some rx)) = Some true).
    { unfold oror, onot. destruct r; [reflexivity|]. destruct rx; [|reflexivity].
      exfalso. assert (false = true); [|discriminate]. apply R, Nz, Rx. auto. }
    rewrite OK. exists z. auto.
Qed.
