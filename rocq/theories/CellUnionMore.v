(** Proofs about the CellUnion model, part 4: difference, denormalize, leaf
    count, max_tile and from_range. *)
From Verif Require Import Base Spec CellIdModel CellIdArith CellIdProofs CellOrder
  CellUnionModel CellUnionProofs CellUnionNormalize CellUnionOps.

(** ** C36: difference *)

Lemma child_begin_code c : wf c -> lv c < 30 -> child_begin (code c) = Some (code (child c 0)).
Proof.
  intros H L. unfold child_begin. rewrite lsb_code by assumption.
  rewrite shr_pow4 by (auto; destruct H; lia). cbn [Z.eqb Pos.eqb].
  assert (E : 4 ^ (30 - lv c) = 4 * 4 ^ (29 - lv c)).
  { destruct H. rewrite <- pow4_succ by lia. f_equal. lia. }
  replace (30 - lv c - 1) with (29 - lv c) by lia.
  pose proof (code_range c H) as [R1 R2].
  pose proof (pow4_mono (30 - lv c) 30 ltac:(destruct H; lia)). rewrite pow4_30 in *.
  pose proof (pow4_pos (29 - lv c) ltac:(destruct H; lia)).
  rewrite sub64_ok by lia. rewrite add64_ok by lia. f_equal.
  unfold code, child; cbn [ix lv]. rewrite E. replace (30 - (lv c + 1)) with (29 - lv c) by lia. lia.
Qed.

Lemma next_child c k : wf c -> lv c < 30 -> 0 <= k < 4 ->
  next (code (child c k)) = Some (code (child c (k + 1))).
Proof.
  intros H L Hk. rewrite next_code by (apply wf_child; auto). unfold child; cbn [lv ix].
  do 2 f_equal. f_equal. lia.
Qed.

(* what the cells produced from c look like *)
Definition diff_out (y : list cell) (c : cell) (zs : list cell) : Prop :=
  valid_cells zs /\
  (forall d, In d zs -> lo c <= lo d /\ hi d <= hi c) /\
  (forall m, cov zs m <-> leaves c m /\ ~ cov y m) /\
  (forall d, In d zs -> d = c \/ exists p k, d = child p k /\ wf p /\ lv p < 30 /\ 0 <= k < 4 /\
                                  exists m, leaves p m /\ cov y m).

Lemma diff_out_app4 y c a0 a1 a2 a3 : wf c -> lv c < 30 -> (exists m, leaves c m /\ cov y m) ->
  diff_out y (child c 0) a0 -> diff_out y (child c 1) a1 -> diff_out y (child c 2) a2 ->
  diff_out y (child c 3) a3 -> diff_out y c (a0 ++ a1 ++ a2 ++ a3).
Proof.
  intros W L X (V0 & B0 & C0 & P0) (V1 & B1 & C1 & P1) (V2 & B2 & C2 & P2) (V3 & B3 & C3 & P3).
  destruct (lo_child c 0 W L) as (E0 & F0 & E). destruct (lo_child c 1 W L) as (E1 & F1 & _).
  destruct (lo_child c 2 W L) as (E2 & F2 & _). destruct (lo_child c 3 W L) as (E3 & F3 & _).
  pose proof (pow4_pos (29 - lv c) ltac:(destruct W; lia)) as P.
  rewrite E0, F0 in B0. rewrite E1, F1 in B1. rewrite E2, F2 in B2. rewrite E3, F3 in B3.
  split; [|split; [|split]].
  - rewrite !valid_cells_app. split; [auto|]. split; [split; [auto|split; [split; [auto|split; [auto|]]|]]|].
    + intros u v Iu Iv. specialize (B2 u Iu). specialize (B3 v Iv). lia.
    + intros u v Iu Iv. specialize (B1 u Iu). apply in_app_or in Iv.
      destruct Iv as [Iv|Iv]; [specialize (B2 v Iv)|specialize (B3 v Iv)]; lia.
    + intros u v Iu Iv. specialize (B0 u Iu). apply in_app_or in Iv.
      destruct Iv as [Iv|Iv]; [specialize (B1 v Iv); lia|]. apply in_app_or in Iv.
      destruct Iv as [Iv|Iv]; [specialize (B2 v Iv)|specialize (B3 v Iv)]; lia.
  - intros d I. apply in_app_or in I. destruct I as [I|I]; [specialize (B0 d I); lia|].
    apply in_app_or in I. destruct I as [I|I]; [specialize (B1 d I); lia|].
    apply in_app_or in I. destruct I as [I|I]; [specialize (B2 d I); lia|specialize (B3 d I); lia].
  - intros m. rewrite !cov_app, C0, C1, C2, C3.
    assert (leaves c m <-> leaves (child c 0) m \/ leaves (child c 1) m \/ leaves (child c 2) m \/ leaves (child c 3) m).
    { rewrite !leaves_lohi. rewrite E0, F0, E1, F1, E2, F2, E3, F3, E. lia. }
    tauto.
  - assert (K : forall k zs, 0 <= k < 4 ->
      (forall d, In d zs -> d = child c k \/ exists p k, d = child p k /\ wf p /\ lv p < 30 /\ 0 <= k < 4 /\
                                  exists m, leaves p m /\ cov y m) ->
      forall d, In d zs -> exists p k, d = child p k /\ wf p /\ lv p < 30 /\ 0 <= k < 4 /\
                                  exists m, leaves p m /\ cov y m).
    { intros k zs Hk H d I. destruct (H d I) as [->|]; [|auto]. exists c, k. auto 6. }
    intros d I. right. apply in_app_or in I. destruct I as [I|I]; [apply (K 0 a0); auto; lia|].
    apply in_app_or in I. destruct I as [I|I]; [apply (K 1 a1); auto; lia|].
    apply in_app_or in I. destruct I as [I|I]; [apply (K 2 a2); auto; lia|apply (K 3 a3); auto; lia].
Qed.

Lemma difference_internal_correct y : valid_cells y -> forall fuel c out, wf c ->
  30 - lv c < Z.of_nat fuel ->
  exists zs, difference_internal fuel out (code c) (map code y) = Some (rev (map code zs) ++ out) /\
    diff_out y c zs.
Proof.
  intros V. induction fuel as [|fuel IH]; intros c out W Hf; [destruct W; lia|].
  cbn [difference_internal].
  destruct (intersects_cellid_correct y c V W) as (r & -> & R).
  pose proof (lohi c W) as Lc.
  destruct r; cbn [negb].
  2:{ exists [c]. split; [reflexivity|]. split; [|split; [|split]].
      - split; [constructor; auto|repeat constructor].
      - intros d [<-|[]]. lia.
      - intros m. rewrite cov_cons, cov_nil. split; [|tauto]. intros [L|[]]. split; [auto|].
        intros (d & I & M). assert (false = true); [|discriminate]. apply R.
        exists d. rewrite leaves_lohi in *. split; [auto|lia].
      - intros d [<-|[]]. auto. }
  destruct (contains_cellid_single y c V W) as (s & -> & S). destruct s.
  { exists []. split; [reflexivity|]. destruct (proj1 S eq_refl) as (d & I & L1 & L2).
    split; [split; constructor|]. split; [intros e []|]. split; [|intros e []].
    intros m. rewrite cov_nil. split; [tauto|]. intros [L N]. apply N. exists d.
    rewrite leaves_lohi in *. split; [auto|lia]. }
  assert (Lv : lv c < 30).
  { destruct (Z_lt_dec (lv c) 30); [auto|]. exfalso.
    assert (false = true); [|discriminate]. apply S.
    destruct (proj1 R eq_refl) as (d & I & L1 & L2). exists d. split; [auto|].
    assert (hi c = lo c + 1).
    { unfold hi, lo. replace (lv c) with 30 by (destruct W; lia). change (30 - 30) with 0.
      rewrite Z.pow_0_r. lia. }
    lia. }
  rewrite child_begin_code by assumption.
  destruct (IH (child c 0) out) as (z0 & -> & D0); [apply wf_child; auto; lia|cbn; lia|].
  rewrite next_child by (auto; lia). change (0 + 1) with 1.
  destruct (IH (child c 1) (rev (map code z0) ++ out)) as (z1 & -> & D1); [apply wf_child; auto; lia|cbn; lia|].
  rewrite next_child by (auto; lia). change (1 + 1) with 2.
  destruct (IH (child c 2) (rev (map code z1) ++ rev (map code z0) ++ out)) as (z2 & -> & D2); [apply wf_child; auto; lia|cbn; lia|].
  rewrite next_child by (auto; lia). change (2 + 1) with 3.
  destruct (IH (child c 3) (rev (map code z2) ++ rev (map code z1) ++ rev (map code z0) ++ out)) as (z3 & -> & D3); [apply wf_child; auto; lia|cbn; lia|].
  exists (z0 ++ z1 ++ z2 ++ z3). split.
  - rewrite !map_app, !rev_app_distr, <- !app_assoc. reflexivity.
  - apply diff_out_app4; auto. apply overlap_leaves; auto; [apply V|apply R; auto].
Qed.

Lemma difference_loop_correct y : valid_cells y -> forall x out, Forall wf x ->
  exists zs, difference_loop out (map code x) (map code y) = Some (rev (map code zs) ++ out) /\
    Forall wf zs /\
    (valid_cells x -> valid_cells zs) /\
    (forall d, In d zs -> inside d x) /\
    (forall m, cov zs m <-> cov x m /\ ~ cov y m) /\
    (forall d, In d zs -> In d x \/ exists p k, d = child p k /\ wf p /\ lv p < 30 /\ 0 <= k < 4 /\
                                  exists m, leaves p m /\ cov y m).
Proof.
  intros V. induction x as [|c x IH]; intros out F; cbn [map difference_loop].
  - exists []. split; [reflexivity|]. split; [constructor|]. split; [auto|]. split; [intros d []|].
    split; [intros m; rewrite !cov_nil; tauto|intros d []].
  - inversion F; subst.
    destruct (difference_internal_correct y V 32 c out) as (z & -> & D); auto; [destruct H1; lia|].
    destruct (IH (rev (map code z) ++ out)) as (zs & -> & Fz & Vz & Iz & Cz & Pz); auto.
    destruct D as (V0 & B0 & C0 & P0).
    exists (z ++ zs). split; [rewrite map_app, rev_app_distr, <- app_assoc; reflexivity|].
    split; [apply Forall_app; split; [apply V0|auto]|]. split; [|split; [|split]].
    + intros Vx. apply valid_cells_cons in Vx. destruct Vx as (Wc & Vx & Fx). rewrite Forall_forall in Fx.
      apply valid_cells_app. split; [auto|]. split; [auto|]. intros u v Iu Iv.
      specialize (B0 u Iu). destruct (Iz v Iv) as (e & Ie & L1 & L2). specialize (Fx e Ie). lia.
    + intros d I. apply in_app_or in I. destruct I as [I|I].
      * exists c. split; [left; auto|]. apply B0; auto.
      * destruct (Iz d I) as (e & Ie & L). exists e. split; [right; auto|auto].
    + intros m. rewrite cov_app, cov_cons, C0, Cz. tauto.
    + intros d I. apply in_app_or in I. destruct I as [I|I].
      * destruct (P0 d I) as [->|]; [left; left; auto|auto].
      * destruct (Pz d I) as [|]; [left; right; auto|auto].
Qed.

Lemma child_inj p q j k : 0 <= j < 4 -> 0 <= k < 4 -> child p j = child q k -> p = q /\ j = k.
Proof.
  intros Hj Hk E. destruct p as [Lp np], q as [Lq nq]. unfold child in E; cbn in E. injection E as E1 E2.
  assert (np = nq) by lia. split; [|lia]. f_equal; lia.
Qed.

Theorem difference_correct x y : Forall wf x -> valid_cells y ->
  exists z, difference (map code x) (map code y) = Some (map code z) /\
    Forall wf z /\ (forall m, cov z m <-> cov x m /\ ~ cov y m) /\
    (valid_cells x -> valid_cells z) /\ (normalized_cells x -> normalized_cells z).
Proof.
  intros F V. unfold difference.
  destruct (difference_loop_correct y V x [] F) as (z & -> & Fz & Vz & Iz & Cz & Pz).
  rewrite app_nil_r, rev_involutive.
  assert (N : normalized_cells x -> normalized_cells z).
  { intros Nx. split; [apply Vz, Nx|]. intros (p & Wp & I).
    destruct (siblings_inside x z p Nx) as [Ip Lp]; auto; [intros m A; apply Cz; auto|].
    destruct (Pz _ (I 0 ltac:(lia))) as [Ix|(q & k & E & Wq & Lq & Hk & m & Lm & Cm)].
    - eapply (child_not_member x p 0); eauto; [apply Nx|lia].
    - apply child_inj in E; [|lia|lia]. destruct E as [<- _].
      rewrite children_partition in Lm by auto. destruct Lm as (k' & Hk' & Lm).
      assert (A : cov z m) by (exists (child p k'); auto). apply Cz in A. tauto. }
  destruct (is_normalized_code z Fz) as (r & -> & R).
  destruct (is_normalized_code x F) as (rx & -> & Rx).
  assert (OK : oror (Some r) (onot (Some rx)) = Some true).
  { unfold oror, onot. destruct r; [reflexivity|]. destruct rx; [|reflexivity].
    exfalso. assert (false = true); [|discriminate]. apply R, N, Rx. auto. }
  rewrite OK. exists z. auto.
Qed.

(** ** C38: denormalize *)

Lemma denorm_level_ok lv0 mn md : 0 <= lv0 <= 30 -> 0 <= mn <= 30 -> 1 <= md <= 3 ->
  exists l, denorm_level lv0 mn md = Some l /\ lv0 <= l <= 30 /\ permitted mn md l /\
    forall l', lv0 <= l' <= 30 -> permitted mn md l' -> l <= l'.
Proof.
  intros H1 H2 H3. unfold denorm_level, permitted.
  set (n := if lv0 <? mn then mn else lv0).
  assert (Hn : n = Z.max mn lv0) by (unfold n; destruct (Z.ltb_spec lv0 mn); lia).
  destruct (Z.ltb_spec 1 md) as [G|G].
  - rewrite sub64_ok by lia. rewrite sub64_ok by (change MAX_LEVEL with 30; lia).
    change MAX_LEVEL with 30. cbn zeta.
    set (r := (30 - (n - mn)) mod md).
    assert (Hr : 0 <= r < md) by (apply Z.mod_pos_bound; lia).
    assert (Hm : (n + r - mn) mod md = 0).
    { unfold r. replace (n + (30 - (n - mn)) mod md - mn) with ((n - mn) + (30 - (n - mn)) mod md) by lia.
      rewrite Zplus_mod_idemp_r. replace (n - mn + (30 - (n - mn))) with 30 by lia.
      assert (md = 2 \/ md = 3) as [-> | ->] by lia; reflexivity. }
    assert (MIN : forall l', lv0 <= l' -> mn <= l' -> (l' - mn) mod md = 0 -> n + r <= l').
    { intros l' A B C. destruct (Z_le_dec (n + r) l'); [auto|]. exfalso.
      assert (D : (n + r - l') mod md = 0).
      { replace (n + r - l') with ((n + r - mn) - (l' - mn)) by lia.
        rewrite Zminus_mod, Hm, C. reflexivity. }
      rewrite Z.mod_small in D by lia. lia. }
    destruct (Z.ltb_spec 30 (n + r)) as [K|K].
    + exists 30. split; [reflexivity|]. split; [lia|]. split; [split; [lia|auto]|].
      intros l' A (B & [C| ->]); [|lia]. specialize (MIN l' ltac:(lia) B C). lia.
    + exists (n + r). split; [reflexivity|]. split; [lia|]. split; [split; [lia|auto]|].
      intros l' A (B & [C| ->]); [|lia]. apply MIN; auto; lia.
  - assert (md = 1) as -> by lia. exists n. split; [reflexivity|]. split; [lia|].
    split; [split; [lia|left; apply Z.mod_1_r]|]. intros l' A (B & _). lia.
Qed.

Definition descendants (c : cell) (L : Z) : list cell :=
  map (fun i => Cell L (ix c * 4 ^ (L - lv c) + Z.of_nat i)) (seq 0 (Z.to_nat (4 ^ (L - lv c)))).

Lemma descendants_In c L d : wf c -> lv c <= L <= 30 ->
  (In d (descendants c L) <-> wf d /\ lv d = L /\ ancestor_or_self c d).
Proof.
  intros W HL. pose proof (descendants_mem c L (code d) W HL) as M. unfold descendants.
  assert (WW : forall d, In d (descendants c L) -> wf d).
  { intros e I. unfold descendants in I. apply in_map_iff in I. destruct I as (i & <- & I). apply in_seq in I.
    destruct W as [Wl Wi]. pose proof (pow4_pos (L - lv c) ltac:(lia)).
    assert (E : 4 ^ L = 4 ^ lv c * 4 ^ (L - lv c)) by (rewrite <- pow4_add by lia; f_equal; lia).
    split; cbn [lv ix]; [lia|]. rewrite E. nia. }
  split.
  - intros I. assert (Wd : wf d) by (apply WW; exact I).
    destruct (proj1 M) as (e & We & Le & Ae & Ee).
    + apply in_map_iff in I. destruct I as (i & <- & I). apply in_map_iff. exists i. auto.
    + apply code_inj in Ee; auto. subst e. auto.
  - intros (Wd & Ld & A). destruct M as [_ M]. specialize (M ltac:(eauto)).
    apply in_map_iff in M. destruct M as (i & E & I). apply in_map_iff. exists i. split; [|auto].
    apply code_inj; auto. apply WW. unfold descendants. apply in_map_iff. eauto.
Qed.

Lemma descendants_valid c L : wf c -> lv c <= L <= 30 -> valid_cells (descendants c L).
Proof.
  intros W HL. rewrite valid_cells_iff. split.
  - rewrite Forall_forall. intros d I. apply descendants_In in I; auto. tauto.
  - unfold descendants, lohi_sorted. generalize (Z.to_nat (4 ^ (L - lv c))). intros n. generalize 0%nat.
    induction n as [|n IH]; intros s; cbn [seq map]; constructor; [apply IH|].
    rewrite Forall_forall. intros d I. apply in_map_iff in I. destruct I as (i & <- & I). apply in_seq in I.
    pose proof (pow4_pos (30 - L) ltac:(destruct W; lia)). unfold hi, lo; cbn [lv ix]. nia.
Qed.

Lemma descendants_cov c L m : wf c -> lv c <= L <= 30 -> (cov (descendants c L) m <-> leaves c m).
Proof.
  intros W HL. split.
  - intros (d & I & Lm). apply descendants_In in I; auto. destruct I as (Wd & _ & A).
    apply (ancestor_leaves c d); auto.
  - intros Lm. pose proof (leaves_bounds c m W Lm) as B.
    exists (anc L (leaf m)). assert (Wl : wf (leaf m)) by (apply wf_leaf; auto).
    assert (Wa : wf (anc L (leaf m))) by (apply wf_anc; auto; cbn; destruct W; lia).
    assert (Lf : leaves (anc L (leaf m)) m).
    { apply (ancestor_leaves (anc L (leaf m)) (leaf m)); auto.
      - apply anc_is_ancestor. cbn. destruct W; lia.
      - rewrite leaves_lohi. destruct (lo_leaf m). lia. }
    split; [|auto]. apply descendants_In; auto. split; [auto|]. split; [reflexivity|].
    rewrite anc_iff by auto. rewrite leaves_lohi in *.
    destruct (cases c (anc L (leaf m)) W Wa) as [X|[X|[X|X]]]; [lia|lia|auto|].
    assert (A : ancestor_or_self (anc L (leaf m)) c) by (apply anc_iff; auto).
    destruct A as [A1 A2]. change (lv (anc L (leaf m))) with L in *. assert (EL : L = lv c) by lia.
    rewrite EL, anc_self in A2. rewrite EL, <- A2. lia.
Qed.

Lemma descendants_length c L : length (descendants c L) = Z.to_nat (4 ^ (L - lv c)).
Proof. unfold descendants. rewrite map_length, seq_length. reflexivity. Qed.

Theorem denormalize_correct cs mn md : Forall wf cs -> 0 <= mn <= 30 -> 1 <= md <= 3 ->
  exists ds,
    (forall fuel, (length ds <= fuel)%nat -> denormalize fuel (map code cs) mn md = Some (map code ds)) /\
    Forall wf ds /\
    (forall m, cov ds m <-> cov cs m) /\
    (forall d, In d ds -> permitted mn md (lv d) /\ exists c, In c cs /\ ancestor_or_self c d /\
        forall l, lv c <= l <= 30 -> permitted mn md l -> lv d <= l) /\
    (valid_cells cs -> valid_cells ds).
Proof.
  intros F H1 H2. induction cs as [|c cs IH]; cbn [map denormalize].
  - exists []. split; [intros fuel _; reflexivity|]. split; [constructor|]. split; [tauto|]. split; [intros d []|auto].
  - inversion F; subst. destruct (IH H4) as (ds & Ed & Fd & Cd & Pd & Vd). clear IH.
    pose proof H3 as W. destruct (W) as [Wl _]. rewrite level_code by auto.
    destruct (denorm_level_ok (lv c) mn md Wl H1 H2) as (l & -> & Hl & Pl & Ml).
    assert (HERE : forall fuel, (length (descendants c l) <= fuel)%nat -> (if l =? lv c then Some [code c] else child_iter_at_level fuel (code c) l)
                   = Some (map code (descendants c l))).
    { intros fuel Hf. rewrite descendants_length in Hf. destruct (Z.eqb_spec l (lv c)) as [->|Nl].
      - unfold descendants. rewrite Z.sub_diag, Z.pow_0_r. change (Z.to_nat 1) with 1%nat. cbn [seq map].
        do 3 f_equal. rewrite Z.mul_1_r. change (Z.of_nat 0) with 0. rewrite Z.add_0_r. destruct c; reflexivity.
      - rewrite child_iter_at_level_code; auto.
        unfold descendants. rewrite map_map. reflexivity. }
    exists (descendants c l ++ ds). split.
    { intros fuel Hf. rewrite app_length in Hf. rewrite HERE, Ed by lia. rewrite map_app. reflexivity. }
    split; [apply Forall_app; split; [apply descendants_valid; auto|auto]|]. split; [|split].
    + intros m. rewrite cov_app, cov_cons, Cd, descendants_cov by auto. tauto.
    + intros d I. apply in_app_or in I. destruct I as [I|I].
      * apply descendants_In in I; auto. destruct I as (Wd & -> & A). split; [auto|].
        exists c. split; [left; auto|]. split; auto.
      * destruct (Pd d I) as (P & e & Ie & Ae & Me). split; [auto|]. exists e. split; [right; auto|]. auto.
    + intros V. apply valid_cells_cons in V. destruct V as (_ & V & Fc). rewrite Forall_forall in Fc.
      apply valid_cells_app. split; [apply descendants_valid; auto|]. split; [auto|].
      intros u v Iu Iv. apply descendants_In in Iu; auto. destruct Iu as (Wu & _ & Au).
      rewrite anc_iff in Au by auto. destruct (Pd v Iv) as (_ & e & Ie & Ae & _).
      assert (We : wf e) by (eapply valid_wf; [exact V|auto]).
      rewrite Forall_forall in Fd. rewrite anc_iff in Ae by auto. specialize (Fc e Ie). lia.
Qed.

(** ** C39: leaf count *)

Fixpoint leaf_sum (cs : list cell) : Z :=
  match cs with [] => 0 | c :: cs' => (hi c - lo c) + leaf_sum cs' end.

Lemma leaf_sum_bound cs : valid_cells cs -> 0 <= leaf_sum cs <= 6 * 4 ^ 30.
Proof.
  intros V. assert (G : forall cs b, valid_cells cs -> b <= 6 * 4 ^ 30 -> (forall c, In c cs -> b <= lo c) ->
                     0 <= leaf_sum cs <= 6 * 4 ^ 30 - b).
  { clear. induction cs as [|c cs IH]; intros b V Hb H; cbn [leaf_sum]; [lia|].
    apply valid_cells_cons in V. destruct V as (W & V & F). rewrite Forall_forall in F.
    pose proof (lohi c W). specialize (IH (hi c) V ltac:(lia) F).
    specialize (H c (or_introl eq_refl)). lia. }
  specialize (G cs 0 V ltac:(rewrite pow4_30; lia)). assert (forall c, In c cs -> 0 <= lo c).
  { intros c I. pose proof (lohi c (valid_wf _ _ V I)). lia. }
  specialize (G H). lia.
Qed.

Lemma leaf_cell_covered_sum cs : forall acc, valid_cells cs -> 0 <= acc -> acc + leaf_sum cs <= 6 * 4 ^ 30 ->
  leaf_cell_covered_from acc (map code cs) = Some (acc + leaf_sum cs).
Proof.
  induction cs as [|c cs IH]; intros acc V Ha Hs; cbn [map leaf_cell_covered_from leaf_sum] in *.
  - f_equal. lia.
  - apply valid_cells_cons in V. destruct V as (W & V & F).
    rewrite level_code by auto. destruct (W) as [Wl _]. change MAX_LEVEL with 30.
    rewrite sub64_ok by lia. pose proof (leaf_sum_bound cs V).
    assert (E : hi c - lo c = 2 ^ (2 * (30 - lv c))).
    { unfold hi, lo. rewrite <- pow4_2 by lia. lia. }
    rewrite pow4_30 in *.
    rewrite shl64_ok; [|lia|lia|lia]. rewrite Z.mul_1_l. rewrite add64_ok by lia.
    rewrite IH; [f_equal; lia|auto| |lia]. pose proof (pow2_pos (2 * (30 - lv c)) ltac:(lia)). lia.
Qed.

Lemma NoDup_app_intro {A} (a b : list A) : NoDup a -> NoDup b -> (forall x, In x a -> ~ In x b) -> NoDup (a ++ b).
Proof.
  intros Ha Hb H. induction Ha as [|x a N Ha IH]; cbn; [auto|]. constructor.
  - rewrite in_app_iff. intros [|I]; [auto|]. apply (H x); [left; auto|auto].
  - apply IH. intros y I. apply H. right; auto.
Qed.

Theorem leaf_cell_covered_correct cs : valid_cells cs ->
  exists l, leaf_cell_covered (map code cs) = Some (Z.of_nat (length l)) /\
    NoDup l /\ (forall m, In m l <-> cov cs m) /\ Z.of_nat (length l) <= 6 * 2 ^ 60.
Proof.
  intros V. pose proof (leaf_sum_bound cs V) as B.
  assert (L : exists l, Z.of_nat (length l) = leaf_sum cs /\ NoDup l /\ forall m, In m l <-> cov cs m).
  { clear B. induction cs as [|c cs IH].
    - exists []. split; [reflexivity|]. split; [constructor|]. intros m. rewrite cov_nil. cbn. tauto.
    - apply valid_cells_cons in V. destruct V as (W & V & F). rewrite Forall_forall in F.
      destruct (IH V) as (l & El & Nl & Ml). pose proof (lohi c W).
      exists (map (fun i => lo c + Z.of_nat i) (seq 0 (Z.to_nat (hi c - lo c))) ++ l).
      assert (Mc : forall m, In m (map (fun i => lo c + Z.of_nat i) (seq 0 (Z.to_nat (hi c - lo c)))) <-> leaves c m).
      { intros m. rewrite in_map_iff, leaves_lohi. split.
        - intros (i & <- & I). apply in_seq in I. lia.
        - intros Hm. exists (Z.to_nat (m - lo c)). split; [lia|]. apply in_seq. lia. }
      split; [|split].
      + rewrite app_length, map_length, seq_length. cbn [leaf_sum]. lia.
      + apply NoDup_app_intro; [|auto|].
        * apply FinFun.Injective_map_NoDup; [intros i j; lia|apply seq_NoDup].
        * intros m I1 I2. apply Mc in I1. apply Ml in I2. destruct I2 as (d & Id & Ld).
          specialize (F d Id). rewrite leaves_lohi in *. lia.
      + intros m. rewrite in_app_iff, cov_cons, Mc, Ml. tauto. }
  destruct L as (l & E & N & M). exists l. split; [|split; [auto|split; [auto|]]].
  - unfold leaf_cell_covered. rewrite leaf_cell_covered_sum by (auto; lia). rewrite E. reflexivity.
  - rewrite E. change (2 ^ 60) with (4 ^ 30). lia.
Qed.

(** ** C14, C15: max_tile and from_range *)

(* positions: a valid cell or the position just past the last cell of a level *)
Definition wfe (c : cell) : Prop := 0 <= lv c <= 30 /\ 0 <= ix c <= 6 * 4 ^ lv c.

Lemma wf_wfe c : wf c -> wfe c.
Proof. intros [A B]. split; lia. Qed.

Lemma wfe_cases c : wfe c -> wf c \/ lo c = 6 * 4 ^ 30.
Proof.
  intros [A B]. destruct (Z.eq_dec (ix c) (6 * 4 ^ lv c)) as [E|N].
  - right. unfold lo. rewrite E, <- Z.mul_assoc, <- pow4_add by lia. do 2 f_equal. lia.
  - left. split; lia.
Qed.

Lemma lohi_e c : wfe c -> 0 <= lo c <= 6 * 4 ^ 30 /\ lo c < hi c /\ hi c = lo c + 4 ^ (30 - lv c) /\ hi c <= 7 * 4 ^ 30.
Proof.
  intros H. pose proof (pow4_pos (30 - lv c) ltac:(destruct H; lia)).
  pose proof (pow4_mono (30 - lv c) 30 ltac:(destruct H; lia)).
  assert (hi c = lo c + 4 ^ (30 - lv c)) by (unfold hi, lo; lia).
  destruct (wfe_cases c H) as [W|E]; [pose proof (lohi c W); rewrite pow4_30 in *; lia|rewrite pow4_30 in *; lia].
Qed.

Lemma lsb_code_e c : wfe c -> lsb (code c) = Some (4 ^ (30 - lv c)).
Proof.
  intros H. pose proof (lohi_e c H) as B.
  assert (code c < 2 ^ 64) by (rewrite code_lohi; rewrite pow4_30 in *; lia).
  destruct H as [A H].
  assert (E : code c = (2 * ix c + 1) * 2 ^ (2 * (30 - lv c))) by (unfold code; rewrite pow4_2 by lia; reflexivity).
  rewrite E in *. rewrite lsb_odd_part by lia. rewrite pow4_2 by lia. reflexivity.
Qed.

Lemma range_min_e c : wfe c -> range_min (code c) = Some (2 * lo c + 1).
Proof.
  intros H. unfold range_min. rewrite lsb_code_e by auto. pose proof (lohi_e c H).
  pose proof (code_lohi c). pose proof (pow4_pos (30 - lv c) ltac:(destruct H; lia)).
  rewrite sub64_ok by lia. rewrite sub64_ok by lia. f_equal. lia.
Qed.

(* comparing range_max of a cell with a later limit *)
Lemma before_limit c l : wf c -> wfe l -> lo c < lo l -> (2 * hi c - 1 < code l <-> hi c <= lo l).
Proof.
  intros W E L. pose proof (lohi c W). pose proof (lohi_e l E). pose proof (code_lohi l).
  destruct (wfe_cases l E) as [Wl|El]; [|lia].
  destruct (cases c l W Wl) as [X|[X|[X|X]]]; lia.
Qed.

(* t is the largest cell that starts at s and ends at or before b *)
Definition largest_tile (s b : Z) (t : cell) : Prop :=
  wf t /\ lo t = s /\ hi t <= b /\ forall t', wf t' -> lo t' = s -> hi t' <= b -> hi t' <= hi t.

Lemma max_tile_shrink_correct l : wfe l -> forall fuel c, wf c -> 30 - lv c < Z.of_nat fuel ->
  lo c < lo l -> lo l < hi c ->
  exists t, max_tile_shrink fuel (code c) (code l) = Some (code t) /\ largest_tile (lo c) (lo l) t.
Proof.
  intros E. induction fuel as [|fuel IH]; intros c W Hf L1 L2; [destruct W; lia|].
  cbn [max_tile_shrink].
  assert (Lv : lv c < 30).
  { destruct (Z_lt_dec (lv c) 30); [auto|]. exfalso.
    assert (hi c = lo c + 1); [|lia].
    unfold hi, lo. replace (lv c) with 30 by (destruct W; lia). change (30 - 30) with 0.
    rewrite Z.pow_0_r. lia. }
  rewrite children_code by auto.
  assert (W0 : wf (child c 0)) by (apply wf_child; auto; lia).
  rewrite range_max_hi by auto.
  destruct (lo_child c 0 W Lv) as (E0 & F0 & E3).
  pose proof (pow4_pos (29 - lv c) ltac:(destruct W; lia)) as P.
  assert (L0 : lo (child c 0) = lo c) by lia.
  pose proof (before_limit (child c 0) l W0 E ltac:(lia)) as B.
  destruct (Z.ltb_spec (2 * hi (child c 0) - 1) (code l)) as [G|G].
  - exists (child c 0). split; [reflexivity|]. split; [auto|]. split; [auto|]. split; [apply B; auto|].
    intros t' Wt Lt Ht. destruct (Z_le_dec (hi t') (hi (child c 0))); [auto|]. exfalso.
    destruct (anc_of_child t' c 0) as [A1 A2]; auto; try lia. intros ->. lia.
  - destruct (IH (child c 0)) as (t & Et & T); auto; [cbn; lia|lia|lia|].
    exists t. rewrite L0 in T. auto.
Qed.

Lemma parent_split c : wf c -> 0 < lv c -> exists p k, wf p /\ lv p < 30 /\ 0 <= k < 4 /\ c = child p k /\
  immediate_parent (code c) = Some (code p).
Proof.
  intros W L. exists (anc (lv c - 1) c), (ix c mod 4).
  pose proof (wf_anc c (lv c - 1) W ltac:(lia)) as Wp.
  pose proof (Z.div_mod (ix c) 4 ltac:(lia)) as D. pose proof (Z.mod_pos_bound (ix c) 4 ltac:(lia)).
  split; [auto|]. split; [cbn; destruct W; lia|]. split; [lia|]. split.
  - unfold anc. replace (lv c - (lv c - 1)) with 1 by lia. change (4 ^ 1) with 4.
    apply child_of_index; [lia|lia].
  - apply immediate_parent_code; auto.
Qed.

Lemma max_tile_grow_correct l : wfe l -> forall fuel c, wf c -> lv c < Z.of_nat fuel ->
  lo c < lo l -> hi c <= lo l ->
  exists t, max_tile_grow fuel (code c) (2 * lo c + 1) (code l) = Some (code t) /\ largest_tile (lo c) (lo l) t.
Proof.
  intros E. induction fuel as [|fuel IH]; intros c W Hf L1 L2; [destruct W; lia|].
  cbn [max_tile_grow]. rewrite is_face_code by auto.
  pose proof (lohi c W) as Lc.
  assert (STOP : (forall t', wf t' -> lo t' = lo c -> hi t' <= lo l -> hi t' <= hi c) ->
    exists t, Some (code c) = Some (code t) /\ largest_tile (lo c) (lo l) t).
  { intros H. exists c. split; [auto|]. split; [auto|]. auto. }
  destruct (Z.eqb_spec (lv c) 0) as [Z0|Z0].
  - apply STOP. intros t' Wt Lt Ht.
    destruct (Z_le_dec (hi t') (hi c)); [auto|]. exfalso.
    assert (A : ancestor_or_self t' c) by (apply anc_iff; auto; lia).
    destruct A as [A1 A2]. assert (lv t' = lv c) by (destruct Wt; lia).
    rewrite H, anc_self in A2. subst. lia.
  - destruct (parent_split c W ltac:(destruct W; lia)) as (p & k & Wp & Lp & Hk & Ec & ->).
    rewrite range_min_lo, range_max_hi by auto.
    assert (UP : forall t', wf t' -> lo t' = lo c -> hi c < hi t' -> lo t' <= lo p /\ hi p <= hi t').
    { intros t' Wt Lt Ht. subst c. apply (anc_of_child t' p k); auto; try lia. intros ->. lia. }
    destruct (lo_child p k Wp Lp) as (E1 & E2 & E3). rewrite <- Ec in *.
    pose proof (pow4_pos (29 - lv p) ltac:(destruct Wp; lia)).
    destruct (Z.eqb_spec (2 * lo p + 1) (2 * lo c + 1)) as [G|G]; cbn [negb].
    2:{ apply STOP. intros t' Wt Lt Ht. destruct (Z_le_dec (hi t') (hi c)); [auto|]. exfalso.
        destruct (UP t' Wt Lt ltac:(lia)). nia. }
    assert (lo p = lo c) as Epc by lia.
    pose proof (before_limit p l Wp E ltac:(lia)) as B. rewrite Z.geb_leb.
    destruct (Z.leb_spec (code l) (2 * hi p - 1)) as [K|K].
    + apply STOP. intros t' Wt Lt Ht. destruct (Z_le_dec (hi t') (hi c)); [auto|]. exfalso.
      destruct (UP t' Wt Lt ltac:(lia)). assert (hi p <= lo l) by lia. lia.
    + destruct (IH p) as (t & Et & T); auto; [|lia|lia|].
      * subst c. cbn in Hf. lia.
      * rewrite Epc in *. exists t. auto.
Qed.

Theorem max_tile_correct c l : wf c -> wfe l -> lo c < lo l ->
  exists t, max_tile (code c) (code l) = Some (code t) /\ largest_tile (lo c) (lo l) t.
Proof.
  intros W E L. unfold max_tile. rewrite !range_min_e by auto using wf_wfe.
  rewrite Z.geb_leb. destruct (Z.leb_spec (2 * lo l + 1) (2 * lo c + 1)); [lia|].
  rewrite range_max_hi by auto. rewrite Z.geb_leb.
  pose proof (before_limit c l W E L) as B.
  destruct (Z.leb_spec (code l) (2 * hi c - 1)).
  - apply max_tile_shrink_correct; auto; [|lia]. destruct W. change (Z.of_nat max_tile_fuel) with 64. lia.
  - apply max_tile_grow_correct; auto; [|lia]. destruct W. change (Z.of_nat max_tile_fuel) with 64. lia.
Qed.

Theorem max_tile_none c l : wfe c -> wfe l -> lo l <= lo c -> max_tile (code c) (code l) = Some (code l).
Proof.
  intros W E L. unfold max_tile. rewrite !range_min_e by auto.
  rewrite Z.geb_leb. destruct (Z.leb_spec (2 * lo l + 1) (2 * lo c + 1)); [reflexivity|lia].
Qed.

Lemma next_code_e c : wf c -> exists n, wfe n /\ next (code c) = Some (code n) /\ lo n = hi c /\
  (hi c < 6 * 4 ^ 30 -> wf n).
Proof.
  intros W. exists (Cell (lv c) (ix c + 1)). split; [|split; [apply next_code; auto|split; [reflexivity|]]].
  - destruct W; split; cbn; lia.
  - intros L. destruct W as [A B]. split; cbn [lv ix]; [lia|]. split; [lia|].
    pose proof (pow4_pos (30 - lv c) ltac:(lia)) as P.
    assert (E : 4 ^ 30 = 4 ^ lv c * 4 ^ (30 - lv c)) by (rewrite <- pow4_add by lia; f_equal; lia).
    unfold hi in L. rewrite E in L. rewrite Z.mul_assoc in L. apply Z.mul_lt_mono_pos_r in L; lia.
Qed.

Lemma from_range_loop_correct l : wfe l -> forall fuel t s, largest_tile s (lo l) t ->
  lo l - s <= Z.of_nat fuel ->
  exists zs, from_range_loop fuel (code t) (code l) = Some (map code zs) /\ valid_cells zs /\
    (forall m, cov zs m <-> s <= m < lo l) /\
    forall z, In z zs -> largest_tile (lo z) (lo l) z /\ s <= lo z.
Proof.
  intros E. induction fuel as [|fuel IH]; intros t s T Hf; pose proof T as (W & Es & Ht & M);
    pose proof (lohi t W) as Lt; [lia|].
  cbn [from_range_loop]. pose proof (lohi_e l E). pose proof (code_lohi l). pose proof (code_lohi t).
  destruct (Z.eqb_spec (code t) (code l)); [lia|].
  destruct (next_code_e t W) as (n' & En & -> & Ln & Wn).
  destruct (Z.eq_dec (hi t) (lo l)) as [D|D].
  - rewrite max_tile_none by (auto; lia).
    assert (from_range_loop fuel (code l) (code l) = Some []) as ->.
    { destruct fuel; cbn [from_range_loop]; rewrite Z.eqb_refl; reflexivity. }
    exists [t]. split; [reflexivity|]. split; [split; [constructor; auto|repeat constructor]|].
    split; [intros m; rewrite cov_cons, cov_nil, leaves_lohi; lia|].
    intros z [<-|[]]. rewrite Es. split; [auto|lia].
  - assert (hi t < 6 * 4 ^ 30) as Lx by lia.
    destruct (max_tile_correct n' l (Wn Lx) E ltac:(lia)) as (t' & -> & T'). rewrite Ln in T'.
    destruct (IH t' (hi t) T') as (zs & -> & Vz & Cz & Mz); [lia|].
    exists (t :: zs). split; [reflexivity|]. split; [|split].
    + apply valid_cells_cons. split; [auto|]. split; [auto|]. rewrite Forall_forall.
      intros z I. destruct (Mz z I). auto.
    + intros m. rewrite cov_cons, Cz, leaves_lohi. lia.
    + intros z [<-|I]; [rewrite Es; split; [auto|lia]|]. destruct (Mz z I). split; [auto|lia].
Qed.

Lemma from_range_loop_fuel stop : forall fuel cur r fuel', from_range_loop fuel cur stop = Some r ->
  (length r <= fuel')%nat -> from_range_loop fuel' cur stop = Some r.
Proof.
  induction fuel as [|fuel IH]; intros cur r fuel'; cbn [from_range_loop].
  - destruct (cur =? stop) eqn:E; [|discriminate]. intros [= <-] _.
    destruct fuel'; cbn [from_range_loop]; rewrite E; reflexivity.
  - destruct (cur =? stop) eqn:E.
    + intros [= <-] _. destruct fuel'; cbn [from_range_loop]; rewrite E; reflexivity.
    + destruct (next cur) as [n|] eqn:En; [|discriminate].
      destruct (max_tile n stop) as [t|] eqn:Et; [|discriminate].
      destruct (from_range_loop fuel t stop) as [l|] eqn:El; [|discriminate].
      intros [= <-] H. cbn [length] in H. destruct fuel' as [|fuel']; [lia|].
      cbn [from_range_loop]. rewrite E, En, Et, (IH t l fuel' El) by lia. reflexivity.
Qed.

Lemma from_range_some b e fuel : 0 <= b <= e -> e <= 6 * 4 ^ 30 -> e - b <= Z.of_nat fuel ->
  exists zs, from_range fuel (code (leaf b)) (code (leaf e)) = Some (map code zs) /\
    normalized_cells zs /\ forall m, cov zs m <-> b <= m < e.
Proof.
  intros Hb He Hf. unfold from_range.
  assert (Ee : wfe (leaf e)) by (split; cbn; lia).
  destruct (lo_leaf b) as [Lb Hb']. destruct (lo_leaf e) as [Le He'].
  destruct (Z.eq_dec b e) as [D|D].
  - rewrite max_tile_none; [|split; cbn; lia|auto|lia].
    exists []. split; [destruct fuel; cbn [from_range_loop]; rewrite Z.eqb_refl; reflexivity|].
    split; [split; [split; constructor|intros (p & _ & I); destruct (I 0); lia]|].
    intros m. rewrite cov_nil. lia.
  - destruct (max_tile_correct (leaf b) (leaf e)) as (t & -> & T); [split; cbn; lia|auto|lia|].
    rewrite Lb, Le in T. rewrite <- Le in T.
    destruct (from_range_loop_correct (leaf e) Ee fuel t b T) as (zs & -> & V & C & M); [lia|].
    exists zs. split; [reflexivity|]. split; [|intros m; rewrite C, Le; tauto].
    split; [auto|]. intros (p & Wp & I).
    assert (Lp : lv p < 30).
    { pose proof (valid_wf _ _ V (I 0 ltac:(lia))) as [W0 _]. cbn in W0. lia. }
    destruct (lo_child p 0 Wp Lp) as (E0 & F0 & E3). destruct (lo_child p 3 Wp Lp) as (E0' & F0' & _).
    pose proof (pow4_pos (29 - lv p) ltac:(destruct Wp; lia)).
    destruct (M _ (I 0 ltac:(lia))) as [(_ & _ & _ & M0) _].
    destruct (M _ (I 3 ltac:(lia))) as [(_ & _ & M3 & _) _].
    specialize (M0 p Wp ltac:(lia) ltac:(lia)). lia.
Qed.

Theorem from_range_correct b e : 0 <= b <= e -> e <= 6 * 4 ^ 30 ->
  exists zs,
    (forall fuel, (length zs <= fuel)%nat ->
       from_range fuel (code (leaf b)) (code (leaf e)) = Some (map code zs)) /\
    normalized_cells zs /\ forall m, cov zs m <-> b <= m < e.
Proof.
  intros Hb He. destruct (from_range_some b e (Z.to_nat (e - b)) Hb He) as (zs & E & N & C); [lia|].
  exists zs. split; [|auto]. intros fuel Hf. unfold from_range in *.
  destruct (max_tile (code (leaf b)) (code (leaf e))) as [t|]; [|discriminate].
  eapply from_range_loop_fuel; [exact E|]. rewrite map_length. exact Hf.
Qed.
