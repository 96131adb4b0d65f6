(** Proofs about the region coverer, part 1: level adjustment, normalize_covering
    and adjust_cell_levels. *)
From Verif Require Import Base Spec CellIdModel CellIdArith CellIdProofs CellOrder
  CellUnionModel CellUnionProofs CellUnionNormalize CellUnionOps CellUnionMore CovererModel.

(* parameters for which the documentation makes promises *)
Definition params_ok (p : params) : Prop :=
  0 <= min_level p <= 30 /\ 0 <= max_level p <= 30 /\ 1 <= level_mod p <= 3 /\ 0 <= max_cells p.

(* the deepest level used: min_level takes priority over max_level *)
Definition top (p : params) : Z := Z.max (min_level p) (max_level p).

Lemma top_ok p : params_ok p -> min_level p <= top p /\ max_level p <= top p /\ top p <= 30 /\
  (top p = min_level p \/ top p = max_level p).
Proof. unfold params_ok, top. lia. Qed.

(* a level the search may visit: above min_level only every level_mod-th *)
Definition good (p : params) (l : Z) : Prop :=
  0 <= l <= top p /\ (min_level p <= l -> (l - min_level p) mod level_mod p = 0).

Definition good_cell (p : params) (c : cell) : Prop := wf c /\ good p (lv c).

Lemma adjust_level_ok p l : 0 <= min_level p -> 1 <= level_mod p -> 0 <= l ->
  0 <= adjust_level p l <= l /\ (min_level p <= l -> min_level p <= adjust_level p l) /\
  (min_level p <= adjust_level p l -> (adjust_level p l - min_level p) mod level_mod p = 0) /\
  ((min_level p <= l -> (l - min_level p) mod level_mod p = 0) -> adjust_level p l = l).
Proof.
  intros Hm Hd Hl. unfold adjust_level.
  destruct (Z.ltb_spec 1 (level_mod p)); cbn [andb].
  - destruct (Z.ltb_spec (min_level p) l).
    + pose proof (Z.mod_pos_bound (l - min_level p) (level_mod p) ltac:(lia)).
      pose proof (Z.mod_le (l - min_level p) (level_mod p) ltac:(lia) ltac:(lia)).
      split; [lia|]. split; [lia|]. split; [intros _|intros E; rewrite E by lia; lia].
      replace (l - (l - min_level p) mod level_mod p - min_level p)
        with (level_mod p * ((l - min_level p) / level_mod p)).
      * rewrite Z.mul_comm. apply Z.mod_mul. lia.
      * pose proof (Z.div_mod (l - min_level p) (level_mod p) ltac:(lia)). lia.
    + repeat split; lia || (intros; replace (l - min_level p) with 0 by lia; apply Z.mod_0_l; lia).
  - repeat split; lia || (intros; replace (level_mod p) with 1 by lia; apply Z.mod_1_r).
Qed.

Lemma adjust_good p l : params_ok p -> 0 <= l <= top p -> good p (adjust_level p l).
Proof.
  intros (A & B & C & _) Hl. pose proof (adjust_level_ok p l ltac:(lia) ltac:(lia) ltac:(lia)) as (D & E & F & G).
  split; [lia|auto].
Qed.

(** ** Counting *)

Lemma count_le cs ds : valid_cells cs -> Forall wf ds -> (forall m, cov cs m -> cov ds m) ->
  (forall d, In d ds -> exists c, In c cs /\ lo c <= lo d /\ hi d <= hi c) ->
  (length cs <= length ds)%nat.
Proof.
  intros V Fd E K. rewrite Forall_forall in Fd.
  assert (G : forall l, (forall c, In c l -> In c cs) ->
            exists fs, Forall2 (fun c d => In d ds /\ lo c <= lo d /\ hi d <= hi c) l fs).
  { induction l as [|c l IH]; intros Hl; [exists []; constructor|].
    destruct IH as (fs & Ff); [intros x Ix; apply Hl; right; auto|].
    assert (Ic : In c cs) by (apply Hl; left; auto).
    assert (Wc : wf c) by (eapply valid_wf; eauto). pose proof (lohi c Wc).
    assert (A : cov ds (lo c)).
    { apply E. exists c. rewrite leaves_lohi. split; [auto|lia]. }
    destruct A as (d & Id & Ld). rewrite leaves_lohi in Ld.
    destruct (K d Id) as (e & Ie & M1 & M2).
    assert (c = e).
    { destruct (valid_disjoint cs c e V Ic Ie) as [|[|]]; [auto|lia|lia]. }
    subst e. exists (d :: fs). constructor; auto. }
  destruct (G cs (fun c I => I)) as (fs & Ff).
  assert (LEN : length cs = length fs) by (clear -Ff; induction Ff; cbn; congruence).
  rewrite LEN. apply NoDup_incl_length.
  - clear G E LEN K. induction Ff as [|c d l fs (Id & L1 & L2) Ff IH]; constructor.
    + intros I. apply valid_cells_cons in V. destruct V as (W & V & Fc). rewrite Forall_forall in Fc.
      destruct (In_nth_error _ _ I) as [k Ek].
      assert (X : exists c', In c' l /\ lo c' <= lo d).
      { clear -Ff Ek. revert k Ek. induction Ff as [|c' d' l' fs' (Id & L1 & L2) Ff IH]; intros [|k] Ek; cbn in Ek; try discriminate.
        - injection Ek as ->. exists c'. split; [left; auto|auto].
        - destruct (IH k Ek) as (c2 & I2 & L). exists c2. split; [right; auto|auto]. }
      destruct X as (c' & Ic' & L). specialize (Fc c' Ic'). pose proof (lohi d (Fd d Id)). lia.
    + apply IH. apply valid_cells_cons in V. tauto.
  - intros d I. clear -Ff I. induction Ff as [|c d' l fs (Id & _) Ff IH]; [destruct I|].
    destruct I as [<-|I]; auto.
Qed.

(* every cell of a normal form contains a cell of what was normalized *)
Lemma below_normal ns rs : normalized_cells ns -> Forall wf rs -> (forall m, cov ns m <-> cov rs m) ->
  (forall c, In c ns -> exists r, In r rs /\ ancestor_or_self c r) /\
  (forall r, In r rs -> exists c, In c ns /\ ancestor_or_self c r).
Proof.
  intros N F E. rewrite Forall_forall in F.
  assert (A : forall r, In r rs -> exists c, In c ns /\ ancestor_or_self c r).
  { intros r I. destruct (normalized_contains ns N r (F r I)) as (c & Ic & M1 & M2).
    - intros m L. apply E. exists r; auto.
    - exists c. split; [auto|]. apply anc_iff; auto. eapply valid_wf; eauto. apply N. }
  split; [|exact A].
  intros c I. assert (W : wf c) by (eapply valid_wf; eauto; apply N). pose proof (lohi c W).
  assert (X : cov rs (lo c)). { apply E. exists c. rewrite leaves_lohi. split; [auto|lia]. }
  destruct X as (r & Ir & Lr). exists r. split; [auto|].
  destruct (A r Ir) as (c' & Ic' & An). assert (W' : wf c') by (eapply valid_wf; eauto; apply N).
  pose proof An as An2. rewrite anc_iff in An2 by auto. rewrite leaves_lohi in Lr.
  destruct (valid_disjoint ns c c' (proj1 N) I Ic') as [->|[|]]; [auto|lia|lia].
Qed.

Lemma anc_lv a b : ancestor_or_self a b -> lv a <= lv b.
Proof. intros [H _]. auto. Qed.

(* denormalizing the normal form of cells at good levels *)
Lemma denormalize_good p ns rs : params_ok p -> normalized_cells ns -> Forall (good_cell p) rs ->
  (forall m, cov ns m <-> cov rs m) ->
  exists ds, (forall fuel, (length ds <= fuel)%nat ->
                denormalize fuel (map code ns) (min_level p) (level_mod p) = Some (map code ds)) /\
    valid_cells ds /\ (forall m, cov ds m <-> cov rs m) /\
    (forall d, In d ds -> min_level p <= lv d <= top p /\ (lv d - min_level p) mod level_mod p = 0) /\
    (Forall (fun r => min_level p <= lv r) rs -> (length ds <= length rs)%nat).
Proof.
  intros P N G E. assert (Fw : Forall wf rs) by (eapply Forall_impl; [|exact G]; intros ? []; auto).
  destruct (P) as (P1 & P2 & P3 & P4). pose proof (top_ok p P) as T.
  destruct (denormalize_correct ns (min_level p) (level_mod p)) as (ds & Ed & Wd & Cd & Ld & Vd); [apply N|lia|lia|].
  exists ds. split; [exact Ed|]. split; [apply Vd, N|]. split; [intros m; rewrite Cd; apply E|].
  destruct (below_normal ns rs N Fw E) as [B1 B2].
  assert (KEY : forall d c r, In d ds -> In r rs -> ancestor_or_self c r ->
            (forall l, lv c <= l <= 30 -> permitted (min_level p) (level_mod p) l -> lv d <= l) ->
            lv d <= lv r \/ lv d <= min_level p).
  { intros d c r Id Ir An Mn. rewrite Forall_forall in G. destruct (G r Ir) as [Wr [Gl Gm]].
    apply anc_lv in An. destruct (Z_le_gt_dec (min_level p) (lv r)).
    - left. apply Mn; [destruct Wr; lia|]. split; [auto|]. left. auto.
    - right. apply Mn; [lia|]. split; [lia|]. left. rewrite Z.sub_diag. apply Z.mod_0_l. lia. }
  split.
  - intros d Id. destruct (Ld d Id) as ([Pm Pp] & c & Ic & An & Mn).
    destruct (B1 c Ic) as (r & Ir & Ar).
    pose proof (KEY d c r Id Ir Ar Mn) as K.
    rewrite Forall_forall in G. destruct (G r Ir) as [Wr [Gl Gm]].
    split; [lia|]. destruct Pp as [Pp|Pp]; [exact Pp|].
    destruct K as [K|K].
    + assert (lv r = lv d) by (destruct Wr; lia). rewrite <- H. apply Gm. lia.
    + replace (lv d - min_level p) with 0 by lia. apply Z.mod_0_l; lia.
  - intros Fm. apply count_le; [apply Vd, N|auto|intros m; rewrite Cd, E; auto|].
    intros r Ir. rewrite Forall_forall in Fw, G, Fm, Wd.
    assert (Lr : cov ds (lo r)).
    { apply Cd, E. exists r. pose proof (lohi r (Fw r Ir)). rewrite leaves_lohi. split; [auto|lia]. }
    destruct Lr as (d & Id & Ll). rewrite leaves_lohi in Ll. exists d. split; [auto|].
    assert (Wd' : wf d) by auto. assert (Wr' : wf r) by auto.
    destruct (Ld d Id) as (_ & c & Ic & An & Mn).
    assert (Wc : wf c) by (eapply valid_wf; eauto; apply N).
    destruct (B2 r Ir) as (c' & Ic' & An').
    assert (Wc' : wf c') by (eapply valid_wf; eauto; apply N).
    assert (c' = c).
    { apply anc_iff in An, An'; auto. pose proof (lohi r Wr').
      destruct (valid_disjoint ns c c' (proj1 N) Ic Ic') as [->|[|]]; [auto|lia|lia]. }
    subst c'. destruct (KEY d c r Id Ir An' Mn) as [K|K].
    + destruct (cases d r Wd' Wr') as [C|[C|[C|C]]]; pose proof (lohi r Wr'); pose proof (lohi d Wd'); try lia.
      assert (A : ancestor_or_self r d) by (apply anc_iff; auto).
      destruct A as [A1 A2]. assert (lv r = lv d) by lia. rewrite H1, anc_self in A2. subst. lia.
    + pose proof (Fm r Ir). assert (lv d <= lv r) by lia.
      destruct (cases d r Wd' Wr') as [C|[C|[C|C]]]; pose proof (lohi r Wr'); pose proof (lohi d Wd'); try lia.
      assert (A : ancestor_or_self r d) by (apply anc_iff; auto).
      destruct A as [A1 A2]. assert (lv r = lv d) by lia. rewrite H3, anc_self in A2. subst. lia.
Qed.

(** ** normalize_covering *)

Lemma pre_adjust_ok p v : params_ok p -> Forall wf v ->
  exists v', pre_adjust p (map code v) = Some (map code v') /\ Forall (good_cell p) v' /\
    (forall m, cov v m -> cov v' m) /\ length v' = length v.
Proof.
  intros P. induction v as [|c v IH]; intros F.
  - exists []. cbn. repeat split; auto.
  - inversion F as [|? ? W F']; subst. destruct (IH F') as (v' & E & G & C & L).
    destruct (P) as (P1 & P2 & P3 & P4). pose proof (top_ok p P) as T. assert (0 <= lv c <= 30) by (destruct W; auto).
    set (nl := adjust_level p (Z.min (lv c) (max_level p))).
    assert (N : good p nl) by (apply adjust_good; [auto|unfold top in *; lia]).
    assert (N2 : 0 <= nl <= lv c).
    { pose proof (adjust_level_ok p (Z.min (lv c) (max_level p)) ltac:(lia) ltac:(lia) ltac:(lia)).
      unfold nl. lia. }
    exists (anc nl c :: v'). cbn [map pre_adjust]. unfold pre_adjust1. rewrite level_code by auto. fold nl.
    assert (E1 : (if nl =? lv c then Some (code c) else parent (code c) nl) = Some (code (anc nl c))).
    { destruct (Z.eqb_spec nl (lv c)) as [->|].
      - rewrite anc_self. reflexivity.
      - apply parent_code; [auto|lia]. }
    rewrite E1, E. split; [reflexivity|]. split.
    + constructor; [|auto]. split; [apply wf_anc; auto|exact N].
    + split; [|cbn [length]; lia]. intros m. rewrite !cov_cons. intros [L'|L']; [left|right; auto].
      apply (ancestor_leaves (anc nl c) c); auto; [apply wf_anc; auto|apply anc_is_ancestor; auto].
Qed.

Lemma face_of_anc c k : wf c -> 0 <= k <= lv c -> face_of (anc k c) = face_of c.
Proof.
  intros W Hk. unfold face_of, anc; cbn [lv ix]. rewrite Z.div_div.
  - rewrite <- pow4_add by lia. do 2 f_equal. lia.
  - pose proof (pow4_pos (lv c - k) ltac:(lia)). lia.
  - apply pow4_pos. lia.
Qed.

(* consecutive cells on different faces *)
Fixpoint adj_faces (l : list cell) : Prop :=
  match l with
  | a :: ((b :: _) as l') => face_of a <> face_of b /\ adj_faces l'
  | _ => True
  end.

Lemma best_pair_ok p : 0 <= min_level p -> 1 <= level_mod p -> forall v i bi bl, Forall wf v -> -1 <= bl ->
  exists bi' bl', best_pair p i (map code v) bi bl = Some (bi', bl') /\
    ((bi' = bi /\ bl' = bl /\ (bl = -1 -> adj_faces v)) \/
     (exists pre a b post k, v = pre ++ a :: b :: post /\ bi' = i + Z.of_nat (length pre) /\
        0 <= bl' /\ bl' = adjust_level p k /\ 0 <= k <= lv a /\ k <= lv b /\ anc k a = anc k b)).
Proof.
  intros Hm Hd. induction v as [|a v IH]; intros i bi bl F Hb.
  - exists bi, bl. cbn. split; [reflexivity|]. left. auto.
  - destruct v as [|b v].
    + exists bi, bl. cbn. split; [reflexivity|]. left. auto.
    + inversion F as [|? ? Wa F']; subst. inversion F' as [|? ? Wb _]; subst.
      cbn [map best_pair]. destruct (common_ancestor_level_code a b Wa Wb) as (r & E & R). rewrite E.
      destruct r as [k|].
      * destruct R as (K1 & K2 & K3).
        pose proof (adjust_level_ok p k ltac:(lia) ltac:(lia) ltac:(lia)) as (A1 & _).
        destruct (Z.ltb_spec bl (adjust_level p k)).
        -- destruct (IH (i + 1) i (adjust_level p k) F' ltac:(lia)) as (bi' & bl' & E' & [(-> & -> & _)|X]).
           ++ exists i, (adjust_level p k). split; [exact E'|]. right.
              exists [], a, b, v, k. cbn. repeat split; auto; lia.
           ++ destruct X as (pre & a' & b' & post & k' & Ev & Eb & R). exists bi', bl'. split; [exact E'|]. right.
              exists (a :: pre), a', b', post, k'. rewrite Ev. cbn [app length]. repeat split; try tauto; lia.
        -- destruct (IH (i + 1) bi bl F' ltac:(lia)) as (bi' & bl' & E' & [(-> & -> & _)|X]).
           ++ exists bi, bl. split; [exact E'|]. left. split; [auto|]. split; [auto|lia].
           ++ destruct X as (pre & a' & b' & post & k' & Ev & Eb & R). exists bi', bl'. split; [exact E'|]. right.
              exists (a :: pre), a', b', post, k'. rewrite Ev. cbn [app length]. repeat split; try tauto; lia.
      * destruct (IH (i + 1) bi bl F' ltac:(lia)) as (bi' & bl' & E' & [(-> & -> & AF)|X]).
        -- exists bi, bl. split; [exact E'|]. left. split; [auto|]. split; [auto|]. intros H. split; auto.
        -- destruct X as (pre & a' & b' & post & k' & Ev & Eb & R'). exists bi', bl'. split; [exact E'|]. right.
           exists (a :: pre), a', b', post, k'. rewrite Ev. cbn [app length]. repeat split; try tauto; lia.
Qed.

Lemma face_of_bounds c : wf c -> 0 <= face_of c < 6.
Proof.
  intros [L I]. unfold face_of. pose proof (pow4_pos (lv c) ltac:(lia)). split.
  - apply Z.div_pos; lia.
  - apply Z.div_lt_upper_bound; lia.
Qed.

Lemma face_of_lo c : wf c -> face_of c = lo c / 4 ^ 30.
Proof.
  intros [L I]. unfold face_of, lo. pose proof (pow4_pos (lv c) ltac:(lia)). pose proof (pow4_pos (30 - lv c) ltac:(lia)).
  replace (4 ^ 30) with (4 ^ lv c * 4 ^ (30 - lv c)) by (rewrite <- pow4_add by lia; f_equal; lia).
  rewrite Z.div_mul_cancel_r; lia.
Qed.

Lemma adj_faces_length cs : valid_cells cs -> adj_faces cs ->
  forall f, Forall (fun c => f <= face_of c) cs -> f <= 6 -> Z.of_nat (length cs) <= 6 - f.
Proof.
  induction cs as [|c cs IH]; intros V A f Fa H; cbn [length]; [lia|].
  apply valid_cells_cons in V. destruct V as (W & V & Fc).
  inversion Fa as [|? ? F1 F2]; subst. pose proof (face_of_bounds c W).
  assert (X : Forall (fun d => face_of c + 1 <= face_of d) cs).
  { destruct cs as [|b cs]; [constructor|]. destruct A as [A1 A2].
    assert (M : Forall (fun d => face_of b <= face_of d) (b :: cs)).
    { apply valid_cells_cons in V. destruct V as (Wb & V & Fb). constructor; [lia|].
      rewrite Forall_forall in Fb |- *. intros d I. rewrite !face_of_lo by (auto; eapply valid_wf; eauto).
      apply Z.div_le_mono; [lia|]. specialize (Fb d I). pose proof (lohi b Wb). lia. }
    assert (face_of c <= face_of b).
    { inversion Fc; subst. assert (Wb : wf b) by (eapply valid_wf; eauto; left; auto).
      rewrite !face_of_lo by auto. apply Z.div_le_mono; [lia|]. pose proof (lohi c W). lia. }
    eapply Forall_impl; [|exact M]. cbn. intros. lia. }
  assert (A' : adj_faces cs) by (destruct cs; [exact I|apply A]).
  specialize (IH V A' (face_of c + 1) X ltac:(lia)). lia.
Qed.

Lemma set_nth_app {A} (f : A -> Z) pre a post y :
  firstn (length pre) (map f (pre ++ a :: post)) ++ y :: skipn (S (length pre)) (map f (pre ++ a :: post))
  = map f pre ++ y :: map f post.
Proof.
  rewrite map_app. cbn [map].
  replace (length pre) with (length (map f pre)) at 1 2 by apply map_length.
  rewrite firstn_app, Nat.sub_diag, firstn_all. cbn [firstn]. rewrite app_nil_r.
  rewrite skipn_app, (skipn_all2 (map f pre)) by lia.
  replace (S (length (map f pre)) - length (map f pre))%nat with 1%nat by lia. reflexivity.
Qed.

Lemma merge_loop_eq fuel p v : merge_loop fuel p v =
  if len v <=? max_cells p then Some v
  else
    match fuel with
    | O => None
    | S fuel' =>
      let* (bi, bl) := best_pair p 0 v (-1) (-1) in
      if bl <? min_level p then Some v
      else
        let* x := nth_error v (Z.to_nat bi) in
        let* y := parent x bl in
        let* v' := normalize (set_nth (Z.to_nat bi) y v) in
        merge_loop fuel' p v'
    end.
Proof. destruct fuel; reflexivity. Qed.

Lemma merge_loop_ok p v0 : params_ok p -> forall n ns rs, (length ns <= n)%nat -> normalized_cells ns ->
  Forall (good_cell p) rs -> (forall m, cov ns m <-> cov rs m) -> (forall m, cov v0 m -> cov ns m) ->
  exists ns' rs', (forall fuel, (n <= fuel)%nat -> merge_loop fuel p (map code ns) = Some (map code ns')) /\
    normalized_cells ns' /\ Forall (good_cell p) rs' /\ (forall m, cov ns' m <-> cov rs' m) /\
    (forall m, cov v0 m -> cov ns' m) /\
    (min_level p = 0 -> len ns' <= Z.max (max_cells p) 6).
Proof.
  intros P. pose proof P as (P1 & P2 & P3 & P4). pose proof (top_ok p P) as T. induction n as [|n IH]; intros ns rs Hn N G E C.
  - destruct ns; [|cbn in Hn; lia]. exists [], rs.
    split; [|split; [auto|split; [auto|split; [auto|split; [auto|intros; cbn; lia]]]]].
    intros fuel _. rewrite merge_loop_eq. cbn [map].
    destruct (Z.leb_spec (@len Z []) (max_cells p)) as [M|M]; [reflexivity|]. unfold len in M; cbn in M; lia.
  - destruct (Z.leb_spec (len (map code ns)) (max_cells p)) as [M|M].
    + exists ns, rs. split.
      { intros fuel _. rewrite merge_loop_eq. apply Z.leb_le in M. rewrite M. reflexivity. }
      split; [auto|split; [auto|split; [auto|split; [auto|]]]].
      intros. unfold len in *. rewrite map_length in M. lia.
    + assert (Fw : Forall wf ns) by apply N.
      destruct (best_pair_ok p ltac:(lia) ltac:(lia) ns 0 (-1) (-1) Fw ltac:(lia)) as (bi & bl & EB & BP).
      destruct (Z.ltb_spec bl (min_level p)) as [L|L].
      * exists ns, rs. split.
        { intros fuel Hf. rewrite merge_loop_eq. destruct (Z.leb_spec (len (map code ns)) (max_cells p)); [lia|].
          destruct fuel; [lia|]. rewrite EB. apply Z.ltb_lt in L. rewrite L. reflexivity. }
        split; [auto|split; [auto|split; [auto|split; [auto|]]]].
        intros M0. destruct BP as [(_ & _ & AF)|(pre & a & b & post & k & _ & _ & B0 & _)]; [|lia].
        assert (Z.of_nat (length ns) <= 6 - 0); [|unfold len; lia].
        apply adj_faces_length; [apply N|auto| |lia].
        eapply Forall_impl; [|exact Fw]. intros c W. apply face_of_bounds in W. lia.
      * destruct BP as [(_ & -> & _)|(pre & a & b & post & k & Ev & Eb & B0 & Ebl & K1 & K2 & K3)]; [lia|].
        assert (Wa : wf a) by (rewrite Forall_forall in Fw; apply Fw; rewrite Ev; apply in_or_app; right; left; auto).
        assert (Wb : wf b) by (rewrite Forall_forall in Fw; apply Fw; rewrite Ev; apply in_or_app; right; right; left; auto).
        pose proof (adjust_level_ok p k ltac:(lia) ltac:(lia) ltac:(lia)) as (A1 & A2 & A3 & _).
        assert (Hbl : 0 <= bl <= lv a) by lia.
        set (y := anc bl a).
        assert (Wy : wf y) by (apply wf_anc; auto).
        assert (Ya : forall m, leaves a m -> leaves y m).
        { apply ancestor_leaves; auto. apply anc_is_ancestor; auto. }
        assert (Yb : forall m, leaves b m -> leaves y m).
        { apply ancestor_leaves; auto. unfold y. rewrite <- (anc_anc a k bl) by lia.
          rewrite K3, anc_anc by lia. apply anc_is_ancestor. lia. }
        set (vs := pre ++ y :: b :: post).
        assert (Fvs : Forall wf vs).
        { rewrite Forall_forall in *. intros c Ic. unfold vs in Ic. apply in_app_or in Ic.
          destruct Ic as [Ic|[<-|[<-|Ic]]]; auto; apply Fw; rewrite Ev; apply in_or_app; cbn; auto. }
        destruct (normalize_correct vs Fvs) as (ns1 & EN & N1 & C1).
        assert (Cvs : forall m, cov vs m <-> leaves y m \/ cov ns m).
        { intros m. unfold vs. rewrite Ev, !cov_app, !cov_cons. specialize (Ya m). tauto. }
        destruct (below_normal ns rs N) as [BN _]; auto.
        { eapply Forall_impl; [|exact G]. intros ? []; auto. }
        assert (La : lv a <= top p).
        { destruct (BN a) as (r & Ir & An); [rewrite Ev; apply in_or_app; cbn; auto|].
          rewrite Forall_forall in G. destruct (G r Ir) as [_ [? _]]. apply anc_lv in An. lia. }
        destruct (IH ns1 (y :: rs)) as (ns' & rs' & X1 & X2 & X3 & X4 & X5 & X6).
        { (* fewer cells than before *)
          assert (length ns1 <= length (pre ++ y :: post))%nat.
          { apply minimal; auto.
            - rewrite Forall_forall in *. intros c Ic. apply Fvs. unfold vs. apply in_app_or in Ic.
              apply in_or_app. destruct Ic as [|[|]]; cbn; auto.
            - intros m. rewrite C1. unfold vs. rewrite !cov_app, !cov_cons. specialize (Yb m). tauto. }
          rewrite app_length in H. cbn [length] in H. rewrite Ev, app_length in Hn. cbn [length] in Hn. lia. }
        { exact N1. }
        { constructor; [|auto]. split; [auto|]. unfold y, good; cbn [anc lv]. split; [lia|].
          intros Hmin. rewrite Ebl. apply A3. rewrite <- Ebl. auto. }
        { intros m. rewrite C1, Cvs, cov_cons, E. reflexivity. }
        { intros m Hm. rewrite C1, Cvs. auto. }
        exists ns', rs'. split; [|auto 10].
        intros fuel Hf. rewrite merge_loop_eq. destruct (Z.leb_spec (len (map code ns)) (max_cells p)); [lia|].
        destruct fuel as [|fuel]; [lia|]. rewrite EB.
        destruct (Z.ltb_spec bl (min_level p)); [lia|].
        assert (Ebn : Z.to_nat bi = length pre) by lia. rewrite Ebn.
        assert (En : nth_error (map code ns) (length pre) = Some (code a)).
        { rewrite Ev, map_app, nth_error_app2; rewrite map_length; [|lia]. rewrite Nat.sub_diag. reflexivity. }
        rewrite En, parent_code by auto. fold y. unfold set_nth.
        replace (firstn (length pre) (map code ns) ++ code y :: skipn (S (length pre)) (map code ns)) with (map code vs).
        2:{ rewrite Ev, set_nth_app. unfold vs. rewrite map_app. reflexivity. }
        rewrite EN. apply X1. lia.
Qed.

Theorem normalize_covering_ok p v : params_ok p -> Forall wf v ->
  exists N ds, (forall fuel, (N <= fuel)%nat -> normalize_covering fuel p (map code v) = Some (map code ds)) /\
    valid_cells ds /\ (forall m, cov v m -> cov ds m) /\
    (forall d, In d ds -> min_level p <= lv d <= top p /\ (lv d - min_level p) mod level_mod p = 0) /\
    (min_level p = 0 -> level_mod p = 1 -> len ds <= Z.max (max_cells p) 6).
Proof.
  intros P F. pose proof P as (P1 & P2 & P3 & P4). pose proof (top_ok p P) as T.
  assert (X : exists v1, (if (max_level p <? MAX_LEVEL) || (1 <? level_mod p) then pre_adjust p (map code v) else Some (map code v))
                = Some (map code v1) /\ Forall (good_cell p) v1 /\ (forall m, cov v m -> cov v1 m)).
  { destruct (pre_adjust_ok p v P F) as (v1 & E1 & G1 & C1 & _).
    destruct (Z.ltb_spec (max_level p) MAX_LEVEL) as [M|M]; cbn [orb]; [exists v1; auto|].
    destruct (Z.ltb_spec 1 (level_mod p)) as [D|D]; [exists v1; auto|].
    exists v. split; [auto|]. split; [|auto]. eapply Forall_impl; [|exact F]. intros c W. split; [auto|].
    unfold MAX_LEVEL in M. split; [destruct W; lia|]. intros _. replace (level_mod p) with 1 by lia. apply Z.mod_1_r. }
  destruct X as (v1 & E1 & G1 & C1).
  assert (F1 : Forall wf v1) by (eapply Forall_impl; [|exact G1]; intros ? []; auto).
  destruct (normalize_correct v1 F1) as (ns & EN & NN & CN).
  destruct (merge_loop_ok p v P (length ns) ns v1) as (ns' & rs' & X1 & X2 & X3 & X4 & X5 & X6); auto.
  { intros m Hm. apply CN. auto. }
  destruct (denormalize_good p ns' rs' P X2 X3 X4) as (ds & D1 & D2 & D3 & D4 & D5).
  destruct (Z_lt_le_dec 0 (min_level p)) as [M|M].
  - exists (Nat.max (length ns) (length ds)), ds. split; [|split; [auto|split; [|split; [auto|lia]]]].
    + intros fuel Hf. unfold normalize_covering. rewrite E1, EN, X1 by lia.
      apply Z.ltb_lt in M. rewrite M. cbn [orb]. apply D1. lia.
    + intros m Hm. apply D3, X4. auto.
  - destruct (Z_lt_le_dec 1 (level_mod p)) as [D|D].
    + exists (Nat.max (length ns) (length ds)), ds. split; [|split; [auto|split; [|split; [auto|lia]]]].
      * intros fuel Hf. unfold normalize_covering. rewrite E1, EN, X1 by lia.
        apply Z.ltb_lt in D. rewrite D, orb_true_r. apply D1. lia.
      * intros m Hm. apply D3, X4. auto.
    + exists (length ns), ns'. split; [|split; [apply X2|split; [auto|split; [|auto]]]].
      * intros fuel Hf. unfold normalize_covering. rewrite E1, EN, X1 by lia.
        destruct (Z.ltb_spec 0 (min_level p)); [lia|]. destruct (Z.ltb_spec 1 (level_mod p)); [lia|]. reflexivity.
      * intros d Id. destruct (below_normal ns' rs' X2) as [BN _]; auto.
        { eapply Forall_impl; [|exact X3]. intros ? []; auto. }
        destruct (BN d Id) as (r & Ir & An). rewrite Forall_forall in X3. destruct (X3 r Ir) as [_ [? _]].
        apply anc_lv in An. assert (Wd : wf d) by exact (valid_wf ns' d (proj1 X2) Id).
        assert (0 <= lv d) by (destruct Wd; lia).
        split; [lia|]. replace (level_mod p) with 1 by lia. apply Z.mod_1_r.
Qed.

(** ** adjust_cell_levels *)

Lemma adjust_loop_ok p : params_ok p -> forall v out, Forall (fun c => wf c /\ lv c <= top p) v ->
  Forall (good_cell p) out ->
  exists out', adjust_loop p (map code v) (map code out) = Some (map code out') /\
    Forall (good_cell p) out' /\ (forall m, cov out m \/ cov v m -> cov out' m) /\
    (length out' <= length out + length v)%nat.
Proof.
  intros P. pose proof P as (P1 & P2 & P3 & P4). pose proof (top_ok p P) as T. induction v as [|c v IH]; intros out F G.
  - exists out. cbn. split; [auto|]. split; [auto|]. split; [|lia]. intros m [|H]; auto. apply cov_nil in H. tauto.
  - inversion F as [|? ? [W Lc] F']; subst. cbn [map adjust_loop]. rewrite level_code by auto.
    assert (0 <= lv c <= 30) by (destruct W; auto).
    pose proof (adjust_level_ok p (lv c) ltac:(lia) ltac:(lia) ltac:(lia)) as (A1 & A2 & A3 & _).
    set (nl := adjust_level p (lv c)) in *.
    assert (E1 : (if nl =? lv c then Some (code c) else parent (code c) nl) = Some (code (anc nl c))).
    { destruct (Z.eqb_spec nl (lv c)) as [->|].
      - rewrite anc_self. reflexivity.
      - apply parent_code; [auto|lia]. }
    rewrite E1. set (cur := anc nl c).
    assert (Wc : wf cur) by (apply wf_anc; auto).
    assert (Gc : good_cell p cur) by (split; [auto|]; apply adjust_good; [auto|unfold top in *; lia]).
    assert (Cc : forall m, leaves c m -> leaves cur m) by (apply ancestor_leaves; auto; apply anc_is_ancestor; auto).
    destruct out as [|l rest]; cbn [map].
    + destruct (IH [cur] F') as (out' & E & G' & C' & L').
      { constructor; auto. }
      exists out'. split; [exact E|]. split; [auto|]. split; [|cbn [length] in *; lia].
      intros m H0. apply C'. rewrite ?cov_cons, ?cov_nil in *.
      specialize (Cc m). tauto.
    + inversion G as [|? ? Gl Gr]; subst. assert (Wl : wf l) by apply Gl.
      destruct (contains_code l cur Wl Wc) as (b1 & Eb1 & B1). rewrite Eb1. destruct b1.
      * pose proof (proj1 B1 eq_refl) as An. clear B1.
        destruct (IH (l :: rest) F' G) as (out' & E & G' & C' & L').
        exists out'. split; [exact E|]. split; [auto|]. split; [|cbn [length] in *; lia].
        intros m H0. apply C'. rewrite ?cov_cons in *.
        specialize (Cc m). pose proof (proj1 (ancestor_leaves l cur Wl Wc) An m). tauto.
      * destruct (contains_code cur l Wc Wl) as (b2 & Eb2 & B2). rewrite Eb2. destruct b2.
        -- pose proof (proj1 B2 eq_refl) as An. clear B2.
           destruct (IH (cur :: rest) F') as (out' & E & G' & C' & L').
           { constructor; auto. }
           exists out'. split; [exact E|]. split; [auto|]. split; [|cbn [length] in *; lia].
           intros m H0. apply C'. rewrite ?cov_cons in *.
           specialize (Cc m). pose proof (proj1 (ancestor_leaves cur l Wc Wl) An m). tauto.
        -- destruct (IH (cur :: l :: rest) F') as (out' & E & G' & C' & L').
           { constructor; auto. }
           exists out'. split; [exact E|]. split; [auto|]. split; [|cbn [length] in *; lia].
           intros m H0. apply C'. rewrite ?cov_cons in *.
           specialize (Cc m). tauto.
Qed.

Lemma adjust_cell_levels_ok p v : params_ok p -> Forall (fun c => wf c /\ lv c <= top p) v ->
  exists out, adjust_cell_levels p (map code v) = Some (map code out) /\ Forall (good_cell p) out /\
    (forall m, cov v m -> cov out m) /\ (length out <= length v)%nat.
Proof.
  intros P F. unfold adjust_cell_levels. destruct (Z.eqb_spec (level_mod p) 1).
  - exists v. split; [auto|]. split; [|split; auto]. eapply Forall_impl; [|exact F].
    intros c [W L]. split; [auto|]. split; [destruct W; lia|]. intros _. rewrite e. apply Z.mod_1_r.
  - destruct (adjust_loop_ok p P v [] F ltac:(constructor)) as (out & E & G & C & L).
    cbn [map] in E. rewrite E. exists (rev out). rewrite map_rev. split; [auto|].
    rewrite Forall_rev_iff, rev_length. split; [auto|]. split; [|cbn in L; lia].
    intros m H. rewrite cov_rev. auto.
Qed.
