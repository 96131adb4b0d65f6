(** Proofs about the region coverer, part 2: candidates and the main loop. *)
From Verif Require Import Base Spec CellIdModel CellIdArith CellIdProofs CellOrder
  CellUnionModel CellUnionProofs CellUnionNormalize CellUnionOps CellUnionMore CovererModel CovererNormalize.

(** ** The heap *)

Lemma max_exists (l : list cand) : l <> [] -> exists i, (i < length l)%nat /\ is_max l i = true.
Proof.
  intros H.
  assert (G : exists c, In c l /\ forall d, In d l -> cprio d <= cprio c).
  { induction l as [|a l IH]; [congruence|]. destruct l as [|b l].
    - exists a. split; [left; auto|]. intros d [<-|[]]. lia.
    - destruct IH as (c & I & M); [discriminate|].
      destruct (Z_le_gt_dec (cprio a) (cprio c)).
      + exists c. split; [right; auto|]. intros d [<-|D]; auto.
      + exists a. split; [left; auto|]. intros d [<-|D]; [lia|]. specialize (M d D). lia. }
  destruct G as (c & I & M). destruct (In_nth_error _ _ I) as [i E]. exists i. split.
  - apply nth_error_Some. rewrite E. discriminate.
  - unfold is_max. rewrite E. rewrite forallb_forall. intros d D. apply Z.leb_le. auto.
Qed.

Lemma heap_pop_ok tie l : l <> [] ->
  exists c l1 l2, l = l1 ++ c :: l2 /\ heap_pop tie l = Some (c, l1 ++ l2) /\
    forall d, In d l -> cprio d <= cprio c.
Proof.
  intros H. assert (M : is_max l (pick tie l) = true).
  { unfold pick. destruct (is_max l (tie l)) eqn:E; [auto|].
    destruct (find (is_max l) (seq 0 (length l))) eqn:F; [apply find_some in F; tauto|].
    destruct (max_exists l H) as (i & Hi & Mi). apply find_none with (x := i) in F; [congruence|].
    apply in_seq. lia. }
  unfold heap_pop. unfold is_max in M. destruct (nth_error l (pick tie l)) as [c|] eqn:E; [|discriminate].
  destruct (nth_error_split l _ E) as (l1 & l2 & El & L1).
  exists c, l1, l2. split; [auto|]. split.
  - f_equal. f_equal. rewrite <- L1, El. rewrite firstn_app, Nat.sub_diag, firstn_all. cbn [firstn].
    rewrite app_nil_r, skipn_app, (skipn_all2 l1) by lia.
    replace (S (length l1) - length l1)%nat with 1%nat by lia. reflexivity.
  - rewrite forallb_forall in M. intros d I. apply Z.leb_le. auto.
Qed.

Lemma heap_pop_nil tie : heap_pop tie [] = None.
Proof. unfold heap_pop. destruct (pick tie []); reflexivity. Qed.

(* termination measure *)
Definition wt (c : cand) : Z := match level (cid c) with Some l => 65 ^ (31 - l) | None => 0 end.
Fixpoint wts (l : list cand) : Z := match l with [] => 0 | c :: l' => wt c + wts l' end.

Lemma wts_app a b : wts (a ++ b) = wts a + wts b.
Proof. induction a as [|c a IH]; cbn [app wts]; lia. Qed.

Lemma wt_code d t chs q : wf d -> wt (Cand (code d) t chs q) = 65 ^ (31 - lv d).
Proof. intros W. unfold wt; cbn [cid]. rewrite level_code by auto. reflexivity. Qed.

Lemma pow65_pos n : 0 <= n -> 0 < 65 ^ n.
Proof. intros. apply Z.pow_pos_nonneg; lia. Qed.

Lemma wt_nonneg c : 0 <= wt c.
Proof. unfold wt. destruct (level (cid c)); [|lia]. apply Z.pow_nonneg. lia. Qed.

Lemma wts_nonneg l : 0 <= wts l.
Proof. induction l as [|c l IH]; cbn [wts]; [lia|pose proof (wt_nonneg c); lia]. Qed.

(** ** Candidates *)

Section Cov.
Variable e : env.
Variable Reg : Z -> Prop.
Let p := prm e.
Hypothesis P : params_ok p.
Hypothesis HI : interior e = false ->
  forall c m, wf c -> leaves c m -> Reg m -> intersects_cell (reg e) (code c) = true.

(* a cell that may be put in the result *)
Definition accepted (d : cell) : Prop :=
  good_cell p d /\ min_level p <= lv d /\
  (interior e = true -> contains_cell (reg e) (code d) = true).

(* a candidate as made by new_candidate *)
Definition fresh (ch : cand) (d : cell) : Prop :=
  exists t, ch = Cand (code d) t [] 0 /\ good_cell p d /\
    if t then accepted d else lv d < min_level p \/ lv d + level_mod p <= max_level p.

Lemma new_candidate_ok d : good_cell p d ->
  exists r, new_candidate e (code d) = Some r /\
    match r with
    | Some c => fresh c d
    | None => interior e = false -> forall m, leaves d m -> ~ Reg m
    end.
Proof.
  intros G. pose proof G as [W [Gl Gm]]. pose proof P as (P1 & P2 & P3 & P4). pose proof (top_ok p P) as TT. unfold new_candidate. fold p.
  destruct (intersects_cell (reg e) (code d)) eqn:EI; cbn [negb].
  2:{ exists None. split; [auto|]. intros NI m L R. rewrite (HI NI d m) in EI by auto. discriminate. }
  rewrite level_code by auto.
  assert (A8 : add8 (lv d) (level_mod p) = Some (lv d + level_mod p)).
  { unfold add8. destruct (Z.ltb_spec (lv d + level_mod p) 256); [auto|lia]. }
  rewrite A8.
  destruct (Z.leb_spec (min_level p) (lv d)) as [M|M].
  - destruct (interior e) eqn:EN.
    + destruct (contains_cell (reg e) (code d)) eqn:EC.
      * eexists. split; [reflexivity|]. exists true. split; [auto|]. split; [auto|].
        split; [auto|]. split; [auto|]. auto.
      * destruct (Z.ltb_spec (max_level p) (lv d + level_mod p)).
        -- exists None. split; [auto|]. discriminate.
        -- eexists. split; [reflexivity|]. exists false. auto.
    + destruct (Z.ltb_spec (max_level p) (lv d + level_mod p)); cbn [orb].
      * eexists. split; [reflexivity|]. exists true. split; [auto|]. split; [auto|].
        split; [auto|]. split; [auto|]. congruence.
      * destruct (contains_cell (reg e) (code d)) eqn:EC.
        -- eexists. split; [reflexivity|]. exists true. split; [auto|]. split; [auto|].
           split; [auto|]. split; [auto|]. auto.
        -- eexists. split; [reflexivity|]. exists false. auto.
  - eexists. split; [reflexivity|]. exists false. auto.
Qed.

(* the candidates in chs are fresh, lie below d, on level L, and (for a covering)
   cover the part of the region inside d *)
Definition expansion (d : cell) (L : Z) (chs : list cand) : Prop :=
  (forall ch, In ch chs -> exists k, fresh ch k /\ ancestor_or_self d k /\ lv k = L) /\
  (interior e = false -> forall m, leaves d m -> Reg m ->
     exists ch k, In ch chs /\ fresh ch k /\ leaves k m).

Lemma leaves_children d m : wf d -> lv d < 30 -> leaves d m ->
  leaves (child d 0) m \/ leaves (child d 1) m \/ leaves (child d 2) m \/ leaves (child d 3) m.
Proof.
  intros W H L. destruct (lo_child d 0 W H) as (A1 & A2 & A3). destruct (lo_child d 1 W H) as (B1 & B2 & _).
  destruct (lo_child d 2 W H) as (C1 & C2 & _). destruct (lo_child d 3 W H) as (D1 & D2 & _).
  rewrite !leaves_lohi in *. lia.
Qed.

Lemma child_anc d k : wf d -> lv d < 30 -> 0 <= k < 4 -> ancestor_or_self d (child d k).
Proof.
  intros W H Hk. split; [cbn; lia|]. apply anc_child; [destruct W; lia|auto].
Qed.

Lemma anc_trans a b c : wf a -> wf b -> wf c -> ancestor_or_self a b -> ancestor_or_self b c -> ancestor_or_self a c.
Proof. intros Wa Wb Wc A B. rewrite ancestor_leaves in *; auto. Qed.

Lemma fold_expand (f : list cand * Z -> Z -> option (list cand * Z)) (B : nat) (Q : cell -> list cand -> Prop) :
  forall ks, (forall d chs0 nt0, In d ks -> exists chs nt, f (chs0, nt0) (code d) = Some (chs0 ++ chs, nt) /\
               Q d chs /\ (length chs <= B)%nat /\ nt0 <= nt <= nt0 + len chs) ->
  forall chs0 nt0, exists chs nt, fold_opt f (chs0, nt0) (map code ks) = Some (chs0 ++ chs, nt) /\
    (forall d, In d ks -> exists s, Q d s /\ incl s chs) /\
    (forall ch, In ch chs -> exists d s, In d ks /\ Q d s /\ In ch s) /\
    (length chs <= B * length ks)%nat /\ nt0 <= nt <= nt0 + len chs.
Proof.
  induction ks as [|d ks IH]; intros H chs0 nt0.
  - exists [], nt0. cbn [map fold_opt]. rewrite app_nil_r. split; [auto|]. split; [intros d []|].
    split; [intros ch []|]. unfold len. cbn. lia.
  - destruct (H d chs0 nt0) as (c1 & n1 & E1 & Q1 & L1 & B1); [left; auto|].
    destruct (IH (fun d' a b I => H d' a b (or_intror I)) (chs0 ++ c1) n1) as (c2 & n2 & E2 & A2 & D2 & L2 & B2).
    exists (c1 ++ c2), n2. cbn [map fold_opt]. rewrite E1, E2, app_assoc. split; [auto|]. split.
    { intros d' [<-|I'].
      - exists c1. split; [auto|]. apply incl_appl, incl_refl.
      - destruct (A2 d' I') as (s & Qs & Is). exists s. split; [auto|]. apply incl_appr, Is. }
    split.
    { intros ch I'. apply in_app_or in I'. destruct I' as [I'|I'].
      - exists d, c1. split; [left; auto|auto].
      - destruct (D2 ch I') as (d' & s & Id & Qs & Is). exists d', s. split; [right; auto|auto]. }
    unfold len in *. rewrite app_length. cbn [length]. split; [nia|]. lia.
Qed.

Lemma expand_ok n : forall d chs0 nt0, wf d ->
  lv d + Z.of_nat n + 1 <= top p ->
  good p (lv d + Z.of_nat n + 1) ->
  exists chs nt, expand_children n e (code d) (chs0, nt0) = Some (chs0 ++ chs, nt) /\
    expansion d (lv d + Z.of_nat n + 1) chs /\ (length chs <= 4 * 4 ^ n)%nat /\ nt0 <= nt <= nt0 + len chs.
Proof.
  pose proof P as (P1 & P2 & P3 & P4). pose proof (top_ok p P) as TT.
  induction n as [|n IH]; intros d chs0 nt0 W H G.
  - assert (L30 : lv d < 30) by lia.
    assert (CI : child_iter 4 (code d) = Some (map code [child d 0; child d 1; child d 2; child d 3])).
    { apply child_iter_code; auto. }
    cbn [expand_children]. rewrite CI.
    edestruct (fold_expand (fun acc ci =>
      let* r := new_candidate e ci in
      match r with
      | Some c => Some (fst acc ++ [c], snd acc + (if cterm c then 1 else 0))
      | None => Some acc
      end) 1 (fun k s => (s = [] /\ (interior e = false -> forall m, leaves k m -> ~ Reg m)) \/
                          exists c, s = [c] /\ fresh c k) [child d 0; child d 1; child d 2; child d 3])
      as (chs & nt & E & A & D & L & B).
    { intros k c0 n0 I. assert (Gk : good_cell p k).
      { assert (exists j, 0 <= j < 4 /\ k = child d j) as (j & Hj & ->).
        { destruct I as [<-|[<-|[<-|[<-|[]]]]]; eexists; (split; [|reflexivity]); lia. }
        split; [apply wf_child; auto|]. cbn [child lv]. replace (lv d + 1) with (lv d + Z.of_nat 0 + 1) by lia. auto. }
      destruct (new_candidate_ok k Gk) as (r & Er & R). rewrite Er. destruct r as [c|].
      - exists [c], (n0 + (if cterm c then 1 else 0)). cbn [fst snd]. split; [auto|]. split; [right; exists c; auto|].
        unfold len; cbn [length]. split; [lia|]. destruct (cterm c); lia.
      - exists [], n0. rewrite app_nil_r. split; [auto|]. split; [left; auto|]. unfold len; cbn. lia. }
    exists chs, nt. split; [exact E|]. split; [|split; [cbn [length] in L; cbn; lia|exact B]]. split.
    + intros ch I. destruct (D ch I) as (k & s & Ik & Qk & Is).
      destruct Qk as [[-> _]|(c & -> & Fc)]; [destruct Is|]. destruct Is as [<-|[]].
      exists k. split; [auto|].
      assert (exists j, 0 <= j < 4 /\ k = child d j) as (j & Hj & ->).
      { destruct Ik as [<-|[<-|[<-|[<-|[]]]]]; eexists; (split; [|reflexivity]); lia. }
      split; [apply child_anc; auto|cbn [child lv]; lia].
    + intros NI m Lm Rm.
      assert (exists k, In k [child d 0; child d 1; child d 2; child d 3] /\ leaves k m) as (k & Ik & Lk).
      { destruct (leaves_children d m W L30 Lm) as [X|[X|[X|X]]]; eexists; (split; [|exact X]); cbn; auto. }
      destruct (A k Ik) as (s & [[_ X]|(c & -> & Fc)] & Is).
      * exfalso. apply (X NI m Lk Rm).
      * exists c, k. split; [apply Is; left; auto|auto].
  - assert (L30 : lv d < 30) by lia.
    assert (CI : child_iter 4 (code d) = Some (map code [child d 0; child d 1; child d 2; child d 3])).
    { apply child_iter_code; auto. }
    cbn [expand_children]. rewrite CI.
    edestruct (fold_expand (fun acc ci =>
      if intersects_cell (reg e) ci then expand_children n e ci acc else Some acc) (4 * 4 ^ n)
      (fun k s => (s = [] /\ (interior e = false -> forall m, leaves k m -> ~ Reg m)) \/
                          expansion k (lv d + Z.of_nat (S n) + 1) s) [child d 0; child d 1; child d 2; child d 3])
      as (chs & nt & E & A & D & L & B).
    { intros k c0 n0 I.
      assert (exists j, 0 <= j < 4 /\ k = child d j) as (j & Hj & ->).
      { destruct I as [<-|[<-|[<-|[<-|[]]]]]; eexists; (split; [|reflexivity]); lia. }
      destruct (intersects_cell (reg e) (code (child d j))) eqn:EI.
      - assert (EL : lv (child d j) + Z.of_nat n + 1 = lv d + Z.of_nat (S n) + 1) by (cbn [child lv]; lia).
        destruct (IH (child d j) c0 n0) as (chs & nt & E & X & L & B).
        + apply wf_child; auto.
        + rewrite EL. auto.
        + rewrite EL. auto.
        + exists chs, nt. rewrite EL in X. split; [exact E|]. split; [right; auto|]. auto.
      - exists [], n0. rewrite app_nil_r. split; [auto|]. split; [left|unfold len; cbn; lia].
        split; [auto|]. intros NI m Lm Rm. rewrite (HI NI (child d j) m) in EI; auto; [discriminate|].
        apply wf_child; auto. }
    exists chs, nt. split; [exact E|]. split; [|split; [cbn [length] in L; cbn [Nat.pow]; lia|exact B]]. split.
    + intros ch I. destruct (D ch I) as (k & s & Ik & Qk & Is).
      assert (exists j, 0 <= j < 4 /\ k = child d j) as (j & Hj & ->).
      { destruct Ik as [<-|[<-|[<-|[<-|[]]]]]; eexists; (split; [|reflexivity]); lia. }
      destruct Qk as [[-> _]|[X _]]; [destruct Is|]. destruct (X ch Is) as (k & Fk & Ak & Lk).
      exists k. split; [auto|]. split; [|auto].
      assert (wf k) by (destruct Fk as (t & _ & Gk & _); apply Gk).
      eapply (anc_trans d (child d j) k); auto; [apply wf_child; auto|apply child_anc; auto].
    + intros NI m Lm Rm.
      assert (exists k, In k [child d 0; child d 1; child d 2; child d 3] /\ leaves k m) as (k & Ik & Lk).
      { destruct (leaves_children d m W L30 Lm) as [X|[X|[X|X]]]; eexists; (split; [|exact X]); cbn; auto. }
      destruct (A k Ik) as (s & [[_ X]|[_ X]] & Is).
      * exfalso. apply (X NI m Lk Rm).
      * destruct (X NI m Lk Rm) as (ch & k' & I' & F' & L'). exists ch, k'. auto.
Qed.

(* a candidate as put in the queue *)
Definition queued (c : cand) (d : cell) : Prop :=
  exists chs q, c = Cand (code d) false chs q /\ good_cell p d /\ (length chs <= 64)%nat /\
    (exists L, lv d < L /\ expansion d L chs).

Lemma shl64_small a k : 0 <= k < 64 -> 0 <= a * 2 ^ k < 2 ^ 64 -> shl64 a k = Some (a * 2 ^ k).
Proof.
  intros Hk Ha. unfold shl64. destruct (Z.ltb_spec k 64); [|lia].
  rewrite Z.shiftl_mul_pow2, Z.mod_small by lia. reflexivity.
Qed.

Lemma add64_small a b : a + b < 2 ^ 64 -> add64 a b = Some (a + b).
Proof. intros H. unfold add64. destruct (Z.ltb_spec (a + b) (2 ^ 64)); [auto|lia]. Qed.

Lemma prio_ok l n t : 0 <= l <= 30 -> 0 <= n <= 64 -> 0 <= t <= n ->
  exists shift, mul8 (level_mod p) 2 = Some shift /\
   (exists one, shl64 1 shift = Some one) /\
   exists q, (let* a := shl64 l shift in
        let* b := add64 a n in
        let* d := shl64 b shift in
        let* f := add64 d t in
        neg_i64 (as_i64 f)) = Some q.
Proof.
  intros Hl Hn Ht. pose proof P as (_ & _ & P3 & _).
  exists (level_mod p * 2). split; [unfold mul8; destruct (Z.ltb_spec (level_mod p * 2) 256); [auto|lia]|].
  assert (C : 1 <= 2 ^ (level_mod p * 2) <= 64).
  { assert (D : level_mod p = 1 \/ level_mod p = 2 \/ level_mod p = 3) by lia.
    destruct D as [->|[->| ->]]; cbn; lia. }
  set (c := 2 ^ (level_mod p * 2)) in *.
  assert (E64 : 2 ^ 64 = 18446744073709551616) by reflexivity.
  assert (E63 : 2 ^ 63 = 9223372036854775808) by reflexivity.
  assert (0 <= l * c <= 1920) by nia.
  assert (0 <= (l * c + n) * c <= 126976) by nia.
  split; [eexists; apply shl64_small; fold c; lia|].
  rewrite shl64_small by (fold c; lia). fold c. rewrite add64_small by lia.
  rewrite shl64_small by (fold c; lia). fold c. rewrite add64_small by lia.
  unfold neg_i64, as_i64.
  destruct (Z.ltb_spec ((l * c + n) * c + t) (2 ^ 63)); [|lia].
  destruct (Z.eqb_spec ((l * c + n) * c + t) (- 2 ^ 63)); [lia|]. eexists; reflexivity.
Qed.

Lemma add_candidate_ok st ch d : fresh ch d ->
  exists st', add_candidate e st ch = Some st' /\
    ((st' = State (code d :: result st) (pq st) /\ accepted d) \/
     (st' = st /\ (interior e = false -> forall m, leaves d m -> ~ Reg m)) \/
     (exists c, st' = State (result st) (c :: pq st) /\ queued c d)).
Proof.
  intros (t & -> & G & T). pose proof G as [W [Gl Gm]]. pose proof P as (P1 & P2 & P3 & P4). pose proof (top_ok p P) as TT.
  unfold add_candidate. fold p. cbn [cterm cid cchildren]. destruct t.
  - eexists. split; [reflexivity|]. left. auto.
  - rewrite level_code by auto.
    set (num := if lv d <? min_level p then 1 else level_mod p).
    assert (N : 1 <= num <= 3 /\ lv d + num <= top p /\ good p (lv d + num)).
    { unfold num. destruct (Z.ltb_spec (lv d) (min_level p)) as [L|L].
      - split; [lia|]. split; [lia|]. split; [lia|]. intros. replace (lv d + 1 - min_level p) with 0 by lia.
        apply Z.mod_0_l. lia.
      - split; [lia|]. split; [lia|]. split; [lia|]. intros _.
        replace (lv d + level_mod p - min_level p) with (lv d - min_level p + 1 * level_mod p) by lia.
        rewrite Z.mod_add by lia. apply Gm. auto. }
    destruct N as (N1 & N2 & N3).
    assert (EL : lv d + Z.of_nat (Z.to_nat (num - 1)) + 1 = lv d + num) by lia.
    destruct (expand_ok (Z.to_nat (num - 1)) d [] 0 W) as (chs & nt & E & X & L & B).
    { rewrite EL. auto. } { rewrite EL. auto. }
    rewrite EL in X. cbn [app] in E. rewrite E.
    assert (L64 : (length chs <= 64)%nat).
    { assert (Z.to_nat (num - 1) = 0 \/ Z.to_nat (num - 1) = 1 \/ Z.to_nat (num - 1) = 2)%nat as [Q|[Q|Q]] by lia;
        rewrite Q in L; cbn in L; lia. }
    destruct (prio_ok (lv d) (len chs) nt) as (shift & ES & (one & EO) & q & EQ); [lia|unfold len; lia|lia|].
    rewrite ES. destruct (Z.eqb_spec (len chs) 0) as [Z0|Z0].
    + exists st. split; [auto|]. right. left. split; [auto|]. intros NI m Lm Rm.
      destruct chs; [|unfold len in Z0; cbn in Z0; lia].
      destruct (proj2 X NI m Lm Rm) as (ch & k & [] & _).
    + assert (FULL : exists b, (if interior e then Some false
         else let* one := shl64 1 shift in Some ((nt =? one) && (min_level p <=? lv d))) = Some b /\
           (b = true -> interior e = false /\ min_level p <= lv d)).
      { destruct (interior e) eqn:EI.
        - exists false. split; [auto|discriminate].
        - rewrite EO. eexists. split; [reflexivity|]. intros H. split; [auto|].
          apply andb_prop in H. destruct H as [_ H]. apply Z.leb_le in H. exact H. }
      destruct FULL as (b & EF & HB). rewrite EF. destruct b.
      * eexists. split; [reflexivity|]. left. split; [auto|]. destruct (HB eq_refl) as [H1 H2].
        split; [auto|]. split; [auto|]. congruence.
      * destruct (shl64 (lv d) shift) as [a|]; [|discriminate]. destruct (add64 a (len chs)) as [b'|]; [|discriminate].
        destruct (shl64 b' shift) as [d'|]; [|discriminate]. destruct (add64 d' nt) as [f|]; [|discriminate].
        rewrite EQ. eexists. split; [reflexivity|]. right. right. eexists. split; [reflexivity|].
        exists chs, q. split; [auto|]. split; [auto|]. split; [auto|]. exists (lv d + num). split; [lia|auto].
Qed.

(** ** States *)

Definition inv (st : state) : Prop :=
  (exists rs, result st = map code rs /\ Forall accepted rs) /\
  (forall c, In c (pq st) -> exists d, queued c d).

(* leaves accounted for by the result or by a queued candidate *)
Definition scov (st : state) (m : Z) : Prop :=
  exists d, wf d /\ leaves d m /\ (In (code d) (result st) \/ In (code d) (map cid (pq st))).

Lemma add_inv st ch d : fresh ch d -> inv st ->
  exists st', add_candidate e st ch = Some st' /\ inv st' /\
    (forall m, scov st m -> scov st' m) /\
    (interior e = false -> forall m, leaves d m -> Reg m -> scov st' m) /\
    wts (pq st') <= wts (pq st) + wt ch /\
    len (result st') + len (pq st') <= len (result st) + len (pq st) + 1 /\
    len (result st') <= len (result st) + 1.
Proof.
  intros F ((rs & Er & Ar) & Q). pose proof F as (t & Ech & [W _] & _).
  assert (Ew : wt ch = 65 ^ (31 - lv d)) by (rewrite Ech; apply wt_code; auto).
  pose proof (pow65_pos (31 - lv d) ltac:(destruct W; lia)).
  destruct (add_candidate_ok st ch d F) as (st' & E & [(-> & A)|[(-> & N)|(c & -> & Qc)]]);
    eexists; (split; [exact E|]); unfold len; cbn [result pq length].
  - split; [split; cbn [result pq]; [exists (d :: rs); rewrite Er; split; [auto|constructor; auto]|auto]|].
    split; [intros m (k & Wk & Lk & I); exists k; cbn [result pq In]; tauto|].
    split; [intros _ m L _; exists d; cbn [result pq In]; auto|]. lia.
  - split; [split; eauto|]. split; [auto|]. split; [intros NI m L R; exfalso; apply (N NI m L R)|]. lia.
  - split; [split; cbn [result pq]; [eauto|intros c' [<-|I]; eauto]|].
    split; [intros m (k & Wk & Lk & I); exists k; cbn [result pq map In]; tauto|].
    pose proof Qc as (chs & q & Ec & _).
    split; [intros _ m L _; exists d; cbn [result pq map In]; rewrite Ec; cbn [cid]; auto|].
    cbn [wts]. rewrite Ew, Ec, wt_code by auto. lia.
Qed.

Lemma fold_children (g : state -> bool) : forall chs st, (forall ch, In ch chs -> exists k, fresh ch k) -> inv st ->
  exists st', fold_opt (fun st ch => if g st then add_candidate e st ch else Some st) st chs = Some st' /\ inv st' /\
    (forall m, scov st m -> scov st' m) /\
    (interior e = false -> (forall s, g s = true) -> forall m ch k, In ch chs -> fresh ch k -> leaves k m -> Reg m -> scov st' m) /\
    wts (pq st') <= wts (pq st) + wts chs /\
    len (result st') + len (pq st') <= len (result st) + len (pq st) + len chs /\
    ((forall s, g s = true -> len (result s) < max_cells p) -> len (result st) <= Z.max (max_cells p) 6 -> len (result st') <= Z.max (max_cells p) 6).
Proof.
  induction chs as [|ch chs IH]; intros st F I.
  - exists st. cbn [fold_opt wts]. unfold len; cbn [length]. split; [auto|]. split; [auto|]. split; [auto|].
    split; [intros _ _ m ch k []|]. lia.
  - cbn [fold_opt wts]. destruct (F ch (or_introl eq_refl)) as (d & Fd).
    assert (X : exists st1, (if g st then add_candidate e st ch else Some st) = Some st1 /\ inv st1 /\
      (forall m, scov st m -> scov st1 m) /\
      (interior e = false -> g st = true -> forall m, leaves d m -> Reg m -> scov st1 m) /\
      wts (pq st1) <= wts (pq st) + wt ch /\
      len (result st1) + len (pq st1) <= len (result st) + len (pq st) + 1 /\
      ((forall s, g s = true -> len (result s) < max_cells p) -> len (result st) <= Z.max (max_cells p) 6 -> len (result st1) <= Z.max (max_cells p) 6)).
    { destruct (g st) eqn:Eg.
      - destruct (add_inv st ch d Fd I) as (st1 & E1 & I1 & C1 & D1 & W1 & L1 & L2).
        exists st1. split; [auto|]. split; [auto|]. split; [auto|]. split; [auto|]. split; [auto|]. split; [auto|].
        intros Hg _. specialize (Hg st Eg). lia.
      - exists st. split; [auto|]. split; [auto|]. split; [auto|]. split; [discriminate|].
        pose proof (wt_nonneg ch). split; [lia|]. split; [lia|auto]. }
    destruct X as (st1 & E1 & I1 & C1 & D1 & W1 & L1 & G1). rewrite E1.
    destruct (IH st1 (fun c Ic => F c (or_intror Ic)) I1) as (st' & E' & I' & C' & D' & W' & L' & G').
    exists st'. split; [exact E'|]. split; [auto|]. split; [auto|]. split.
    { intros NI Hg m c k [<-|Ic] Fk Lk Rm.
      - apply C'. apply (D1 NI (Hg st)); auto.
        assert (k = d); [|subst; auto].
        destruct Fk as (t & Ek & [Wk _] & _). destruct Fd as (t' & Ed & [Wd _] & _).
        apply code_inj; auto. congruence.
      - apply (D' NI Hg m c k); auto. }
    unfold len in *; cbn [length]. split; [lia|]. split; [lia|]. auto.
Qed.

Lemma main_loop_eq fuel tie st : main_loop fuel tie e st =
  match heap_pop tie (pq st) with
  | None => Some (result st)
  | Some (c, rest) =>
    if interior e && negb (len (result st) <? max_cells p) then Some (result st)
    else
      match fuel with
      | O => None
      | S fuel' =>
        let st1 := State (result st) rest in
        let* l := level (cid c) in
        let* st2 :=
          (if interior e || (l <? min_level p) || (len (cchildren c) =? 1)
              || (len (result st) + len rest + len (cchildren c) <=? max_cells p)
           then
             fold_opt (fun st ch =>
               if negb (interior e) || (len (result st) <? max_cells p)
               then add_candidate e st ch else Some st) st1 (cchildren c)
           else Some (State (cid c :: result st) rest)) in
        main_loop fuel' tie e st2
      end
  end.
Proof. destruct fuel; reflexivity. Qed.

Definition bounded (st : state) : Prop :=
  if interior e then len (result st) <= Z.max (max_cells p) 6
  else len (result st) + len (pq st) <= Z.max (max_cells p) 6.

Theorem main_loop_ok tie : forall n st, inv st -> wts (pq st) <= Z.of_nat n ->
  exists rs, (forall fuel, (n <= fuel)%nat -> main_loop fuel tie e st = Some (map code rs)) /\
    Forall accepted rs /\
    (interior e = false -> forall m, Reg m -> scov st m -> cov rs m) /\
    (interior e = true \/ min_level p = 0 -> bounded st -> len rs <= Z.max (max_cells p) 6).
Proof.
  pose proof P as (P1 & P2 & P3 & P4). pose proof (top_ok p P) as TT.
  induction n as [|n IH]; intros st I Hn.
  - (* the queue is empty *)
    assert (EQ : pq st = []).
    { destruct (pq st) as [|c l] eqn:Ep; [auto|]. exfalso.
      destruct I as [_ Q]. destruct (Q c) as (d & chs & q & Ec & [W _] & _); [rewrite Ep; left; auto|].
      cbn [wts] in Hn. rewrite Ec, wt_code in Hn by auto.
      pose proof (pow65_pos (31 - lv d) ltac:(destruct W; lia)).
      pose proof (wts_nonneg l). lia. }
    pose proof I as ((rs & Er & Ar) & _). exists rs. split; [|split; [auto|split]].
    + intros fuel _. rewrite main_loop_eq, EQ, heap_pop_nil, Er. reflexivity.
    + intros _ m _ (d & W & L & [X|X]); [|rewrite EQ in X; destruct X].
      rewrite Er in X. apply in_map_iff in X. destruct X as (d' & E & Id).
      rewrite Forall_forall in Ar. destruct (Ar d' Id) as [[W' _] _].
      apply code_inj in E; auto. subst. exists d; auto.
    + intros _ B. unfold bounded in B. unfold len in *. rewrite Er, EQ in B. rewrite map_length in B.
      destruct (interior e); cbn in B; lia.
  - destruct (pq st) as [|c0 l0] eqn:Ep.
    + pose proof I as ((rs & Er & Ar) & _). exists rs. split; [|split; [auto|split]].
      * intros fuel _. rewrite main_loop_eq, Ep, heap_pop_nil, Er. reflexivity.
      * intros _ m _ (d & W & L & [X|X]); [|rewrite Ep in X; destruct X].
        rewrite Er in X. apply in_map_iff in X. destruct X as (d' & E & Id).
        rewrite Forall_forall in Ar. destruct (Ar d' Id) as [[W' _] _].
        apply code_inj in E; auto. subst. exists d; auto.
      * intros _ B. unfold bounded in B. unfold len in *. rewrite Er, Ep in B. rewrite map_length in B.
        destruct (interior e); cbn in B; lia.
    + rewrite <- Ep in Hn. destruct (heap_pop_ok tie (pq st)) as (c & l1 & l2 & El & Epop & _); [congruence|].
      pose proof I as ((rs & Er & Ar) & Q).
      destruct (interior e && negb (len (result st) <? max_cells p)) eqn:ES.
      * exists rs. apply andb_prop in ES. destruct ES as [ES1 ES2]. split; [|split; [auto|split]].
        -- intros fuel _. rewrite main_loop_eq, Epop, ES1, ES2, Er. reflexivity.
        -- congruence.
        -- intros _ B. unfold bounded in B. rewrite ES1 in B. unfold len in *. rewrite Er, map_length in B. lia.
      * destruct (Q c) as (d & chs & q & Ec & [W G] & L64 & L & HL & X & XC); [rewrite El; apply in_or_app; right; left; auto|].
        set (rest := l1 ++ l2) in *. set (st1 := State (result st) rest).
        assert (I1 : inv st1).
        { split; cbn [result pq]; [eauto|]. intros c' Ic'. apply Q. rewrite El. apply in_app_or in Ic'.
          apply in_or_app. cbn [In]. tauto. }
        assert (Wpq : wts (pq st) = wts rest + 65 ^ (31 - lv d)).
        { rewrite El. unfold rest. rewrite !wts_app. cbn [wts]. rewrite Ec, wt_code by auto. lia. }
        assert (Lpq : len (pq st) = len rest + 1).
        { rewrite El. unfold rest, len. rewrite !app_length. cbn [length]. lia. }
        assert (S1 : forall m, scov st m -> scov st1 m \/ leaves d m).
        { intros m (k & Wk & Lk & [K|K]).
          - left. exists k. auto.
          - rewrite El, map_app in K. cbn [map] in K. apply in_app_or in K. destruct K as [K|[K|K]].
            + left. exists k. cbn [pq st1 result]. unfold rest. rewrite map_app, in_app_iff. auto.
            + right. rewrite Ec in K. cbn [cid] in K. apply code_inj in K; auto. subst; auto.
            + left. exists k. cbn [pq st1 result]. unfold rest. rewrite map_app, in_app_iff. auto. }
        assert (Wc : wts chs <= 64 * 65 ^ (30 - lv d)).
        { assert (H : forall ch, In ch chs -> wt ch <= 65 ^ (30 - lv d)).
          { intros ch Ich. destruct (X ch Ich) as (k & (t & -> & [Wk _] & _) & _ & Lk). rewrite wt_code by auto.
            apply Z.pow_le_mono_r; lia. }
          assert (0 < 65 ^ (30 - lv d)) by (apply pow65_pos; destruct W; lia).
          assert (Y : wts chs <= len chs * 65 ^ (30 - lv d)).
          { clear -H. induction chs as [|ch chs IH]; [cbn; lia|]. cbn [wts]. unfold len in *. cbn [length].
            pose proof (H ch (or_introl eq_refl)). specialize (IH (fun c I => H c (or_intror I))). lia. }
          unfold len in Y. assert (Z.of_nat (length chs) <= 64) by lia. nia. }
        assert (W65 : 65 ^ (31 - lv d) = 65 * 65 ^ (30 - lv d)).
        { replace (31 - lv d) with (Z.succ (30 - lv d)) by lia. apply Z.pow_succ_r. destruct W; lia. }
        assert (Wp : 0 < 65 ^ (30 - lv d)) by (apply pow65_pos; destruct W; lia).
        assert (STEP : exists st2,
          (if interior e || (lv d <? min_level p) || (len chs =? 1) || (len (result st) + len rest + len chs <=? max_cells p)
           then fold_opt (fun st ch => if negb (interior e) || (len (result st) <? max_cells p)
               then add_candidate e st ch else Some st) st1 chs
           else Some (State (code d :: result st) rest)) = Some st2 /\ inv st2 /\
          wts (pq st2) <= Z.of_nat n /\
          (interior e = false -> forall m, Reg m -> scov st m -> scov st2 m) /\
          (interior e = true \/ min_level p = 0 -> bounded st -> bounded st2)).
        { destruct (interior e || (lv d <? min_level p) || (len chs =? 1) || (len (result st) + len rest + len chs <=? max_cells p)) eqn:EG.
          - destruct (fold_children (fun st => negb (interior e) || (len (result st) <? max_cells p)) chs st1)
              as (st2 & E2 & I2 & C2 & D2 & W2 & L2 & G2); [intros ch Ich; destruct (X ch Ich) as (k & Fk & _); eauto|auto|].
            exists st2. split; [exact E2|]. split; [auto|]. cbn [st1 pq] in W2, L2, G2. split; [lia|]. split.
            + intros NI m Rm Sm. destruct (S1 m Sm) as [S|S]; [auto|].
              destruct (XC NI m S Rm) as (ch & k & Ich & Fk & Lk). apply (D2 NI) with (ch := ch) (k := k); auto.
              intros s. rewrite NI. reflexivity.
            + unfold bounded. destruct (interior e) eqn:EI.
              * intros _ B. apply G2; [|exact B]. intros s Hs. cbn [negb orb] in Hs. lia.
              * intros [|M0]; [discriminate|]. intros B. cbn [orb] in EG. change (result st1) with (result st) in L2.
                rewrite Lpq in B. apply orb_prop in EG. destruct EG as [EG|EG]; [apply orb_prop in EG; destruct EG as [EG|EG]|].
                -- destruct W as [W _]. lia.
                -- lia.
                -- lia.
          - apply orb_false_iff in EG. destruct EG as [EG E4]. apply orb_false_iff in EG. destruct EG as [EG E3].
            apply orb_false_iff in EG. destruct EG as [E1 E2].
            eexists. split; [reflexivity|]. split; [|split; [|split]]; cbn [result pq].
            + split; cbn [result pq]; [|apply I1]. exists (d :: rs). rewrite Er. split; [auto|].
              constructor; [|auto]. split; [split; auto|]. split; [lia|congruence].
            + lia.
            + intros _ m Rm Sm. destruct (S1 m Sm) as [(k & Wk & Lk & K)|S].
              * exists k. cbn [result pq In st1] in *. tauto.
              * exists d. cbn [result In]. auto.
            + unfold bounded. rewrite E1. cbn [result pq]. unfold len in *. cbn [length]. lia. }
        destruct STEP as (st2 & E2 & I2 & W2 & C2 & B2).
        destruct (IH st2 I2 W2) as (rs' & F' & A' & C' & B').
        exists rs'. split; [|split; [auto|split]].
        -- intros fuel Hf. rewrite main_loop_eq, Epop, ES. destruct fuel as [|fuel]; [lia|].
           cbv zeta. rewrite Ec. cbn [cid cchildren]. rewrite level_code by auto. fold st1.
           rewrite E2. apply F'. lia.
        -- intros NI m Rm Sm. apply (C' NI m Rm). apply (C2 NI m Rm Sm).
        -- auto.
Qed.

(** ** The initial candidates *)

Variable bound : list cell.
Hypothesis HB : cell_union_bound (reg e) = map code bound.
Hypothesis WB : Forall wf bound.

Lemma initial_ok : exists N st, (forall fuel, (N <= fuel)%nat -> initial_candidates fuel e (State [] []) = Some st) /\
  inv st /\ (interior e = false -> forall m, Reg m -> cov bound m -> scov st m) /\
  len (result st) + len (pq st) <= 6.
Proof.
  pose proof P as (P1 & P2 & P3 & P4). pose proof (top_ok p P) as TT.
  set (temp := Params 0 (max_level p) 1 (Z.min (max_cells p) 4)).
  assert (Pt : params_ok temp) by (unfold params_ok, temp; cbn [min_level max_level level_mod max_cells]; lia).
  destruct (normalize_covering_ok temp bound Pt WB) as (N & ds & E & V & C & L & K).
  specialize (K eq_refl eq_refl). cbn [temp max_cells] in K. assert (K6 : len ds <= 6) by lia. clear K.
  destruct (adjust_cell_levels_ok p ds P) as (out & EO & GO & CO & LO).
  { rewrite Forall_forall. intros d I. split; [eapply valid_wf; eauto|]. apply L in I. unfold top in I at 1; cbn [temp max_level min_level] in I. lia. }
  assert (X : forall l st, Forall (good_cell p) l -> inv st ->
    exists st', fold_opt (fun st ci =>
        let* r := new_candidate e ci in
        match r with
        | Some c => add_candidate e st c
        | None => Some st
        end) st (map code l) = Some st' /\ inv st' /\ (forall m, scov st m -> scov st' m) /\
      (interior e = false -> forall m, Reg m -> cov l m -> scov st' m) /\
      len (result st') + len (pq st') <= len (result st) + len (pq st) + len l).
  { induction l as [|d l IH]; intros st G I.
    - exists st. cbn [map fold_opt]. split; [auto|]. split; [auto|]. split; [auto|]. split; [|unfold len; cbn; lia].
      intros _ m _ H. apply cov_nil in H. tauto.
    - inversion G as [|? ? Gd Gl]; subst. cbn [map fold_opt].
      destruct (new_candidate_ok d Gd) as (r & Er & R). rewrite Er.
      assert (Y : exists st1, match r with Some c => add_candidate e st c | None => Some st end = Some st1 /\ inv st1 /\
        (forall m, scov st m -> scov st1 m) /\ (interior e = false -> forall m, Reg m -> leaves d m -> scov st1 m) /\
        len (result st1) + len (pq st1) <= len (result st) + len (pq st) + 1).
      { destruct r as [c|].
        - destruct (add_inv st c d R I) as (st1 & E1 & I1 & C1 & D1 & _ & L1 & _). exists st1. auto 10.
        - exists st. split; [auto|]. split; [auto|]. split; [auto|]. split; [|lia].
          intros NI m Rm Lm. exfalso. apply (R NI m Lm Rm). }
      destruct Y as (st1 & E1 & I1 & C1 & D1 & L1). rewrite E1.
      destruct (IH st1 Gl I1) as (st' & E' & I' & C' & D' & L').
      exists st'. split; [auto|]. split; [auto|]. split; [auto|]. split; [|unfold len in *; cbn [length]; lia].
      intros NI m Rm Cm. rewrite cov_cons in Cm. destruct Cm as [Cm|Cm]; [apply C'; auto|auto]. }
  destruct (X out (State [] []) GO) as (st & ES & IS & _ & DS & LS).
  { split; [exists []; split; auto|]. intros c []. }
  exists N, st. split; [|split; [auto|split]].
  - intros fuel Hf. unfold initial_candidates. fold p. fold temp. unfold fast_covering. rewrite HB, E by auto.
    rewrite EO. exact ES.
  - intros NI m Rm Cm. apply (DS NI m Rm). auto.
  - unfold len in *; cbn [result pq length] in LS. lia.
Qed.

Theorem covering_internal_ok tie : exists N rs,
  (forall fuel, (N <= fuel)%nat -> covering_internal fuel tie e = Some (map code rs)) /\
  Forall accepted rs /\
  (interior e = false -> forall m, Reg m -> cov bound m -> cov rs m) /\
  (interior e = true \/ min_level p = 0 -> len rs <= Z.max (max_cells p) 6).
Proof.
  destruct initial_ok as (N & st & E & I & C & L).
  destruct (main_loop_ok tie (Z.to_nat (wts (pq st))) st I ltac:(lia)) as (rs & F & A & D & B).
  exists (Nat.max N (Z.to_nat (wts (pq st)))), rs. split; [|split; [auto|split]].
  - intros fuel Hf. unfold covering_internal. rewrite E by lia. apply F. lia.
  - intros NI m Rm Cm. auto.
  - intros H. apply B; [auto|]. unfold bounded. destruct (interior e); unfold len in *; lia.
Qed.

(* ... normalized, and then denormalized *)
Theorem cellunion_ok tie : exists N rs ns ds,
  (forall fuel, (N <= fuel)%nat ->
     (let* v := covering_internal fuel tie e in normalize (rev v)) = Some (map code ns) /\
     denormalize fuel (map code ns) (clampZ (min_level p) 0 MAX_LEVEL) (clampZ (level_mod p) 1 3) = Some (map code ds)) /\
  Forall accepted rs /\ normalized_cells ns /\ valid_cells ds /\
  (forall m, cov ns m <-> cov rs m) /\ (forall m, cov ds m <-> cov rs m) /\
  (interior e = false -> forall m, Reg m -> cov bound m -> cov rs m) /\
  (forall d, In d ds -> min_level p <= lv d <= top p /\ (lv d - min_level p) mod level_mod p = 0) /\
  (interior e = true \/ min_level p = 0 -> len ns <= Z.max (max_cells p) 6 /\ len ds <= Z.max (max_cells p) 6).
Proof.
  pose proof P as (P1 & P2 & P3 & P4). pose proof (top_ok p P) as TT.
  destruct (covering_internal_ok tie) as (N & rs & E & A & C & B).
  assert (Ga : Forall (good_cell p) rs) by (eapply Forall_impl; [|exact A]; intros ? []; auto).
  assert (Fw : Forall wf rs) by (eapply Forall_impl; [|exact Ga]; intros ? []; auto).
  destruct (normalize_correct (rev rs)) as (ns & EN & NN & CN); [rewrite Forall_rev_iff; auto|].
  assert (CN' : forall m, cov ns m <-> cov rs m) by (intros m; rewrite CN; apply cov_rev).
  destruct (denormalize_good p ns rs P NN Ga CN') as (ds & D1 & D2 & D3 & D4 & D5).
  exists (Nat.max N (length ds)), rs, ns, ds. split.
  { intros fuel Hf. rewrite E by lia. rewrite <- map_rev, EN. split; [auto|].
    replace (clampZ (min_level p) 0 MAX_LEVEL) with (min_level p).
    2:{ unfold clampZ, MAX_LEVEL. destruct (Z.ltb_spec (min_level p) 0); [lia|]. destruct (Z.ltb_spec 30 (min_level p)); lia. }
    replace (clampZ (level_mod p) 1 3) with (level_mod p).
    2:{ unfold clampZ. destruct (Z.ltb_spec (level_mod p) 1); [lia|]. destruct (Z.ltb_spec 3 (level_mod p)); lia. }
    apply D1. lia. }
  split; [auto|]. split; [auto|]. split; [auto|]. split; [auto|]. split; [auto|]. split; [auto|]. split; [auto|].
  intros H. specialize (B H). assert (X1 : (length ns <= length rs)%nat) by (apply minimal; auto).
  assert (X2 : (length ds <= length rs)%nat).
  { apply D5. eapply Forall_impl; [|exact A]. intros d (_ & M & _). auto. }
  unfold len in *. lia.
Qed.
End Cov.
