(** Proofs about the CellUnion model, part 2: sorting, normalize, canonical form. *)
From Verif Require Import Base Spec CellIdModel CellIdArith CellIdProofs CellOrder
  CellUnionModel CellUnionProofs.
From Coq Require Import Permutation.

Lemma normalized_iff cs : normalized_cells cs <-> valid_cells cs /\ no_sib cs.
Proof.
  unfold normalized_cells, no_sib. split; intros [V N]; split; auto.
  - intros p Wp I. apply N. eauto.
  - intros (p & Wp & I). apply (N p Wp I).
Qed.

(** ** Sorting *)

Lemma insert_perm x l : Permutation (insert x l) (x :: l).
Proof.
  induction l as [|y l IH]; cbn; [auto|].
  destruct (x <=? y); [auto|]. rewrite IH. apply perm_swap.
Qed.

Lemma sort_perm l : Permutation (sort l) l.
Proof.
  induction l as [|x l IH]; cbn; [auto|]. rewrite insert_perm, IH. auto.
Qed.

Lemma insert_sorted x l : StronglySorted Z.le l -> StronglySorted Z.le (insert x l).
Proof.
  induction 1 as [|y l S IH F]; cbn; [repeat constructor|].
  destruct (Z.leb_spec x y).
  - repeat constructor; auto. rewrite Forall_forall in *. intros z I. specialize (F z I). lia.
  - constructor; auto. rewrite Forall_forall in *. intros z I.
    apply (Permutation_in _ (insert_perm x l)) in I. destruct I as [<-|I]; [lia|auto].
Qed.

Lemma sort_sorted l : StronglySorted Z.le (sort l).
Proof. induction l; cbn; [constructor|apply insert_sorted; auto]. Qed.

(** ** One step *)

Lemma contains_lohi a b : wf a -> wf b ->
  exists r, contains (code a) (code b) = Some r /\ (r = true <-> lo a <= lo b /\ hi b <= hi a).
Proof.
  intros Ha Hb. destruct (contains_code a b Ha Hb) as (r & E & R). exists r.
  split; [auto|]. rewrite R. apply anc_iff; auto.
Qed.

Lemma pop_contained_correct ci : wf ci -> forall out, valid_cells (rev out) ->
  (forall d, In d out -> hi d <= lo ci \/ lo ci <= lo d /\ hi d <= hi ci) ->
  exists pre post, out = pre ++ post /\ pop_contained (code ci) (map code out) = Some (map code post) /\
    (forall d, In d pre -> lo ci <= lo d /\ hi d <= hi ci) /\
    (forall d, In d post -> hi d <= lo ci).
Proof.
  intros Wi. induction out as [|h out IH]; intros V H; cbn [map pop_contained].
  - exists [], []. split; [reflexivity|]. split; [reflexivity|]. split; intros d [].
  - cbn [rev] in V. apply valid_cells_snoc in V. destruct V as (V & Wh & B).
    destruct (contains_lohi ci h Wi Wh) as (r & -> & R). destruct r.
    + destruct IH as (pre & post & E & P & I1 & I2); auto.
      { intros d I. apply H. right; auto. }
      exists (h :: pre), post. split; [cbn; congruence|]. split; [auto|]. split; [|auto].
      intros d [<-|I]; [apply R; auto|auto].
    + exists [], (h :: out). split; [reflexivity|]. split; [reflexivity|]. split; [intros d []|].
      assert (Hh : hi h <= lo ci).
      { destruct (H h (or_introl eq_refl)) as [|C]; [auto|]. apply R in C. discriminate. }
      intros d [<-|I]; [auto|]. pose proof (lohi h Wh). specialize (B d). rewrite <- in_rev in B.
      specialize (B I). lia.
Qed.

Lemma cov_ext_perm a b m : (forall c, In c a <-> In c b) -> cov a m <-> cov b m.
Proof. intros E. unfold cov. split; intros (c & I & L); exists c; split; auto; apply E; auto. Qed.

Lemma cov_rev l m : cov (rev l) m <-> cov l m.
Proof. apply cov_ext_perm. intros c. symmetry. apply in_rev. Qed.

Lemma no_sib_incl a b : (forall c, In c a -> In c b) -> no_sib b -> no_sib a.
Proof. intros I N p Wp H. apply (N p Wp). auto. Qed.

Lemma collapse_correct : forall n ci out, (length out <= n)%nat ->
  valid_cells (rev out ++ [ci]) -> no_sib (rev out) ->
  exists ci' out', collapse (code ci) (map code out) = Some (code ci', map code out') /\
    valid_cells (rev out' ++ [ci']) /\ no_sib (rev out' ++ [ci']) /\
    lo ci' <= lo ci /\ hi ci <= hi ci' /\
    (forall d, In d out' -> In d out) /\
    forall m, (cov out' m \/ leaves ci' m <-> cov out m \/ leaves ci m).
Proof.
  induction n as [|n IH]; intros ci out Hn V N.
  { destruct out; [|cbn in Hn; lia]. exists ci, []. cbn in *. split; [reflexivity|].
    split; [auto|]. split; [|split; [lia|split; [lia|split; [auto|tauto]]]].
    apply (no_sib_snoc [] ci V N). intros pre a b c E. destruct pre; discriminate. }
  assert (STOP : (forall pre a b c, rev out = pre ++ [a; b; c] -> ~ four_siblings a b c ci) ->
    exists ci' out', Some (code ci, map code out) = Some (code ci', map code out') /\
    valid_cells (rev out' ++ [ci']) /\ no_sib (rev out' ++ [ci']) /\
    lo ci' <= lo ci /\ hi ci <= hi ci' /\
    (forall d, In d out' -> In d out) /\
    forall m, (cov out' m \/ leaves ci' m <-> cov out m \/ leaves ci m)).
  { intros H. exists ci, out. split; [reflexivity|]. split; [auto|]. split.
    - apply no_sib_snoc; auto.
    - split; [lia|split; [lia|split; [auto|tauto]]]. }
  destruct out as [|f2 [|f1 [|f0 rest]]]; cbn [map collapse].
  - apply STOP. intros pre a b d E. cbn in E. destruct pre; discriminate.
  - apply STOP. intros pre a b d E. cbn in E. destruct pre as [|? [|? ?]]; discriminate.
  - apply STOP. intros pre a b d E. cbn in E. destruct pre as [|? [|? [|? ?]]]; discriminate.
  - pose proof V as V'. apply valid_cells_snoc in V'. destruct V' as (V1 & Wi & Bi).
    rewrite rev3 in V1, Bi.
    assert (W : wf f0 /\ wf f1 /\ wf f2 /\ hi f0 <= lo f1 /\ hi f1 <= lo f2 /\ hi f2 <= lo ci).
    { pose proof (proj1 (valid_cells_app _ _) V1) as (_ & V3 & _).
      rewrite !valid_cells_cons, !Forall_forall in V3.
      destruct V3 as (A3 & (A2 & (A1 & _) & F1) & F2).
      split; [auto|]. split; [auto|]. split; [auto|]. split; [apply F2; left; auto|].
      split; [apply F1; left; auto|]. apply Bi. apply in_or_app. right. cbn. auto. }
    destruct W as (W0 & W1 & W2 & L1 & L2 & L3).
    pose proof (sibling_test f0 f1 f2 ci W0 W1 W2 Wi L1 L2 L3) as T.
    assert (NO : ~ four_siblings f0 f1 f2 ci ->
       forall pre a b c, rev (f2 :: f1 :: f0 :: rest) = pre ++ [a; b; c] -> ~ four_siblings a b c ci).
    { intros H pre a b c E. apply (f_equal (@rev cell)) in E.
      rewrite rev_involutive, rev_app_distr in E. cbn in E. injection E as -> -> -> _. exact H. }
    destruct (Z.eqb_spec (Z.lxor (Z.lxor (Z.lxor (code f0) (code f1)) (code f2)) (code ci)) 0) as [X|X]; cbn [negb].
    2:{ apply STOP. apply NO. intros (p & Wp & Lp & -> & -> & -> & ->). apply X.
        apply lxor_children; auto. }
    rewrite sibling_mask_code by assumption. fold (mask_eq f0 ci) (mask_eq f1 ci) (mask_eq f2 ci).
    destruct (mask_eq f0 ci); cbn [negb]; [|apply STOP, NO; rewrite <- T; intuition congruence].
    destruct (mask_eq f1 ci); cbn [negb]; [|apply STOP, NO; rewrite <- T; intuition congruence].
    destruct (mask_eq f2 ci); cbn [negb]; [|apply STOP, NO; rewrite <- T; intuition congruence].
    rewrite is_face_code by assumption.
    destruct (Z.eqb_spec (lv ci) 0) as [Z0|Z0]; [apply STOP, NO; rewrite <- T; intuition congruence|].
    assert (S4 : four_siblings f0 f1 f2 ci) by (apply T; auto).
    destruct S4 as (p & Wp & Lp & -> & -> & -> & ->).
    rewrite immediate_parent_code by (auto; cbn; destruct Wp; lia).
    assert (AP : anc (lv (child p 3) - 1) (child p 3) = p).
    { cbn [lv child]. replace (lv p + 1 - 1) with (lv p) by lia. apply anc_child; destruct Wp; lia. }
    rewrite AP.
    destruct (lo_child p 0 Wp Lp) as (E0 & _ & Ep). destruct (lo_child p 3 Wp Lp) as (E3 & E3' & _).
    pose proof (pow4_pos (29 - lv p) ltac:(destruct Wp; lia)) as PP.
    apply valid_cells_app in V1. destruct V1 as (Vr & V3 & BB).
    destruct (IH p rest) as (ci' & out' & E & V' & N' & B1 & B2 & I' & C'); [cbn in Hn; lia| | |].
    { apply valid_cells_snoc. split; [auto|]. split; [auto|]. intros c I.
      specialize (BB c (child p 0) I (or_introl eq_refl)). lia. }
    { apply (no_sib_incl _ (rev (child p 2 :: child p 1 :: child p 0 :: rest))); [|auto].
      intros c I. rewrite rev3. apply in_or_app; auto. }
    exists ci', out'. split; [exact E|]. split; [auto|]. split; [auto|]. split; [lia|]. split; [lia|].
    split; [intros d I; cbn; auto 6|].
    intros m. rewrite C'. rewrite !cov_cons.
    assert (leaves p m <-> leaves (child p 0) m \/ leaves (child p 1) m \/ leaves (child p 2) m \/ leaves (child p 3) m).
    { destruct (lo_child p 1 Wp Lp) as (E1 & E1' & _). destruct (lo_child p 2 Wp Lp) as (E2 & E2' & _).
      destruct (lo_child p 0 Wp Lp) as (_ & E0' & _). rewrite !leaves_lohi.
      rewrite E0, E0', E1, E1', E2, E2', E3, E3', Ep. lia. }
    tauto.
Qed.

(* the invariant of the output so far; B bounds the ids already processed *)
Definition out_inv (out : list cell) (B : Z) : Prop :=
  valid_cells (rev out) /\ no_sib (rev out) /\ forall d, In d out -> 2 * lo d + 1 <= B.

Lemma normalize_step_correct ci out B : wf ci -> out_inv out B -> B <= code ci ->
  exists out', normalize_step (code ci) (map code out) = Some (map code out') /\
    out_inv out' (code ci) /\ forall m, cov out' m <-> cov out m \/ leaves ci m.
Proof.
  intros Wi (V & N & HB) Hi. unfold normalize_step.
  pose proof (lohi ci Wi) as Li. pose proof (code_lohi ci) as Ci.
  assert (WO : forall d, In d out -> wf d).
  { intros d I. eapply valid_wf; eauto. apply -> in_rev. auto. }
  assert (SK : exists s, match map code out with [] => Some false | last :: _ => contains last (code ci) end = Some s
     /\ (s = true -> exists d, In d out /\ lo d <= lo ci /\ hi ci <= hi d)
     /\ (s = false -> forall d, In d out -> hi d <= lo ci \/ lo ci <= lo d /\ hi d <= hi ci)).
  { destruct out as [|h out]; cbn [map].
    - exists false. split; [reflexivity|]. split; [discriminate|]. intros _ d [].
    - cbn [rev] in V. apply valid_cells_snoc in V. destruct V as (V & Wh & Bh).
      destruct (contains_lohi h ci Wh Wi) as (s & -> & S). exists s. split; [reflexivity|]. split.
      + intros E. exists h. split; [left; auto|]. apply S; auto.
      + intros -> d I. pose proof (HB d I) as Hd. pose proof (WO d I) as Wd.
        pose proof (lohi d Wd) as Ld.
        destruct (cases d ci Wd Wi) as [C|[C|[C|C]]]; auto; [lia|].
        exfalso. destruct I as [<-|I].
        * assert (false = true); [|discriminate]. apply S. auto.
        * specialize (Bh d). rewrite <- in_rev in Bh. specialize (Bh I).
          pose proof (HB h (or_introl eq_refl)). lia. }
  destruct SK as (s & -> & S1 & S2). destruct s.
  - destruct (S1 eq_refl) as (d & I & L). exists out. split; [reflexivity|]. split.
    + split; [auto|]. split; [auto|]. intros e Ie. specialize (HB e Ie). lia.
    + intros m. split; [auto|]. intros [|Lm]; [auto|]. exists d. rewrite leaves_lohi in *. split; [auto|lia].
  - destruct (pop_contained_correct ci Wi out V (S2 eq_refl)) as (pre & post & -> & -> & I1 & I2).
    rewrite rev_app_distr in V, N. apply valid_cells_app in V. destruct V as (Vp & Vr & _).
    destruct (collapse_correct (length post) ci post) as (ci' & out' & -> & V' & N' & B1 & B2 & I' & C'); auto.
    { apply valid_cells_snoc. split; [auto|]. split; [auto|]. intros c I. apply I2. apply in_rev. auto. }
    { eapply no_sib_incl; [|exact N]. intros c I. apply in_or_app; auto. }
    exists (ci' :: out'). split; [reflexivity|]. split.
    + split; [exact V'|]. split; [exact N'|]. intros d [<-|I]; [lia|].
      assert (2 * lo d + 1 <= B) by (apply HB, in_or_app; right; auto). lia.
    + intros m. rewrite cov_cons, cov_app.
      specialize (C' m).
      assert (cov pre m -> leaves ci m).
      { intros (d & I & L). specialize (I1 d I). rewrite leaves_lohi in *. lia. }
      tauto.
Qed.

Lemma normalize_loop_correct : forall v out B, Forall wf v ->
  StronglySorted Z.le (map code v) -> (forall c, In c v -> B <= code c) -> out_inv out B ->
  exists out', normalize_loop (map code v) (map code out) = Some (map code out') /\
    valid_cells (rev out') /\ no_sib (rev out') /\ forall m, cov out' m <-> cov out m \/ cov v m.
Proof.
  induction v as [|ci v IH]; intros out B F S HB Inv; cbn [map normalize_loop].
  - exists out. split; [reflexivity|]. destruct Inv as (V & N & _). split; [auto|]. split; [auto|].
    intros m. rewrite cov_nil. tauto.
  - inversion F; subst. inversion S; subst.
    destruct (normalize_step_correct ci out B) as (out1 & -> & Inv1 & C1); auto.
    { apply HB. left; auto. }
    destruct (IH out1 (code ci)) as (out2 & -> & V2 & N2 & C2); auto.
    { rewrite Forall_forall in *. intros c I. apply H4. apply in_map; auto. }
    exists out2. split; [reflexivity|]. split; [auto|]. split; [auto|].
    intros m. rewrite C2, C1, cov_cons. tauto.
Qed.

Theorem normalize_correct v : Forall wf v ->
  exists cs, normalize (map code v) = Some (map code cs) /\ normalized_cells cs /\
    forall m, cov cs m <-> cov v m.
Proof.
  intros F. unfold normalize.
  destruct (Permutation_map_inv code v (sort_perm (map code v))) as (v' & E & P).
  rewrite E. assert (F' : Forall wf v').
  { rewrite Forall_forall in *. intros c I. apply F. apply (Permutation_in _ (Permutation_sym P) I). }
  destruct (normalize_loop_correct v' [] 0 F') as (out & EO & V & N & C).
  - rewrite <- E. apply sort_sorted.
  - intros c I. rewrite Forall_forall in F'. pose proof (lohi c (F' c I)). rewrite code_lohi. lia.
  - split; [split; constructor|]. split; [|intros d []]. intros p Wp I. destruct (I 0). lia.
  - change (map code []) with (@nil Z) in EO. rewrite EO. exists (rev out). rewrite map_rev.
    split; [reflexivity|]. split; [apply normalized_iff; auto|].
    intros m. rewrite cov_rev, C, cov_nil. split; [intros [[]|A]|intros A; right];
    (apply (cov_ext_perm v v'); [intros c; split; apply Permutation_in; auto using Permutation_sym|]; auto).
Qed.

(** ** Canonical form, minimality *)

Lemma fully_covered cs ds c : (forall m, cov cs m <-> cov ds m) -> In c cs ->
  forall m, leaves c m -> cov ds m.
Proof. intros E I m L. apply E. exists c; auto. Qed.

Lemma member_maximal cs c d : valid_cells cs -> In c cs -> In d cs ->
  lo d <= lo c -> hi c <= hi d -> c = d.
Proof.
  intros V Ic Id L1 L2. pose proof (lohi c (valid_wf _ _ V Ic)). pose proof (lohi d (valid_wf _ _ V Id)).
  destruct (valid_disjoint cs c d V Ic Id) as [|[|]]; [auto|lia|lia].
Qed.

Lemma canonical_incl cs ds : normalized_cells cs -> normalized_cells ds ->
  (forall m, cov cs m <-> cov ds m) -> forall c, In c cs -> In c ds.
Proof.
  intros Nc Nd E c I.
  assert (E' : forall m, cov ds m <-> cov cs m) by (intros; symmetry; auto).
  assert (Wc : wf c) by (eapply valid_wf; eauto; apply Nc).
  destruct (normalized_contains ds Nd c Wc (fully_covered cs ds c E I)) as (d & Id & L1 & L2).
  assert (Wd : wf d) by (eapply valid_wf; eauto; apply Nd).
  destruct (normalized_contains cs Nc d Wd (fully_covered ds cs d E' Id)) as (e & Ie & M1 & M2).
  assert (c = e) by (apply (member_maximal cs c e); auto; try apply Nc; lia). subst e.
  assert (c = d) by (apply cell_eq; auto; lia). congruence.
Qed.

Theorem canonical cs ds : normalized_cells cs -> normalized_cells ds ->
  (forall m, cov cs m <-> cov ds m) -> cs = ds.
Proof.
  intros Nc Nd E. apply valid_ext; [apply Nc|apply Nd|]. intros c. split.
  - apply canonical_incl; auto.
  - apply canonical_incl; auto. intros; symmetry; auto.
Qed.

Theorem minimal cs ds : normalized_cells cs -> Forall wf ds ->
  (forall m, cov cs m <-> cov ds m) -> (length cs <= length ds)%nat.
Proof.
  intros Nc Fd E. pose proof (proj1 Nc) as V. rewrite Forall_forall in Fd.
  assert (G : forall l, (forall c, In c l -> In c cs) ->
            exists fs, Forall2 (fun c d => In d ds /\ lo c <= lo d /\ hi d <= hi c) l fs).
  { induction l as [|c l IH]; intros Hl; [exists []; constructor|].
    destruct IH as (fs & Ff); [intros x Ix; apply Hl; right; auto|].
    assert (Ic : In c cs) by (apply Hl; left; auto).
    assert (Wc : wf c) by (eapply valid_wf; eauto). pose proof (lohi c Wc).
    assert (A : cov ds (lo c)).
    { apply E. exists c. rewrite leaves_lohi. split; [auto|lia]. }
    destruct A as (d & Id & Ld). rewrite leaves_lohi in Ld.
    destruct (normalized_contains cs Nc d (Fd d Id)) as (e & Ie & M1 & M2).
    { intros m L. apply E. exists d; auto. }
    assert (c = e).
    { destruct (valid_disjoint cs c e V Ic Ie) as [|[|]]; [auto|lia|lia]. }
    subst e. exists (d :: fs). constructor; auto. }
  destruct (G cs (fun c I => I)) as (fs & Ff).
  assert (LEN : length cs = length fs) by (clear -Ff; induction Ff; cbn; congruence).
  rewrite LEN. apply NoDup_incl_length.
  - clear G Nc E LEN. induction Ff as [|c d l fs (Id & L1 & L2) Ff IH]; constructor.
    + intros I. apply valid_cells_cons in V. destruct V as (W & V & Fc). rewrite Forall_forall in Fc.
      destruct (In_nth_error _ _ I) as [k Ek].
      assert (X : exists c', In c' l /\ lo c' <= lo d).
      { clear -Ff Ek. revert k Ek. induction Ff as [|c' d' l' fs' (Id & L1 & L2) Ff IH]; intros [|k] Ek; cbn in Ek; try discriminate.
        - injection Ek as ->. exists c'. split; [left; auto|auto].
        - destruct (IH k Ek) as (c2 & I2 & L). exists c2. split; [right; auto|auto]. }
      destruct X as (c' & Ic' & L). specialize (Fc c' Ic'). pose proof (lohi d (Fd d Id)). lia.
    + apply IH. apply valid_cells_cons in V. tauto.
  - intros d I. clear -Ff I. induction Ff as [|c d' l fs (Id & _) Ff IH]; [destruct I|].
    destruct I as [<-|I]; auto.
Qed.

Theorem normalize_idempotent cs : normalized_cells cs -> normalize (map code cs) = Some (map code cs).
Proof.
  intros N. destruct (normalize_correct cs) as (ds & E & Nd & C); [apply N|].
  rewrite E. do 2 f_equal. apply canonical; auto.
Qed.
