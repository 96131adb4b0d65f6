(** all_neighbors as cells, and expand_at_level. *)
From Coq Require Import Lia ZArith Bool List.
From Verif Require Import Base Spec CellIdModel CellIdArith CellIdProofs CellUnionModel CellUnionNormalize HilbertModel HilbertSpec HilbertProofs HilbertGeom
  NeighborSpec NeighborModel NeighborWrap NeighborGeom NeighborTouch NeighborCorner NeighborProofs NeighborEdges NeighborLists NeighborAll.
Import ListNotations.
Open Scope Z_scope.

Notation at_ij := from_face_ij.
Lemma cells_neighbor_sq c d : wf c -> wf d ->
  cells_neighbor at_ij c d <-> touch (sq c) (sq d) /\ ~ overlap (sq c) (sq d).
Proof.
  intros Wc Wd. split.
  - intros (q & q' & Q & Q' & H). rewrite (square_unique _ _ _ _ Q (sq_correct c Wc)) in H.
    rewrite (square_unique _ _ _ _ Q' (sq_correct d Wd)) in H. exact H.
  - intros H. exists (sq c), (sq d). auto using sq_correct.
Qed.

Lemma all_neighbors_cells c l : wf c -> lv c <= l <= 30 ->
  exists ds, all_neighbors (code c) l = Some (map code ds) /\
    forall d, In d ds <-> wf d /\ lv d = l /\ cells_neighbor at_ij c d.
Proof.
  intros W Hl. pose proof W as [HL _]. destruct (all_neighbors_ok c l W Hl) as [E R].
  destruct (sq_aligned c W) as (A & F & S). assert (Hl' : 0 <= l <= 30) by lia. destruct (side_NN l Hl') as [Hs Dn].
  assert (D : (side l | sq_side (sq c))) by (rewrite S; apply side_divides; lia).
  assert (HsS : side l <= sq_side (sq c)) by (apply Z.divide_pos_le; auto; apply A).
  exists (map (fun p => cellsq l (resolve (face_of c) (fst p) (snd p) (side l))) (all_pos (sq c) (side l))).
  split; [rewrite E, map_map; reflexivity|]. intros d. rewrite in_map_iff.
  pose proof (face_of_range c W) as Hf. pose proof A as (_ & _ & _ & _ & B1 & B2 & B3 & B4). change (2 ^ 30) with NN in *.
  assert (X : forall x y, ring (sq c) (side l) x y -> (side l | x) -> (side l | y) -> ext (side l) x /\ ext (side l) y).
  { intros x y (R1 & R2 & _) Dx Dy. split; apply divide_ext; auto; lia. }
  split.
  - intros ([x y] & <- & I). cbn [fst snd]. apply R in I. destruct I as (Rg & Dx & Dy).
    destruct (X x y Rg Dx Dy) as [Ex Ey].
    destruct (resolve_aligned (face_of c) x y (side l) Hf Hs Dn Dx Dy Ex Ey) as [A' S'].
    destruct (cellsq_ok l _ Hl' A' S') as (W' & L' & Q'). split; [exact W'|]. split; [exact L'|].
    apply cells_neighbor_sq; auto. rewrite Q'. rewrite <- F. apply (ring_touch (sq c) A (side l) (conj (proj1 Hs) HsS)); auto.
  - intros (Wd & Ld & N). apply cells_neighbor_sq in N; auto. destruct N as [T O].
    destruct (sq_aligned d Wd) as (Ad & Fd & Sd). rewrite Ld in Sd.
    destruct (touch_ring (sq c) A (side l) (conj (proj1 Hs) HsS) (sq d) Ad Sd T O) as (x & y & Rg & Q & O' & Xx & Xy).
    exists (x, y). cbn [fst snd]. rewrite <- F, <- Q. split; [rewrite <- Ld; apply cellsq_sq; auto|].
    apply R. split; [exact Rg|].
    (* the square of d is aligned, hence so is its position *)
    destruct (multiples (side l) (sq c)) as (D1 & D2 & D3 & D4 & D5 & D6 & E1 & E2 & E3 & E4 & E5 & E6); auto; try lia.
    destruct Ad as (_ & _ & Di & Dj & Ad). rewrite Sd in Di, Dj.
    assert (DN : (side l | NN - side l)) by (apply Z.divide_sub_r; auto using Z.divide_refl).
    assert (DU : forall z, (side l | NN - side l - z) -> (side l | z)).
    { intros z Hz. replace z with (NN - side l - (NN - side l - z)) by lia. apply Z.divide_sub_r; auto. }
    destruct Rg as (R1 & R2 & R3).
    assert (Cx : 0 <= x <= NN - side l \/ (x = sq_i (sq c) - side l /\ x < 0) \/ (x = sq_i (sq c) + sq_side (sq c) /\ NN <= x)).
    { clear E1 E2 E3 E4 E5 E6 X R; unfold ext in *; lia. }
    assert (Cy : 0 <= y <= NN - side l \/ (y = sq_j (sq c) - side l /\ y < 0) \/ (y = sq_j (sq c) + sq_side (sq c) /\ NN <= y)).
    { clear E1 E2 E3 E4 E5 E6 X R; unfold ext in *; lia. }
    destruct Cx as [Cx|Cx], Cy as [Cy|Cy]; [| | |lia].
    + rewrite resolve_in in Q by lia. rewrite Q in Di, Dj. sqs. auto.
    + rewrite resolve_y in Q by lia. assert (Dy : (side l | y)) by (destruct Cy as [[-> _]|[-> _]]; auto). split; [|exact Dy].
      rewrite Q in Di, Dj. unfold crossy in *. destruct (Z.even _), (y <? 0); sqs; auto.
    + rewrite resolve_x in Q by lia. assert (Dx : (side l | x)) by (destruct Cx as [[-> _]|[-> _]]; auto). split; [exact Dx|].
      rewrite Q in Di, Dj. unfold crossx in *. destruct (Z.even _), (x <? 0); sqs; auto.
Qed.

(* what a cell grows into at level k *)
Definition coarse (k : Z) (x : cell) : cell := if k <? lv x then anc k x else x.
Definition grown (k : Z) (x : cell) (m : Z) : Prop :=
  leaves (coarse k x) m \/ exists d, wf d /\ lv d = k /\ cells_neighbor at_ij (coarse k x) d /\ leaves d m.

Lemma drop_ok k id rest : wf id -> lv id = k -> Forall wf rest ->
  exists dropped kept, rest = dropped ++ kept /\ drop_contained (code id) (map code rest) = Some (map code kept) /\
    Forall (fun y => coarse k y = id) dropped.
Proof.
  intros W L. induction rest as [|y tl IH]; intros F.
  - exists [], []. auto.
  - inversion F as [|? ? Wy Ftl]; subst. destruct (IH Ftl) as (dr & kp & E1 & E2 & E3). cbn [map drop_contained].
    destruct (contains_code id y W Wy) as (b & -> & Hb). destruct b.
    + exists (y :: dr), kp. cbn. split; [f_equal; exact E1|]. split; [exact E2|]. constructor; [|exact E3].
      destruct (proj1 Hb eq_refl) as [Hl Ha]. unfold coarse. destruct (Z.ltb_spec (lv id) (lv y)); [exact Ha|].
      assert (lv id = lv y) as HL by lia. rewrite HL, anc_self in Ha. exact Ha.
    + exists [], (y :: tl). auto.
Qed.

Lemma expand_loop_ok k n : 0 <= k <= 30 -> forall rest, Forall wf rest -> (length rest <= n)%nat ->
  exists out, expand_loop n k (4 ^ (30 - k)) (map code rest) = Some (map code out) /\ Forall wf out /\
    forall m, cov out m <-> exists x, In x rest /\ grown k x m.
Proof.
  intros Hk. induction n as [|n IH]; intros rest F Hn.
  - destruct rest; [|cbn in Hn; lia]. exists []. split; [reflexivity|]. split; [constructor|].
    intros m. split; [intros (c & [] & _)|intros (c & [] & _)].
  - destruct rest as [|x tl].
    { exists []. split; [reflexivity|]. split; [constructor|]. intros m. split; [intros (c & [] & _)|intros (c & [] & _)]. }
    inversion F as [|? ? Wx Ft]; subst. cbn [map expand_loop]. rewrite lsb_code by auto.
    assert (C : exists id tl', wf id /\ lv id <= k /\ coarse k x = id /\ Forall wf tl' /\ (length tl' <= length tl)%nat /\
       (forall m, (exists y, In y tl /\ grown k y m) \/ grown k x m <-> (exists y, In y tl' /\ grown k y m) \/ grown k x m) /\
       (if 4 ^ (30 - lv x) <? 4 ^ (30 - k) then
               let* id := parent (code x) k in
               let* tl := drop_contained id (map code tl) in Some (id, tl)
             else Some (code x, map code tl)) = Some (code id, map code tl')).
    { destruct (Z.ltb_spec k (lv x)) as [K|K].
      - assert (Wa : wf (anc k x)) by (apply wf_anc; auto; lia).
        destruct (drop_ok k (anc k x) tl Wa eq_refl Ft) as (dr & kp & E1 & E2 & E3).
        exists (anc k x), kp. split; [exact Wa|]. split; [cbn; lia|].
        assert (Cx : coarse k x = anc k x) by (unfold coarse; destruct (Z.ltb_spec k (lv x)); [reflexivity|lia]).
        split; [exact Cx|]. rewrite E1 in Ft. apply Forall_app in Ft. split; [tauto|].
        split; [rewrite E1, app_length; lia|]. split.
        + intros m. rewrite E1. split; [|intros [(y & I & G)|G]; [left; exists y; split; [apply in_or_app; auto|auto]|auto]].
          intros [(y & I & G)|G]; [|auto]. apply in_app_or in I. destruct I as [I|I]; [right|left; exists y; auto].
          rewrite Forall_forall in E3. specialize (E3 y I). unfold grown in *. rewrite E3 in G. rewrite Cx. exact G.
        + pose proof Wx as [Lx _]. assert (4 ^ (30 - lv x) < 4 ^ (30 - k)) by (apply Z.pow_lt_mono_r; lia).
          destruct (Z.ltb_spec (4 ^ (30 - lv x)) (4 ^ (30 - k))); [|lia].
          rewrite parent_code by (auto; lia). rewrite E2. reflexivity.
      - exists x, tl. split; [exact Wx|]. split; [lia|]. split; [unfold coarse; destruct (Z.ltb_spec k (lv x)); [lia|reflexivity]|].
        split; [exact Ft|]. split; [lia|]. split; [tauto|].
        pose proof Wx as [Lx _]. assert (4 ^ (30 - k) <= 4 ^ (30 - lv x)) by (apply Z.pow_le_mono_r; lia).
        destruct (Z.ltb_spec (4 ^ (30 - lv x)) (4 ^ (30 - k))); [lia|reflexivity]. }
    destruct C as (id & tl' & Wi & Li & Cx & Ft' & Ln & G & ->). cbv beta iota.
    destruct (all_neighbors_cells id k Wi ltac:(lia)) as (ds & -> & Hd).
    destruct (IH tl' Ft') as (out & -> & Fo & Ho). { cbn in Hn. lia. }
    exists ((id :: ds) ++ out). split; [rewrite map_app; reflexivity|]. split.
    { apply Forall_app. split; [|exact Fo]. constructor; [exact Wi|]. apply Forall_forall. intros d I. apply Hd in I. tauto. }
    intros m.
    transitivity ((exists y, In y tl' /\ grown k y m) \/ grown k x m).
    + rewrite <- Ho. unfold grown. rewrite Cx. unfold cov. split.
      * intros (c & I & Lm). apply in_app_or in I. destruct I as [[<-|I]|I]; [auto| |left; exists c; auto].
        right; right. exists c. apply Hd in I. tauto.
      * intros [(c & I & Lm)|[Lm|(d & Wd & Ld & N & Lm)]].
        -- exists c. split; [apply in_or_app; auto|exact Lm].
        -- exists id. split; [left; reflexivity|exact Lm].
        -- exists d. split; [|exact Lm]. apply in_or_app. left. right. apply Hd. auto.
    + rewrite <- G. split.
      * intros [(y & I & Gy)|Gx]; [exists y; split; [right; exact I|exact Gy]|exists x; split; [left; reflexivity|exact Gx]].
      * intros (y & [<-|I] & Gy); [right; exact Gy|left; exists y; auto].
Qed.

Lemma expand_ok cs k : Forall wf cs -> 0 <= k <= 30 ->
  exists ds, expand_at_level (map code cs) k = Some (map code ds) /\ normalized_cells ds /\
    forall m, cov ds m <-> exists x, In x cs /\ grown k x m.
Proof.
  intros F Hk. unfold expand_at_level. rewrite lsb_for_level_ok by auto. rewrite <- map_rev.
  destruct (expand_loop_ok k (length (map code cs)) Hk (rev cs)) as (out & -> & Fo & Ho).
  { apply Forall_rev; auto. } { rewrite rev_length, map_length. lia. }
  destruct (normalize_correct out Fo) as (ds & E & N & C). exists ds. split; [exact E|]. split; [exact N|].
  intros m. rewrite (C m), Ho. split; intros (x & I & G); exists x; (split; [|exact G]); apply in_rev; auto.
  rewrite rev_involutive. exact I.
Qed.
