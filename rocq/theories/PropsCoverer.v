(** Property theorems for the region coverer: C41-C45, C58, C61.

    [tie] is any rule by which the heap breaks ties between equal priorities. *)
From Verif Require Import Base Spec CellIdModel CellIdArith CellIdProofs CellOrder CellUnionModel
  CellUnionProofs CellUnionNormalize CovererModel CovererSpec CovererNormalize CovererProofs.

Lemma valid_ids_cells v : Forall valid_id v -> exists cs, Forall wf cs /\ v = map code cs.
Proof.
  induction 1 as [|x v (c & W & ->) F (cs & Fc & ->)].
  - exists []. auto.
  - exists (c :: cs). auto.
Qed.

Lemma covering_full tie p r R : allowed p -> detects r R -> valid_bound r -> bounds r R ->
  exists ns ds,
    yields (fun fuel => cellunion fuel tie p r) (map code ns) /\
    yields (fun fuel => covering fuel tie p r) (map code ds) /\
    normalized_cells ns /\ valid_cells ds /\
    (forall m, cov ns m <-> cov ds m) /\ (forall m, R m -> cov ds m) /\
    (forall d, In d ds -> level_allowed p (lv d)) /\
    (min_level p = 0 -> len ns <= Z.max (max_cells p) 6 /\ len ds <= Z.max (max_cells p) 6).
Proof.
  intros A D V B. destruct (valid_ids_cells _ V) as (cs & Fc & Ec).
  destruct (cellunion_ok (Env p r false) R A (fun _ => D) cs Ec Fc tie)
    as (N & rs & ns & ds & E & Ac & Nn & Vd & C1 & C2 & C3 & L & K).
  exists ns, ds. split; [|split; [|split; [exact Nn|split; [exact Vd|split; [|split; [|split]]]]]].
  - exists N. intros fuel Hf. apply (E fuel Hf).
  - exists N. intros fuel Hf. destruct (E fuel Hf) as [E1 E2]. unfold covering, cellunion. rewrite E1. exact E2.
  - intros m. rewrite C1, C2. reflexivity.
  - intros m Rm. apply C2, (C3 eq_refl m Rm). apply covered_map; [auto|]. rewrite <- Ec. apply B, Rm.
  - exact L.
  - intros M. apply K. right. exact M.
Qed.

Lemma interior_full tie p r : allowed p -> valid_bound r ->
  exists ns ds,
    yields (fun fuel => interior_cellunion fuel tie p r) (map code ns) /\
    yields (fun fuel => interior_covering fuel tie p r) (map code ds) /\
    normalized_cells ns /\ valid_cells ds /\
    (forall m, cov ns m <-> cov ds m) /\
    (forall R, inside r R -> forall m, cov ds m -> R m) /\
    (forall d, In d ds -> level_allowed p (lv d)) /\
    len ns <= Z.max (max_cells p) 6 /\ len ds <= Z.max (max_cells p) 6.
Proof.
  intros A V. destruct (valid_ids_cells _ V) as (cs & Fc & Ec).
  destruct (cellunion_ok (Env p r true) (fun _ => False) A ltac:(discriminate) cs Ec Fc tie)
    as (N & rs & ns & ds & E & Ac & Nn & Vd & C1 & C2 & C3 & L & K).
  exists ns, ds. split; [|split; [|split; [exact Nn|split; [exact Vd|split; [|split; [|split]]]]]].
  - exists N. intros fuel Hf. apply (E fuel Hf).
  - exists N. intros fuel Hf. destruct (E fuel Hf) as [E1 E2]. unfold interior_covering, interior_cellunion.
    rewrite E1. exact E2.
  - intros m. rewrite C1, C2. reflexivity.
  - intros R I m Cm. apply C2 in Cm. destruct Cm as (d & Id & Ld). rewrite Forall_forall in Ac.
    destruct (Ac d Id) as ([W _] & _ & T). exact (I d W (T eq_refl) m Ld).
  - exact L.
  - apply K. left. reflexivity.
Qed.

(** C41: covering and cellunion cover the region, for all parameters in range,
    every sound region and every tie rule. *)
Theorem C41_covering_covers tie p r R : allowed p -> detects r R -> valid_bound r -> bounds r R ->
  exists ns ds,
    yields (fun fuel => cellunion fuel tie p r) (map code ns) /\ normalized_cells ns /\
    (forall m, R m -> cov ns m) /\
    yields (fun fuel => covering fuel tie p r) (map code ds) /\ valid_cells ds /\
    (forall m, R m -> cov ds m).
Proof.
  intros A D V B. destruct (covering_full tie p r R A D V B) as (ns & ds & H1 & H2 & H3 & H4 & H5 & H6 & _).
  exists ns, ds. split; [exact H1|]. split; [exact H3|]. split; [intros m Rm; apply H5; auto|]. auto.
Qed.

(* A region that is a union of cells, with itself as bound. *)
Definition union_region (cs : list cell) : region :=
  Region (fun x => match intersects_cellid (map code cs) x with Some b => b | None => false end)
         (fun x => match contains_cellid (map code cs) x with Some b => b | None => false end)
         (map code cs).

Lemma union_region_sound cs : normalized_cells cs ->
  detects (union_region cs) (cov cs) /\ inside (union_region cs) (cov cs) /\
  valid_bound (union_region cs) /\ bounds (union_region cs) (cov cs).
Proof.
  intros N. assert (Fw : Forall wf cs) by apply N. split; [|split; [|split]].
  - intros c m W L Cm. cbn [intersects_cell union_region].
    destruct (intersects_cellid_correct cs c (proj1 N) W) as (b & -> & B). apply B.
    apply overlap_leaves; auto. eauto.
  - intros c W H m L. cbn [contains_cell union_region] in H.
    destruct (contains_cellid_normalized cs c N W) as (b & E & B). rewrite E in H. apply B; auto.
  - unfold valid_bound. cbn [union_region cell_union_bound]. rewrite Forall_forall in *. intros x I.
    apply in_map_iff in I. destruct I as (c & <- & Ic). exists c. auto.
  - intros m Cm. cbn [union_region cell_union_bound]. apply covered_map; auto.
Qed.

(* two cells of level 2 on face 0 and one of level 3 on face 1 *)
Definition ex_cells : list cell := [Cell 2 1; Cell 2 7; Cell 3 70].
Example ex_cells_ok : normalized_cells ex_cells.
Proof.
  split.
  - apply valid_cells_iff. split; repeat constructor; vm_compute; congruence.
  - intros (q & W & H). pose proof (H 0 ltac:(lia)) as H0. pose proof (H 1 ltac:(lia)) as H1.
    cbn [ex_cells In] in H0, H1. unfold child in *.
    destruct H0 as [E|[E|[E|[]]]]; injection E as E1 E2; destruct H1 as [F|[F|[F|[]]]]; injection F as F1 F2; lia.
Qed.
Example C41_example :
  allowed (Params 1 5 2 8) /\
  (exists R, detects (union_region ex_cells) R /\ valid_bound (union_region ex_cells) /\
     bounds (union_region ex_cells) R /\ R (4 ^ 28)) /\
  covering 100 (fun _ => 0%nat) (Params 1 5 2 8) (union_region ex_cells)
    = Some (map code [Cell 1 0; Cell 3 28; Cell 3 29; Cell 3 30; Cell 3 31; Cell 3 70]) /\
  covering 100 (fun _ => 0%nat) (Params 0 5 1 2) (union_region ex_cells) = Some (map code [Cell 0 0; Cell 3 70]).
Proof.
  split; [vm_compute; intuition congruence|]. split; [|vm_compute; auto].
  exists (cov ex_cells). destruct (union_region_sound ex_cells ex_cells_ok) as (H1 & H2 & H3 & H4).
  split; [auto|]. split; [auto|]. split; [auto|]. exists (Cell 2 1). split; [left; auto|vm_compute; intuition congruence].
Qed.
Print Assumptions C41_covering_covers.

(** C42: interior coverings stay inside the region. *)
Theorem C42_interior_inside tie p r R : allowed p -> valid_bound r -> inside r R ->
  exists ns ds,
    yields (fun fuel => interior_cellunion fuel tie p r) (map code ns) /\ normalized_cells ns /\
    (forall m, cov ns m -> R m) /\
    yields (fun fuel => interior_covering fuel tie p r) (map code ds) /\ valid_cells ds /\
    (forall m, cov ds m -> R m).
Proof.
  intros A V I. destruct (interior_full tie p r A V) as (ns & ds & H1 & H2 & H3 & H4 & H5 & H6 & _).
  exists ns, ds. split; [exact H1|]. split; [exact H3|]. split; [intros m Cm; apply (H6 R I), H5, Cm|].
  split; [auto|]. split; [auto|]. exact (H6 R I).
Qed.
Example C42_example :
  inside (union_region ex_cells) (cov ex_cells) /\
  interior_covering 100 (fun _ => 0%nat) (Params 1 5 2 8) (union_region ex_cells)
    = Some (map code [Cell 3 4; Cell 3 5; Cell 3 6; Cell 3 28; Cell 3 29; Cell 3 30; Cell 3 31; Cell 3 70]).
Proof. split; [apply (union_region_sound ex_cells ex_cells_ok)|vm_compute; reflexivity]. Qed.
Print Assumptions C42_interior_inside.

(** C43: every cell of a covering or interior covering is on a level the user asked
    for: at least min_level, at most max_level (unless min_level is larger: it
    takes priority), and a multiple of level_mod above min_level.  Without the
    level 30 exception that denormalize alone has. *)
Theorem C43_levels tie p r : allowed p -> valid_bound r ->
  (forall R, detects r R -> bounds r R -> exists ds,
    yields (fun fuel => covering fuel tie p r) (map code ds) /\ Forall wf ds /\
    forall d, In d ds -> level_allowed p (lv d)) /\
  (exists ds,
    yields (fun fuel => interior_covering fuel tie p r) (map code ds) /\ Forall wf ds /\
    forall d, In d ds -> level_allowed p (lv d)).
Proof.
  intros A V. split.
  - intros R D B. destruct (covering_full tie p r R A D V B) as (ns & ds & _ & H2 & _ & H4 & _ & _ & H7 & _).
    exists ds. split; [auto|]. split; [apply H4|auto].
  - destruct (interior_full tie p r A V) as (ns & ds & _ & H2 & _ & H4 & _ & _ & H7 & _).
    exists ds. split; [auto|]. split; [apply H4|auto].
Qed.
Example C43_example :
  level_allowed (Params 1 5 2 8) 3 /\ ~ level_allowed (Params 1 5 2 8) 4 /\ ~ level_allowed (Params 1 5 2 8) 7.
Proof. unfold level_allowed; vm_compute. intuition congruence. Qed.
Print Assumptions C43_levels.

(** C44: the search terminates and never panics, whatever the region answers: no
    soundness of the region is assumed (take [R] empty). *)
Theorem C44_terminates tie p r : allowed p -> valid_bound r ->
  (exists v, yields (fun fuel => covering fuel tie p r) v) /\
  (exists v, yields (fun fuel => interior_covering fuel tie p r) v) /\
  (exists v, yields (fun fuel => cellunion fuel tie p r) v) /\
  (exists v, yields (fun fuel => interior_cellunion fuel tie p r) v).
Proof.
  intros A V.
  destruct (covering_full tie p r (fun _ => False) A) as (ns & ds & H1 & H2 & _); [intros ? ? ? ? []|auto|intros ? []|].
  destruct (interior_full tie p r A V) as (ns' & ds' & H1' & H2' & _). eauto 10.
Qed.
(* a region that claims to intersect every cell and contain none *)
Example C44_example :
  valid_bound (Region (fun _ => true) (fun _ => false) [code (Cell 0 0); code (Cell 2 33)]) /\
  covering 100 (fun _ => 0%nat) (Params 0 30 1 8) (Region (fun _ => true) (fun _ => false) [code (Cell 0 0); code (Cell 2 33)])
  = Some (map code [Cell 0 0; Cell 2 33]).
Proof.
  split; [|vm_compute; reflexivity]. constructor; [|constructor; [|constructor]];
    (eexists; split; [|reflexivity]); vm_compute; intuition congruence.
Qed.
Print Assumptions C44_terminates.

(** C45: fast_covering terminates, covers everything the bound covered, uses only
    allowed levels, and returns a sorted union of disjoint cells. *)
Theorem C45_fast_covering p r : allowed p -> valid_bound r ->
  exists ds, yields (fun fuel => fast_covering fuel p r) (map code ds) /\ valid_cells ds /\
    (forall m, covered (cell_union_bound r) m -> cov ds m) /\
    (forall d, In d ds -> level_allowed p (lv d)) /\
    (min_level p = 0 -> level_mod p = 1 -> len ds <= Z.max (max_cells p) 6).
Proof.
  intros A V. destruct (valid_ids_cells _ V) as (cs & Fc & Ec).
  destruct (normalize_covering_ok p cs A Fc) as (N & ds & E & Vd & C & L & K).
  exists ds. split; [exists N; unfold fast_covering; rewrite Ec; exact E|]. split; [auto|].
  split; [|split; [exact L|exact K]]. intros m H. apply C. rewrite Ec in H. apply covered_map in H; auto.
Qed.
Example C45_example :
  fast_covering 100 (Params 1 5 2 2) (union_region ex_cells) = Some (map code [Cell 1 0; Cell 1 1; Cell 3 70]).
Proof. vm_compute. reflexivity. Qed.
Print Assumptions C45_fast_covering.

(** C61: the number of cells.  An interior covering never has more than max_cells
    cells (or 6, if that is more); the same holds for a covering when min_level
    is 0. *)
Theorem C61_cell_count tie p r : allowed p -> valid_bound r ->
  (exists ns ds,
    yields (fun fuel => interior_cellunion fuel tie p r) (map code ns) /\
    yields (fun fuel => interior_covering fuel tie p r) (map code ds) /\
    len ns <= Z.max (max_cells p) 6 /\ len ds <= Z.max (max_cells p) 6) /\
  (min_level p = 0 -> exists ns ds,
    yields (fun fuel => cellunion fuel tie p r) (map code ns) /\
    yields (fun fuel => covering fuel tie p r) (map code ds) /\
    len ns <= Z.max (max_cells p) 6 /\ len ds <= Z.max (max_cells p) 6).
Proof.
  intros A V. split.
  - destruct (interior_full tie p r A V) as (ns & ds & H1 & H2 & _ & _ & _ & _ & _ & H8 & H9). eauto 10.
  - intros M. destruct (covering_full tie p r (fun _ => False) A) as (ns & ds & H1 & H2 & _ & _ & _ & _ & _ & K);
      [intros ? ? ? ? []|auto|intros ? []|]. destruct (K M). eauto 10.
Qed.
(* six faces although max_cells is 1: the bound 6 is reached *)
Example C61_example :
  covering 100 (fun _ => 0%nat) (Params 0 30 1 1) (union_region (map (Cell 0) [0; 1; 2; 3; 4; 5]))
  = Some (map code (map (Cell 0) [0; 1; 2; 3; 4; 5])).
Proof. vm_compute. reflexivity. Qed.
Print Assumptions C61_cell_count.

Lemma heap_pop_single tie c : heap_pop tie [c] = Some (c, []).
Proof.
  destruct (heap_pop_ok tie [c]) as (c' & l1 & l2 & E & H & _); [discriminate|]. rewrite H.
  destruct l1 as [|x l1]; cbn in E; injection E as -> E.
  - rewrite <- E. reflexivity.
  - destruct l1; discriminate.
Qed.

(* the loop on a queue with one candidate all of whose children are terminal *)
Lemma loop_single tie e res c n res' : interior e = false ->
  (let* l := level (cid c) in
   if (l <? min_level (prm e)) || (len (cchildren c) =? 1)
        || (len res + 0 + len (cchildren c) <=? max_cells (prm e))
   then fold_opt (fun st ch => if true then add_candidate e st ch else Some st) (State res []) (cchildren c)
   else Some (State (cid c :: res) [])) = Some (State res' []) ->
  main_loop (S n) tie e (State res [c]) = Some res'.
Proof.
  intros NI H. rewrite main_loop_eq. cbn [pq]. rewrite heap_pop_single, NI. cbn [andb result negb orb].
  destruct (level (cid c)) as [l|]; [|discriminate]. change (@len cand []) with 0. rewrite H.
  rewrite main_loop_eq. cbn [pq]. rewrite heap_pop_nil. reflexivity.
Qed.

(** C58 (refuted): level_mod = 0 is documented to behave like 1, but the search
    then returns cells below max_level. *)
Theorem C58_level_mod_zero_refuted :
  exists p r, level_mod p = 0 /\ valid_bound r /\ 0 <= min_level p <= max_level p /\ max_level p <= 30 /\
    forall tie,
      covering 100 tie p r = Some [code (Cell 1 0); code (Cell 1 1)] /\ max_level p < 1 /\
      covering 100 tie (Params (min_level p) (max_level p) 1 (max_cells p)) r = Some [code (Cell 0 0)].
Proof.
  exists (Params 0 0 0 8), (union_region [Cell 1 0; Cell 1 1]).
  split; [reflexivity|]. split.
  { constructor; [|constructor; [|constructor]]; (eexists; split; [|reflexivity]); vm_compute; intuition congruence. }
  split; [cbn; lia|]. split; [cbn; lia|]. intros tie. split; [|split; [cbn; lia|]];
    unfold covering, cellunion, covering_internal.
  - set (o := initial_candidates 100 _ _). vm_compute in o. subst o.
    cbv beta iota. change 100%nat with (S 99). erewrite loop_single; [|vm_compute; reflexivity|vm_compute; reflexivity].
    vm_compute. reflexivity.
  - set (o := initial_candidates 100 _ _). vm_compute in o. subst o.
    cbv beta iota. rewrite main_loop_eq. cbn [pq]. rewrite heap_pop_nil. vm_compute. reflexivity.
Qed.
Print Assumptions C58_level_mod_zero_refuted.
