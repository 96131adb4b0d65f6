(** Property theorems for neighbours: C24, C25, C26, C40. *)
From Coq Require Import Lia.
From Verif Require Import Base Spec CellIdModel CellIdArith CellIdProofs CellUnionModel HilbertModel HilbertSpec HilbertProofs HilbertGeom
  NeighborSpec NeighborModel NeighborWrap NeighborGeom NeighborTouch NeighborCorner NeighborProofs NeighborEdges NeighborLists
  NeighborAll NeighborExpand.

(** C24: edge_neighbors returns four distinct cells of the same level, across the
    down, right, up and left edges in this order; they are exactly the cells of this
    level that share an edge with the cell; and the relation is symmetric. *)
Theorem C24_edge_neighbors : forall c q, wf c -> is_square_of from_face_ij c q ->
  exists d0 d1 d2 d3,
    edge_neighbors (code c) = Some (map code [d0; d1; d2; d3]) /\
    NoDup [d0; d1; d2; d3] /\
    Forall (fun d => wf d /\ lv d = lv c /\ d <> c) [d0; d1; d2; d3] /\
    (forall k d, nth_error [d0; d1; d2; d3] (Z.to_nat k) = Some d -> 0 <= k < 4 ->
       exists q', is_square_of from_face_ij d q' /\ edge_of q' (fst (edge_k k q)) (snd (edge_k k q))) /\
    (forall d, wf d -> lv d = lv c -> d <> c ->
       (cells_share_edge from_face_ij c d <-> In d [d0; d1; d2; d3])) /\
    (forall d, wf d -> (In d [d0; d1; d2; d3] <->
       exists l, edge_neighbors (code d) = Some (map code l) /\ In c l /\ Forall wf l)).
Proof.
  intros c q W Q. rewrite (square_unique _ _ _ _ Q (sq_correct c W)). clear q Q.
  set (G := fun c => map (cellsq (lv c)) (edge_squares (sq c))).
  assert (K : forall c, wf c ->
    aligned (sq c) /\ (sq_side (sq c) | NN) /\
    (forall d, In d (G c) -> wf d /\ lv d = lv c /\ d <> c /\ In (sq d) (edge_squares (sq c))) /\
    (forall d, wf d -> lv d = lv c -> d <> c -> (share_edge (sq c) (sq d) <-> In d (G c)))).
  { intros e We. destruct (sq_aligned e We) as (A & F & S). pose proof We as [HL _]. destruct (side_NN _ HL) as [Hs Dn].
    assert (Dn' : (sq_side (sq e) | NN)) by (rewrite S; exact Dn).
    split; [exact A|]. split; [exact Dn'|].
    assert (J : forall d, In d (G e) -> wf d /\ lv d = lv e /\ d <> e /\ In (sq d) (edge_squares (sq e))).
    { intros d I. apply in_map_iff in I. destruct I as (q' & <- & I).
      destruct (edge_squares_aligned (sq e) A Dn' q' I) as [A' S']. rewrite S in S'.
      destruct (cellsq_ok (lv e) q' HL A' S') as (W' & L' & Q'). split; [exact W'|]. split; [exact L'|].
      rewrite Q'. split; [|exact I]. intros E. rewrite E in Q'. subst q'. 
      apply (proj2 (edge_squares_NoDup (sq e) A Dn')). exact I. }
    split; [exact J|]. intros d Wd Ld Nd. destruct (sq_aligned d Wd) as (Ad & Fd & Sd).
    assert (ND : sq d <> sq e) by (intros E; apply Nd; apply sq_inj; auto).
    rewrite (share_edge_class (sq e) A Dn' (sq d) Ad ltac:(congruence) ND). split.
    - intros I. apply in_map_iff. exists (sq d). split; [|exact I]. rewrite <- Ld. apply cellsq_sq; auto.
    - intros I. apply J in I. tauto. }
  destruct (K c W) as (A & Dn & J & C).
  destruct (edge_squares_NoDup (sq c) A Dn) as [ND _].
  assert (NG : NoDup (G c)).
  { assert (L : forall l, NoDup l -> incl l (edge_squares (sq c)) -> NoDup (map (cellsq (lv c)) l)).
    { induction l as [|x l IH]; intros N I; [constructor|]. inversion N; subst. cbn [map]. constructor; [|apply IH; auto; intros z Hz; apply I; right; auto].
      intros Hin. apply in_map_iff in Hin. destruct Hin as (y & E & Hy). pose proof W as [HL _].
      destruct (edge_squares_aligned (sq c) A Dn x (I x (or_introl eq_refl))) as [Ax Sx].
      destruct (edge_squares_aligned (sq c) A Dn y (I y (or_intror Hy))) as [Ay Sy].
      destruct (sq_aligned c W) as (_ & _ & S). rewrite S in *.
      destruct (cellsq_ok (lv c) x HL Ax Sx) as (_ & _ & Qx). destruct (cellsq_ok (lv c) y HL Ay Sy) as (_ & _ & Qy).
      congruence. }
    apply L; auto. apply incl_refl. }
  pose (p := sq c). pose (g x y := cellsq (lv c) (sqn p x y)).
  exists (g (sq_i p) (sq_j p - sq_side p)), (g (sq_i p + sq_side p) (sq_j p)),
    (g (sq_i p) (sq_j p + sq_side p)), (g (sq_i p - sq_side p) (sq_j p)).
  match goal with |- context [NoDup ?l] => change l with (G c) end.
  split; [apply edge_neighbors_ok; auto|]. split; [exact NG|].
  split; [apply Forall_forall; intros d I; apply J in I; tauto|].
  split.
  { intros k d N Hk. exists (sq d). assert (In d (G c)) as I by (eapply nth_error_In; eauto). apply J in I.
    split; [apply sq_correct; tauto|]. apply edge_k_shared; auto. unfold G in N. rewrite nth_error_map in N.
    destruct (nth_error (edge_squares (sq c)) (Z.to_nat k)) as [q'|] eqn:EN; [|discriminate]. cbn in N. injection N as <-.
    f_equal. symmetry. assert (In q' (edge_squares (sq c))) as Iq by (eapply nth_error_In; eauto).
    destruct (edge_squares_aligned (sq c) A Dn q' Iq) as [A' S']. destruct (sq_aligned c W) as (_ & _ & S).
    pose proof W as [HL _]. apply (cellsq_ok (lv c) q' HL A'). congruence. }
  assert (Sh : forall c d, wf c -> wf d -> (cells_share_edge from_face_ij c d <-> share_edge (sq c) (sq d))).
  { intros e d We Wd. split.
    - intros (x & y & X & Y & H). rewrite (square_unique _ _ _ _ X (sq_correct e We)) in H.
      rewrite (square_unique _ _ _ _ Y (sq_correct d Wd)) in H. exact H.
    - intros H. exists (sq e), (sq d). auto using sq_correct. }
  split; [intros d Wd Ld Nd; rewrite Sh by auto; apply C; auto|].
  assert (Sym : forall a b, share_edge a b -> share_edge b a) by (intros a b (P & R & X & Y); exists P, R; auto).
  intros d Wd. split.
  - intros I. pose proof (J d I) as (_ & Ld & Nd & _). exists (G d). split; [apply edge_neighbors_ok; auto|].
    destruct (K d Wd) as (_ & _ & Jd & Cd). split; [|apply Forall_forall; intros x Hx; apply Jd in Hx; tauto].
    apply Cd; auto. apply Sym. apply C; auto.
  - intros (l & E & I & Fl). rewrite (edge_neighbors_ok d Wd) in E.
    assert (E' : map code (G d) = map code l) by (unfold G; congruence).
    destruct (K d Wd) as (_ & _ & Jd & Cd).
    assert (Id : In c (G d)).
    { assert (In (code c) (map code (G d))) as Ic by (rewrite E'; apply in_map; exact I).
      apply in_map_iff in Ic. destruct Ic as (c' & Ec & Ic). pose proof (Jd c' Ic) as (Wc' & _).
      apply code_inj in Ec; auto. subst. exact Ic. }
    pose proof (Jd c Id) as (_ & Lc & Nc & _). apply C; auto. apply Sym. apply Cd; auto.
Qed.
(* the left and lower neighbours of a corner cell are on two other faces *)
Example C24_example :
  edge_neighbors (code (Cell 2 0)) = Some (map code [Cell 2 95; Cell 2 1; Cell 2 3; Cell 2 74]) /\
  map face_of [Cell 2 95; Cell 2 1; Cell 2 3; Cell 2 74] = [5; 0; 0; 4].
Proof. vm_compute. auto. Qed.
Print Assumptions C24_edge_neighbors.

(** C25: for a level k above the cell's, let V be the corner of the cell's level-k
    ancestor that is closest to the cell.  vertex_neighbors(k) returns this ancestor
    first, and altogether exactly the level-k cells with V as a corner, each once:
    three of them if V is a vertex of the cube and four otherwise. *)
Theorem C25_vertex_neighbors : forall c k q p, wf c -> 0 <= k < lv c ->
  is_square_of from_face_ij c q -> is_square_of from_face_ij (anc k c) p ->
  exists V, closest_corner p q V /\ (forall V', closest_corner p q V' -> V' = V) /\
  exists ds, vertex_neighbors (code c) k = Some (map code ds) /\
    NoDup ds /\ hd_error ds = Some (anc k c) /\
    (forall d, In d ds <-> wf d /\ lv d = k /\ cell_corner from_face_ij d V) /\
    (cube_vertex V -> length ds = 3%nat) /\ (~ cube_vertex V -> length ds = 4%nat).
Proof.
  intros c k q p W Hk Q P. assert (Wa : wf (anc k c)) by (apply wf_anc; auto; lia).
  rewrite (square_unique _ _ _ _ Q (sq_correct c W)), (square_unique _ _ _ _ P (sq_correct _ Wa)). clear q p Q P.
  rewrite vertex_neighbors_ok by auto. pose proof W as [HL _].
  destruct (sq_aligned _ Wa) as (A & F & S). cbn [lv anc] in S. destruct (sq_aligned c W) as (Ac & Fc & Sc).
  set (p := sq (anc k c)) in *. set (q := sq c) in *.
  assert (Hk' : 0 <= k <= 30) by lia. destruct (side_NN k Hk') as [Hs Dn].
  assert (S2 : sq_side p = 2 * side (k + 1)) by (rewrite S; unfold side; replace (30 - k) with (30 - (k + 1) + 1) by lia; rewrite Z.pow_add_r by lia; lia).
  assert (Hh : sq_side p / 2 = side (k + 1)) by (rewrite S2, Z.mul_comm; apply Z.div_mul; lia).
  assert (Dc : (sq_side q | side (k + 1))) by (rewrite Sc; apply side_divides; lia).
  assert (Hq : 0 < sq_side q <= side (k + 1)).
  { split; [apply Ac|]. apply Z.divide_pos_le; auto. lia. }
  (* the cell lies in the ancestor, in one half in each direction *)
  destruct (face_ij_cell c W) as (i & j & E & I & Hi & Hj & _). change (2 ^ 30) with NN in *.
  pose proof (sq_anc_in c k _ i j W ltac:(lia) (face_of_range c W) Hi Hj I) as Ip. fold p in Ip. fold q in I.
  pose proof Ac as (_ & _ & Dci & Dcj & _).
  pose proof A as (Hf & _ & Dpi & Dpj & B1 & B2 & B3 & B4). change (2 ^ 30) with NN in *.
  assert (Half : forall a x y, (sq_side q | a) -> a <= x < a + sq_side q -> (sq_side p | y) -> y <= x < y + sq_side p ->
     if upper a y p then y + side (k + 1) <= a /\ a + sq_side q <= y + sq_side p else y <= a /\ a + sq_side q <= y + side (k + 1)).
  { intros a x y Da Ha Dy Hy. unfold upper. rewrite Hh.
    assert (Dqp : (sq_side q | sq_side p)) by (rewrite S2; apply Z.divide_mul_r; exact Dc).
    assert (Dy' : (sq_side q | y)) by (apply (Z.divide_trans _ (sq_side p)); auto).
    assert (M : forall v, (sq_side q | v) -> v <= x -> v <= a).
    { intros v Dv Hv. pose proof (mult_le (sq_side q) a v x (proj1 Hq) Da Dv Ha) as M.
      apply Z.leb_le. rewrite <- M. apply Z.leb_le. exact Hv. }
    assert (M' : forall v, (sq_side q | v) -> x < v -> a + sq_side q <= v).
    { intros v Dv Hv. clear - Da Dv Hv Ha Hq. destruct Da as [m Hm], Dv as [n Hn]. rewrite Hm, Hn in *.
      assert (m < n) by (apply (Z.mul_lt_mono_pos_r (sq_side q)); lia). nia. }
    destruct (Z.leb_spec (y + side (k + 1)) a) as [K|K].
    - split; [exact K|]. apply M'; [apply Z.divide_add_r; auto|lia].
    - split; [apply M; [exact Dy'|lia]|]. apply M'; [apply Z.divide_add_r; auto|].
      destruct (Z.lt_ge_cases x (y + side (k + 1))) as [X|X]; [exact X|].
      apply M in X; [lia|]. apply Z.divide_add_r; auto. }
  destruct I as (_ & Ii & Ij). destruct Ip as (_ & Pi & Pj).
  pose proof (Half (sq_i q) i (sq_i p) Dci Ii Dpi Pi) as Hi'. pose proof (Half (sq_j q) j (sq_j p) Dcj Ij Dpj Pj) as Hj'.
  clear Half i j E Hi Hj Ii Ij Pi Pj.
  set (ui := upper (sq_i q) (sq_i p) p) in *. set (uj := upper (sq_j q) (sq_j p) p) in *.
  set (vi := if ui then sq_i p + sq_side p else sq_i p). set (vj := if uj then sq_j p + sq_side p else sq_j p).
  exists (cube_point (sq_face p) vi vj).
  assert (Rvi : 0 <= vi <= NN) by (unfold vi; destruct ui; lia). assert (Rvj : 0 <= vj <= NN) by (unfold vj; destruct uj; lia).
  split; [|split].
  - exists vi, vj. split; [reflexivity|]. cbn [In]. unfold vi, vj.
    split; [destruct ui; auto|]. split; [destruct uj; auto|].
    split; intros w Hw; [destruct ui|destruct uj]; lia.
  - intros V' (wi & wj & -> & Iwi & Iwj & Ni & Nj). cbn [In] in *.
    specialize (Ni vi ltac:(unfold vi; destruct ui; auto)). specialize (Nj vj ltac:(unfold vj; destruct uj; auto)).
    f_equal; [unfold vi in *; destruct ui; lia|unfold vj in *; destruct uj; lia].
  - set (L := vertex_squares p ui uj).
    exists (map (cellsq k) L). split; [reflexivity|].
    assert (Dn' : (sq_side p | NN)) by (rewrite S; exact Dn).
    destruct (multiples (sq_side p) p) as (D1 & D2 & D3 & D4 & D5 & D6 & E1 & E2 & E3 & E4 & E5 & E6); auto; try lia.
    { apply Z.divide_refl. }
    set (x := step ui (sq_i p) (sq_side p)). set (y := step uj (sq_j p) (sq_side p)).
    assert (Ex : ext (sq_side p) x /\ (sq_side p | x)) by (unfold x, step; destruct ui; auto).
    assert (Ey : ext (sq_side p) y /\ (sq_side p | y)) by (unfold y, step; destruct uj; auto).
    destruct Ex as [Ex Dx]. destruct Ey as [Ey Dy].
    assert (Ni : inr (sq_side p) (sq_i p)) by (unfold inr; lia). assert (Nj : inr (sq_side p) (sq_j p)) by (unfold inr; lia).
    assert (XY : forall a b, around p vi vj a b <-> (a = sq_i p \/ a = x) /\ (b = sq_j p \/ b = y) /\ (inr (sq_side p) a \/ inr (sq_side p) b)).
    { intros a b. unfold around.
      assert (a = vi - sq_side p \/ a = vi <-> a = sq_i p \/ a = x) as -> by (unfold vi, x, step; destruct ui; lia).
      assert (b = vj - sq_side p \/ b = vj <-> b = sq_j p \/ b = y) as -> by (unfold vj, y, step; destruct uj; lia).
      reflexivity. }
    (* the squares of the list *)
    assert (LI : forall r, In r L <-> exists a b, around p vi vj a b /\ r = sqn p a b).
    { intros r. unfold L, vertex_squares. fold x. fold y. rewrite in_app_iff. split.
      - intros [I|I].
        + rewrite <- (self_square p A Dn') in I at 1. cbn [In] in I.
          destruct I as [<-|[<-|[<-|[]]]]; eexists _, _; (split; [apply XY; split; [|split]|reflexivity]); auto.
        + destruct (inrb (sq_side p) x || inrb (sq_side p) y) eqn:O; [|contradiction]. apply orb_true_iff in O. rewrite !inrb_ok in O.
          destruct I as [<-|[]]. exists x, y. split; [apply XY; auto|reflexivity].
      - intros (a & b & R & ->). apply XY in R. destruct R as ([-> | ->] & [-> | ->] & O).
        + left. left. symmetry. apply self_square; auto.
        + left. right. right. left. reflexivity.
        + left. right. left. reflexivity.
        + right. assert (inrb (sq_side p) x || inrb (sq_side p) y = true) as -> by (apply orb_true_iff; rewrite !inrb_ok; exact O).
          left. reflexivity. }
    assert (AR : forall a b, around p vi vj a b -> ext (sq_side p) a /\ ext (sq_side p) b /\ (sq_side p | a) /\ (sq_side p | b) /\ (inr (sq_side p) a \/ inr (sq_side p) b)).
    { intros a b R. apply XY in R. destruct R as ([-> | ->] & [-> | ->] & O); auto. }
    assert (LA : forall r, In r L -> aligned r /\ sq_side r = side k).
    { intros r I. apply LI in I. destruct I as (a & b & R & ->). apply AR in R. rewrite <- S.
      unfold sqn. apply resolve_aligned; try tauto. lia. }
    assert (Inj : forall a b a' b', around p vi vj a b -> around p vi vj a' b' -> sqn p a b = sqn p a' b' -> a = a' /\ b = b').
    { intros a b a' b' R R' E. apply AR in R, R'. unfold sqn in E. apply (resolve_inj (sq_face p) a b a' b' (sq_side p)); try tauto. lia. }
    assert (NI : x <> sq_i p) by (unfold x, step; destruct ui; lia). assert (NJ : y <> sq_j p) by (unfold y, step; destruct uj; lia).
    assert (ND : NoDup L).
    { unfold L, vertex_squares. fold x. fold y. rewrite <- (self_square p A Dn') at 1.
      assert (R0 : around p vi vj (sq_i p) (sq_j p)) by (apply XY; auto).
      assert (R1 : around p vi vj x (sq_j p)) by (apply XY; auto). assert (R2 : around p vi vj (sq_i p) y) by (apply XY; auto).
      destruct (inrb (sq_side p) x || inrb (sq_side p) y) eqn:O.
      - apply orb_true_iff in O. rewrite !inrb_ok in O. assert (R3 : around p vi vj x y) by (apply XY; auto).
        cbn [app]. repeat constructor; cbn [In]; intros H; repeat match goal with H : _ \/ _ |- _ => destruct H as [H|H] end; try tauto;
        apply Inj in H; auto; lia.
      - cbn [app]. repeat constructor; cbn [In]; intros H; repeat match goal with H : _ \/ _ |- _ => destruct H as [H|H] end; try tauto;
        apply Inj in H; auto; lia. }
    split.
    { assert (Lm : forall l, NoDup l -> incl l L -> NoDup (map (cellsq k) l)).
      { induction l as [|r l IH]; intros N I; [constructor|]. inversion N; subst. cbn [map]. constructor; [|apply IH; auto; intros z Hz; apply I; right; auto].
        intros Hin. apply in_map_iff in Hin. destruct Hin as (r' & E & Hy).
        destruct (LA r (I r (or_introl eq_refl))) as [Ar Sr]. destruct (LA r' (I r' (or_intror Hy))) as [Ar' Sr'].
        destruct (cellsq_ok k r Hk' Ar Sr) as (_ & _ & Qx). destruct (cellsq_ok k r' Hk' Ar' Sr') as (_ & _ & Qy). congruence. }
      apply Lm; auto. apply incl_refl. }
    split; [cbn; f_equal; exact (cellsq_sq (anc k c) Wa)|].
    split.
    { intros d. rewrite in_map_iff. split.
      - intros (r & <- & I). destruct (LA r I) as [Ar Sr]. destruct (cellsq_ok k r Hk' Ar Sr) as (Wr & Lr & Qr).
        split; [exact Wr|]. split; [exact Lr|]. exists r. split; [rewrite <- Qr at 2; apply sq_correct; exact Wr|].
        apply (corner_class p A vi vj r Ar ltac:(congruence) Rvi Rvj). apply LI in I. destruct I as (a & b & R & ->).
        exists a, b. pose proof (AR a b R). tauto.
      - intros (Wd & Ld & (r & Qr & Cr)). rewrite (square_unique _ _ _ _ Qr (sq_correct d Wd)) in Cr. clear r Qr.
        destruct (sq_aligned d Wd) as (Ad & _ & Sd). rewrite Ld in Sd.
        apply (corner_class p A vi vj (sq d) Ad ltac:(congruence) Rvi Rvj) in Cr. destruct Cr as (a & b & R & _ & _ & Er).
        exists (sq d). split; [rewrite <- Ld; apply cellsq_sq; auto|]. apply LI. exists a, b. split; [exact R|exact Er]. }
    assert (CV : cube_vertex (cube_point (sq_face p) vi vj) <-> inrb (sq_side p) x || inrb (sq_side p) y = false).
    { rewrite (cube_vertex_iff (sq_face p) vi vj Hf Rvi Rvj). rewrite orb_false_iff.
      assert (T : forall b z, inrb b z = false <-> ~ inr b z) by (intros b z; rewrite <- inrb_ok; destruct (inrb b z); intuition congruence).
      rewrite !T. unfold ext in Ex, Ey. unfold inr. unfold vi, vj, x, y, step in *. destruct ui, uj; lia. }
    rewrite map_length. unfold L, vertex_squares. fold x. fold y.
    split; intros V.
    + apply CV in V. rewrite V. reflexivity.
    + destruct (inrb (sq_side p) x || inrb (sq_side p) y); [reflexivity|]. exfalso. apply V, CV. reflexivity.
Qed.
(* a leaf next to a vertex of the cube, and one next to the centre of a face *)
Example C25_example :
  vertex_neighbors (code (leaf 0)) 2 = Some (map code [Cell 2 0; Cell 2 74; Cell 2 95]) /\
  vertex_neighbors (code (leaf (2 * 4 ^ 29))) 2 = Some (map code [Cell 2 8; Cell 2 7; Cell 2 13; Cell 2 2]) /\
  cube_vertex (cube_point 0 0 0) /\ ~ cube_vertex (cube_point 0 (2 ^ 29) (2 ^ 29)).
Proof. vm_compute. intuition congruence. Qed.
(* at level 30 the function panics, because size_ij(31) underflows *)
Theorem C25_vertex_neighbors_level_30 : forall c, vertex_neighbors (code c) 30 = None.
Proof. intros c. reflexivity. Qed.
Print Assumptions C25_vertex_neighbors.
Print Assumptions C25_vertex_neighbors_level_30.

(** C26: for a level l at or below the cell's, all_neighbors(l) returns exactly the
    level-l cells whose boundary meets the cell's but whose interior does not. *)
Theorem C26_all_neighbors : forall c l, wf c -> lv c <= l <= 30 ->
  exists ds, all_neighbors (code c) l = Some (map code ds) /\
    forall d, In d ds <-> wf d /\ lv d = l /\ cells_neighbor from_face_ij c d.
Proof. exact all_neighbors_cells. Qed.
(* a corner cell of face 0: one neighbour is repeated, across a vertex of the cube *)
Example C26_example :
  wf (Cell 1 0) /\
  all_neighbors (code (Cell 1 0)) 1 = Some (map code
    [Cell 1 18; Cell 1 22; Cell 1 23; Cell 1 1; Cell 1 18; Cell 1 3; Cell 1 17; Cell 1 2]) /\
  all_neighbors (code (Cell 0 3)) 2 = Some (map (fun i => code (Cell 2 i))
    [26; 21; 26; 64; 47; 85; 25; 65; 44; 84; 22; 78; 43; 83; 21; 79; 42; 80; 64; 79]).
Proof. vm_compute. intuition congruence. Qed.
Print Assumptions C26_all_neighbors.

(** C40: expand_at_level(k) of any list of valid ids is a normalized union that covers
    exactly: every cell of the list (a cell smaller than level k counting as its
    level-k ancestor), and every level-k cell that is a neighbour of one of these. *)
Theorem C40_expand_at_level : forall cs k, Forall wf cs -> 0 <= k <= 30 ->
  let at_most_k x := if k <? lv x then anc k x else x in
  exists ds, expand_at_level (map code cs) k = Some (map code ds) /\ normalized_cells ds /\
    (forall m, cov ds m <->
       exists x, In x cs /\
         (leaves (at_most_k x) m \/
          exists d, wf d /\ lv d = k /\ cells_neighbor from_face_ij (at_most_k x) d /\ leaves d m)) /\
    (forall m, cov cs m -> cov ds m).
Proof.
  intros cs k F Hk f. destruct (expand_ok cs k F Hk) as (ds & E & N & C). exists ds.
  split; [exact E|]. split; [exact N|]. split; [exact C|].
  intros m (x & I & L). apply C. exists x. split; [exact I|]. left. unfold coarse.
  destruct (Z.ltb_spec k (lv x)); [|exact L]. rewrite Forall_forall in F.
  apply (proj1 (ancestor_leaves (anc k x) x (wf_anc x k (F x I) ltac:(lia)) (F x I))); [|exact L].
  apply anc_is_ancestor. lia.
Qed.
(* two cells of level 3 in a corner of face 0 *)
Example C40_example :
  Forall wf [Cell 3 0; Cell 3 2] /\
  expand_at_level (map code [Cell 3 0; Cell 3 2]) 2 = Some (map code
    [Cell 1 0; Cell 2 73; Cell 2 74; Cell 2 92; Cell 2 95]).
Proof. split; [repeat constructor; vm_compute; intuition congruence|vm_compute; reflexivity]. Qed.
Print Assumptions C40_expand_at_level.
