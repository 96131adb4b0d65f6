(** C101: expansion of a union by a radius. *)
From Coq Require Import ZArith Reals Lra Lia Psatz List Bool.
From Flocq Require Import Core.
From Verif Require Import Base Spec F64 F64Facts IntervalSpec F64Arith F64Error S1Proofs VectorModel StuvModel R1Model
  CellIdModel CellIdArith CellIdProofs CellUnionModel CellUnionProofs HilbertModel HilbertSpec HilbertGeom NeighborSpec NeighborModel PropsNeighbor
  CellSpec CellModel StuvError CellProofs CellPoint MetricModel PropsMetric PredicatesFloat CapSpec CapModel CapError CapCell CapEdgeFloat CapEdgeMain
  CoverGeom CoverCell CoverProofs RimGeom RegionModel RegionSpec PropsRegion.
Import ListNotations.
Open Scope R_scope.
Local Notation Z := BinInt.Z.

(* the least level of a list of cells, 30 if there is none *)
Definition least_lv (cs : list cell) (l : Z) : Prop := (forall c, In c cs -> (l <= lv c)%Z) /\ ((exists c, In c cs /\ lv c = l) \/ l = 30%Z).
Lemma coarsest_ok cs : Forall wf cs -> exists l, coarsest (map code cs) 30 = Some l /\ least_lv cs l /\ (0 <= l <= 30)%Z.
Proof.
  intros F. enough (G : forall a, (0 <= a <= 30)%Z -> exists l, coarsest (map code cs) a = Some l /\ (forall c, In c cs -> (l <= lv c)%Z) /\ (0 <= l <= a)%Z /\ ((exists c, In c cs /\ lv c = l) \/ l = a)).
  { destruct (G 30%Z ltac:(lia)) as (l & E & H & R & K). exists l. split; [exact E|]. split; [split; auto|lia]. }
  induction F as [|c cs W F IH]; intros a Ha; cbn [map coarsest].
  - exists a. split; [reflexivity|]. split; [intros c []|]. split; [lia|auto].
  - rewrite level_code by exact W. destruct W as (LV & _). destruct (IH (Z.min a (lv c)) ltac:(lia)) as (l & E & H & R & K). exists l. split; [exact E|]. split.
    + intros x [<-|I]; [lia|auto].
    + split; [lia|]. destruct K as [(x & I & E')|K]; [left; exists x; cbn [In]; auto|].
      destruct (Z.min_spec a (lv c)) as [(_ & M)|(_ & M)]; rewrite M in K; [right; exact K|left; exists c; cbn [In]; auto].
Qed.

Lemma patch_anc c k d : wf c -> (0 <= k <= lv c)%Z -> patch (cell_of c) d -> patch (cell_of (anc k c)) d.
Proof.
  intros W Hk P. pose proof W as (HL & _). assert (Wa : wf (anc k c)) by (apply wf_anc; auto; lia).
  destruct (sq_aligned c W) as ((F0 & SP & _ & _ & A1 & A2 & A3 & A4) & Fc & Sc). destruct (sq_aligned _ Wa) as ((_ & SPa & _ & _ & B1 & B2 & B3 & B4) & Fa & Sa).
  pose proof (face_of_range c W) as Hf.
  (* the first and last unit squares of c belong to its ancestor *)
  assert (IN : forall i j, in_square (sq c) (face_of c) i j -> in_square (sq (anc k c)) (face_of c) i j).
  { intros i j I. pose proof I as (_ & I1 & I2). destruct (sq_correct c W) as (_ & _ & IC). destruct (sq_correct _ Wa) as (_ & _ & IA).
    apply IC in I; try lia. apply IA; try lia. destruct I as (m & E & L). exists m. split; [exact E|].
    apply (proj1 (ancestor_leaves (anc k c) c Wa W)); [apply anc_is_ancestor; lia|exact L]. }
  destruct (IN (sq_i (sq c)) (sq_j (sq c)) ltac:(split; [congruence|lia])) as (Ff & I1 & I2).
  destruct (IN (sq_i (sq c) + sq_side (sq c) - 1)%Z (sq_j (sq c) + sq_side (sq c) - 1)%Z ltac:(split; [congruence|lia])) as (_ & I3 & I4).
  destruct (patch_pos _ d W P) as (S & x & y & t & T & X & Y & E).
  apply (patch_make (anc k c) d x y t S T).
  - pose proof (gv_mono (2 * sq_i (sq (anc k c)) - CoverGeom.N) (2 * sq_i (sq c) - CoverGeom.N) ltac:(lia) ltac:(lia) ltac:(lia)).
    pose proof (gv_mono (2 * (sq_i (sq c) + sq_side (sq c)) - CoverGeom.N) (2 * (sq_i (sq (anc k c)) + sq_side (sq (anc k c))) - CoverGeom.N) ltac:(lia) ltac:(lia) ltac:(lia)). lra.
  - pose proof (gv_mono (2 * sq_j (sq (anc k c)) - CoverGeom.N) (2 * sq_j (sq c) - CoverGeom.N) ltac:(lia) ltac:(lia) ltac:(lia)).
    pose proof (gv_mono (2 * (sq_j (sq c) + sq_side (sq c)) - CoverGeom.N) (2 * (sq_j (sq (anc k c)) + sq_side (sq (anc k c))) - CoverGeom.N) ltac:(lia) ltac:(lia) ltac:(lia)). lra.
  - rewrite E. f_equal. f_equal. congruence.
Qed.

(* what expansion at level k adds around one cell *)
Definition grown (k : Z) (x : cell) (m : Z) : Prop :=
  let a := if (k <? lv x)%Z then anc k x else x in
  leaves a m \/ exists d, wf d /\ lv d = k /\ cells_neighbor from_face_ij a d /\ leaves d m.
Lemma grown_near x k m d1 d2 : wf x -> (0 <= k <= 30)%Z -> wf (leaf m) -> patch (cell_of x) d1 -> patch (cell_of (leaf m)) d2 -> chd d1 d2 < sig (2 * side k) -> grown k x m.
Proof.
  intros W Hk Wm P1 P2 D. unfold grown. set (a := if (k <? lv x)%Z then anc k x else x). pose proof W as (HL & _).
  assert (A : wf a /\ (lv a <= k)%Z /\ patch (cell_of a) d1).
  { unfold a. destruct (Z.ltb_spec k (lv x)); [split; [apply wf_anc; auto; lia|split; [cbn [lv anc]; lia|apply patch_anc; auto; lia]]|auto]. }
  destruct A as (Wa & La & Pa). assert (Wd : wf (anc k (leaf m))) by (apply wf_anc; auto; cbn [lv leaf]; lia).
  destruct (ancestor_dec a (leaf m)) as [K|K].
  - left. apply (proj1 (ancestor_leaves a (leaf m) Wa Wm) K). unfold leaves, leaf. cbn [lv ix]. change (4 ^ (30 - 30))%Z with 1%Z. lia.
  - right. exists (anc k (leaf m)). split; [exact Wd|]. split; [reflexivity|].
    assert (NL : ~ leaves a m). { intros L. apply K. rewrite <- (leaves_anc a m Wa L). apply anc_is_ancestor. destruct Wa as (R & _). cbn [lv leaf]. lia. }
    split; [|apply (proj1 (ancestor_leaves _ (leaf m) Wd Wm) (anc_is_ancestor (leaf m) k ltac:(cbn [lv leaf]; lia))); unfold leaves, leaf; cbn [lv ix]; change (4 ^ (30 - 30))%Z with 1%Z; lia].
    destruct (Classical_Prop.classic (cells_neighbor from_face_ij a (anc k (leaf m)))) as [C|C]; [exact C|].
    exfalso. pose proof (rim_gap a k m d1 d2 Wa ltac:(lia) Wm Pa P2 NL C). lra.
Qed.

(** ** Two expansions at level 0 *)
Lemma faces_within m : wf (leaf m) -> forall f, (0 <= f < 6)%Z -> exists g, (0 <= g < 6)%Z /\
  (forall m', leaves (Cell 0 g) m' -> grown 0 (Cell 0 f) m') /\ grown 0 (Cell 0 g) m.
Proof.
  intros Wm f Hf.
  assert (G : forall f ds, (0 <= f < 6)%Z -> Forall wf ds -> expand_at_level (map code [Cell 0 f]) 0 = Some (map code ds) -> forall m, cov ds m -> grown 0 (Cell 0 f) m).
  { intros e ds He Wd E m' C. destruct (C40_expand_at_level [Cell 0 e] 0 ltac:(constructor; [split; cbn [lv ix]; lia|constructor]) ltac:(lia)) as (ds' & E' & Nd & H & _). rewrite E in E'. apply Some_inj in E'. apply map_code_inj in E'; [|exact Wd|apply Nd]. subst ds'.
    apply H in C. destruct C as (x & [<-|[]] & K). exact K. }
  assert (F5 : forall f, (0 <= f < 6)%Z -> forall h, (0 <= h < 6)%Z -> (h <> (f + 3) mod 6)%Z -> forall m', leaves (Cell 0 h) m' -> grown 0 (Cell 0 f) m').
  { intros e He h Hh NE m' L.
    assert (E : expand_at_level (map code [Cell 0 e]) 0 = Some (map code (filter (fun c => negb (ix c =? (e + 3) mod 6)%Z) [Cell 0 0; Cell 0 1; Cell 0 2; Cell 0 3; Cell 0 4; Cell 0 5]))).
    { assert (K : (e = 0 \/ e = 1 \/ e = 2 \/ e = 3 \/ e = 4 \/ e = 5)%Z) by lia. destruct K as [-> |[-> |[-> |[-> |[-> | ->]]]]]; vm_compute; reflexivity. }
    apply (G e _ He) with (2 := E).
    - apply Forall_forall. intros x I. apply filter_In in I. destruct I as (I & _). cbn [In] in I. intuition (subst x; split; cbn [lv ix]; lia).
    - exists (Cell 0 h). split; [|exact L]. apply filter_In. split; [|cbn [ix]; apply Bool.negb_true_iff, Z.eqb_neq; exact NE].
      assert (K : (h = 0 \/ h = 1 \/ h = 2 \/ h = 3 \/ h = 4 \/ h = 5)%Z) by lia. cbn [In]. destruct K as [-> |[-> |[-> |[-> |[-> | ->]]]]]; auto 8. }
  destruct (six_faces m Wm) as (c & I & L). assert (exists h, (0 <= h < 6)%Z /\ c = Cell 0 h) as (h & Hh & ->) by (cbn [In] in I; intuition (subst c; eexists; split; [|reflexivity]; lia)).
  (* go by f itself, or by the next face *)
  destruct (Z.eq_dec h ((f + 3) mod 6)) as [E|E].
  - exists ((f + 1) mod 6)%Z. assert (K : (f = 0 \/ f = 1 \/ f = 2 \/ f = 3 \/ f = 4 \/ f = 5)%Z) by lia.
    destruct K as [-> |[-> |[-> |[-> |[-> | ->]]]]]; (split; [vm_compute; intuition congruence|]); (split; [apply F5; vm_compute; intuition congruence|]);
      (refine (F5 _ _ h Hh _ m L); [vm_compute; intuition congruence|rewrite E; vm_compute; congruence]).
  - exists f. split; [exact Hf|]. split; [|apply (F5 f Hf h Hh E m L)]. apply F5; auto. intros K. assert (Q : (f = 0 \/ f = 1 \/ f = 2 \/ f = 3 \/ f = 4 \/ f = 5)%Z) by lia. destruct Q as [-> |[-> |[-> |[-> |[-> | ->]]]]]; vm_compute in K; discriminate.
Qed.
Lemma grown_coarse x m : wf x -> grown 0 (anc 0 x) m -> grown 0 x m.
Proof.
  intros W. unfold grown. cbn [lv anc]. change (0 <? 0)%Z with false. cbv iota. destruct (Z.ltb_spec 0 (lv x)) as [H|H]; [auto|].
  destruct W as (LV & _). assert (lv x = 0)%Z by lia. destruct x as [l i]. cbn [lv ix] in *. subst l. unfold anc. cbn [lv ix]. change (4 ^ (0 - 0))%Z with 1%Z. rewrite Z.div_1_r. auto.
Qed.
Lemma anc0 x : wf x -> exists f, (0 <= f < 6)%Z /\ anc 0 x = Cell 0 f.
Proof. intros W. pose proof (wf_anc x 0 W ltac:(destruct W; lia)) as (_ & R). cbn [lv anc] in R. change (4 ^ 0)%Z with 1%Z in R. exists (ix (anc 0 x)). split; [cbn [ix anc] in *; lia|reflexivity]. Qed.
Lemma twice cs ds es : Forall wf cs -> cs <> [] -> expand_at_level (map code cs) 0 = Some (map code ds) -> Forall wf ds -> expand_at_level (map code ds) 0 = Some (map code es) -> Forall wf es ->
  forall m, wf (leaf m) -> cov es m.
Proof.
  intros Wc NE E1 Wd E2 We m Wm. destruct (C40_expand_at_level cs 0 Wc ltac:(lia)) as (ds' & E1' & N1 & H1 & _). rewrite E1 in E1'. apply Some_inj, map_code_inj in E1'; [subst ds'|exact Wd|apply N1].
  destruct (C40_expand_at_level ds 0 Wd ltac:(lia)) as (es' & E2' & N2 & H2 & _). rewrite E2 in E2'. apply Some_inj, map_code_inj in E2'; [subst es'|exact We|apply N2].
  destruct cs as [|x cs]; [congruence|]. inversion Wc as [|? ? Wx Wcs]. subst. destruct (anc0 x Wx) as (f & Hf & Ef).
  destruct (faces_within m Wm f Hf) as (g & Hg & G1 & G2).
  assert (LG : leaves (Cell 0 g) (g * 4 ^ 30)) by (unfold leaves; cbn [lv ix]; change (30 - 0)%Z with 30%Z; lia).
  assert (CG : cov ds (g * 4 ^ 30)). { apply H1. exists x. split; [left; reflexivity|]. apply (grown_coarse x _ Wx). rewrite Ef. apply G1, LG. }
  destruct CG as (y & Iy & Ly). rewrite Forall_forall in Wd. specialize (Wd y Iy). apply H2. exists y. split; [exact Iy|]. apply (grown_coarse y _ Wd).
  replace (anc 0 y) with (Cell 0 g); [exact G2|]. pose proof (leaves_anc y _ Wd Ly) as A. rewrite <- A.
  rewrite anc_anc by (cbn [lv leaf]; destruct Wd; lia). unfold anc, leaf. cbn [lv ix]. change (30 - 0)%Z with 30%Z. rewrite Z.div_mul by lia. reflexivity.
Qed.

(** ** The width of a rim *)
Lemma sig_rim k : (0 <= k <= 30)%Z -> sig (2 * side k) = 2 * S2_3 / IZR (2 ^ k) - 128 * eps.
Proof.
  intros H. unfold sig. rewrite mult_IZR. f_equal. unfold side, RN.
  assert (E : (2 ^ (30 - k) * 2 ^ k = 1073741824)%Z) by (rewrite <- Z.pow_add_r by lia; replace (30 - k + k)%Z with 30%Z by lia; reflexivity).
  apply (f_equal IZR) in E. rewrite mult_IZR in E. assert (0 < IZR (2 ^ k)) by (apply IZR_lt; apply Z.pow_pos_nonneg; lia).
  rewrite <- E. assert (0 < IZR (2 ^ (30 - k))) by (apply IZR_lt; apply Z.pow_pos_nonneg; lia). field. lra.
Qed.
Lemma width_reasonable : reasonable MIN_WIDTHMETRIC. Proof. split; [left; reflexivity|split; vm_compute; reflexivity]. Qed.
Lemma rad_rim (r : f64) k L : finite r -> (0 <= k <= L)%Z -> (L <= 30)%Z -> fge (value MIN_WIDTHMETRIC L) r = true -> B2R r <= sig (2 * side k) + 129 * eps + 7 * eps.
Proof.
  intros Fr Hk HL G. destruct (C54_value MIN_WIDTHMETRIC L width_reasonable ltac:(lia)) as [Fl Vl]. unfold fge in G. set (vl := value MIN_WIDTHMETRIC L) in *. clearbody vl.
  destruct (fle_R r vl Fr Fl) as [K|K]; [|discriminate]. rewrite Vl in K. cbn [m_dim MIN_WIDTHMETRIC] in K. rewrite Z.mul_1_l in K. rewrite sig_rim by lia.
  pose proof deriv_val as DV. set (dv := B2R (m_deriv MIN_WIDTHMETRIC)) in *. clearbody dv. destruct S2_3_val as (S0 & _ & S1).
  assert (P1 : 1 <= IZR (2 ^ k)) by (apply IZR_le; pose proof (Z.pow_pos_nonneg 2 k ltac:(lia) ltac:(lia)); lia).
  assert (P2 : IZR (2 ^ k) <= IZR (2 ^ L)) by (apply IZR_le, Z.pow_le_mono_r; lia).
  set (pk := IZR (2 ^ k)) in *. set (pl := IZR (2 ^ L)) in *. clearbody pk pl.
  assert (I1 : / pl <= / pk) by (apply Rinv_le_contravar; lra). assert (I0 : 0 < / pl) by (apply Rinv_0_lt_compat; lra). assert (I2 : / pl <= 1) by (rewrite <- Rinv_1; apply Rinv_le_contravar; lra).
  unfold Rdiv in *. assert (A : dv * / pl <= (2 * S2_3 + 1 * / 2 ^ 50) * / pl) by (apply Rmult_le_compat_r; lra).
  assert (B : 2 * S2_3 * / pl <= 2 * S2_3 * / pk) by (apply Rmult_le_compat_l; lra). assert (C : 1 * / 2 ^ 50 * / pl <= 1 * / 2 ^ 50 * 1) by (apply Rmult_le_compat_l; lra). lra.
Qed.

Lemma chord_angle d e : on_sphere d -> on_sphere e -> chd d e <= angle_between d e.
Proof.
  intros D E. destruct (chd_range d e D E) as (H1 & H2 & H3). unfold angle_between. fold (chd d e).
  assert (R : 0 <= chd d e / 2 <= 1) by lra. pose proof (asin_ge _ R). lra.
Qed.
Lemma point_sphere q : finite_point q -> on_sphere (direction q).
Proof.
  intros (_ & _ & _ & NZ). apply direction_sphere. unfold sqn.
  pose proof (Rle_0_sqr (B2R (vx q))) as A. pose proof (Rle_0_sqr (B2R (vy q))) as B. pose proof (Rle_0_sqr (B2R (vz q))) as C. unfold Rsqr in *.
  destruct NZ as [K|[K|K]]; apply Rsqr_pos_lt in K; unfold Rsqr in K; lra.
Qed.

(** C101: expand_by_radius(r, d) of any list of valid ids is a normalized union that covers
    the list and every point whose angle from a point of one of its cells is below r (up to
    2^-44 radians).  r is any double but NaN; the level limit must not overflow. *)
Theorem C101_expand_by_radius : forall cs r diff, Forall wf cs -> is_nan r = false -> (0 <= diff < 2 ^ 64 - 30)%Z ->
  exists ds, expand_by_radius (map code cs) r diff = Some (map code ds) /\ normalized_cells ds /\
    (forall m, cov cs m -> cov ds m) /\
    forall c d q, In c cs -> patch (cell_of c) d -> finite_point q -> below (angle_between d (direction q)) r (1 / 2 ^ 44) ->
      covers_point (map code ds) q.
Proof.
  intros cs r diff W NR Hd. destruct (coarsest_ok cs W) as (l & El & _ & Rl).
  destruct (C54_max_level MIN_WIDTHMETRIC r width_reasonable NR) as (L & EL & (RL & _ & GL)).
  unfold expand_by_radius. rewrite El, EL. unfold add64. assert (LT : (l + diff <? 2 ^ 64)%Z = true) by (apply Z.ltb_lt; lia). rewrite LT.
  set (k := Z.min (l + diff) L). assert (Hk : (0 <= k <= L)%Z) by lia.
  destruct ((L =? 0)%Z && fgt r (value MIN_WIDTHMETRIC 0)) eqn:B.
  - apply andb_true_iff in B. destruct B as (B1 & B2). apply Z.eqb_eq in B1. subst L. assert (k = 0%Z) by lia. replace k with 0%Z in * by lia.
    destruct (C40_expand_at_level cs 0 W ltac:(lia)) as (ds & E & Nd & _ & C1). rewrite E.
    assert (Wd : Forall wf ds) by apply Nd. destruct (C40_expand_at_level ds 0 Wd ltac:(lia)) as (es & E2 & Ne & _ & C2). exists es. split; [exact E2|]. split; [exact Ne|]. split; [auto|].
    intros c d q I P Fq _. destruct (near_leaf q Fq) as (m & Em & Wm & _). assert (We : Forall wf es) by apply Ne. eapply covers_cov; [exact We|exact Wm|exact Em|].
    apply (twice cs ds es); auto. intros ->. destruct I.
  - destruct (C40_expand_at_level cs k W ltac:(lia)) as (ds & E & Nd & H & C1). exists ds. split; [exact E|]. split; [exact Nd|]. split; [exact C1|].
    intros c d q I P Fq D. destruct (near_leaf q Fq) as (m & Em & Wm & d2 & P2 & D2). assert (Wd : Forall wf ds) by apply Nd. eapply covers_cov; [exact Wd|exact Wm|exact Em|].
    apply H. exists c. split; [exact I|]. rewrite Forall_forall in W. apply (grown_near c k m d d2 (W c I) ltac:(lia) Wm P P2).
    assert (G : fge (value MIN_WIDTHMETRIC L) r = true).
    { destruct GL as [G|(E0 & G)]; [exact G|]. exfalso. subst L. cbn [Z.eqb andb] in B. change (0 =? 0)%Z with true in B. cbn [andb] in B.
      apply (G 0%Z ltac:(lia)). unfold fge, fgt in *. pose proof (proj1 (C54_value MIN_WIDTHMETRIC 0 width_reasonable ltac:(lia))) as F0. pose proof (finite_number _ F0) as N0.
      rewrite flt_rank in B by assumption. rewrite fle_rank by assumption. apply Z.ltb_ge in B. apply Z.leb_le. exact B. }
    destruct D as [->|(Fr & D)].
    { exfalso. unfold fge in G. pose proof (proj1 (C54_value MIN_WIDTHMETRIC L width_reasonable ltac:(lia))) as F0. set (vl := value MIN_WIDTHMETRIC L) in *. clearbody vl. destruct vl; try discriminate F0; discriminate G. }
    pose proof (rad_rim r k L Fr Hk ltac:(lia) G) as RR. pose proof (chord_angle d (direction q) (proj1 P) (point_sphere q Fq)) as CA. pose proof (chd_tri d (direction q) d2) as TR. lra.
Qed.
Print Assumptions C101_expand_by_radius.

(** How far it goes: if r is at most the width of a face, the union is expanded once, at the
    level [k] that is the coarser of the level limit and the finest level whose cells are all
    at least r wide.  The limit is diff levels below the largest cell. *)
Theorem C101_expand_level : forall cs r diff, Forall wf cs -> fle r (value MIN_WIDTHMETRIC 0) = true -> (0 <= diff < 2 ^ 64 - 30)%Z ->
  exists l L ds, least_lv cs l /\ greatest_level (fun i => fge (value MIN_WIDTHMETRIC i) r = true) 0 L /\ let k := Z.min (l + diff) L in
    expand_by_radius (map code cs) r diff = Some (map code ds) /\
    forall m, cov ds m <-> exists x, In x cs /\ grown k x m.
Proof.
  intros cs r diff W LE Hd. destruct (coarsest_ok cs W) as (l & El & Ml & Rl). assert (NR : is_nan r = false) by (destruct r; [reflexivity|reflexivity|discriminate LE|reflexivity]).
  destruct (C54_max_level MIN_WIDTHMETRIC r width_reasonable NR) as (L & EL & GL). pose proof GL as (RL & _). exists l, L.
  unfold expand_by_radius. rewrite El, EL. unfold add64. assert (LT : (l + diff <? 2 ^ 64)%Z = true) by (apply Z.ltb_lt; lia). rewrite LT.
  assert (B : fgt r (value MIN_WIDTHMETRIC 0) = false).
  { unfold fgt. pose proof (proj1 (C54_value MIN_WIDTHMETRIC 0 width_reasonable ltac:(lia))) as F0. pose proof (finite_number _ F0) as N0.
    rewrite fle_rank in LE by assumption. rewrite flt_rank by assumption. apply Z.leb_le in LE. apply Z.ltb_ge. exact LE. }
  rewrite B, andb_false_r. destruct (C40_expand_at_level cs (Z.min (l + diff) L) W ltac:(lia)) as (ds & E & _ & H & _). exists ds. split; [exact Ml|]. split; [exact GL|]. split; [exact E|exact H].
Qed.
Print Assumptions C101_expand_level.

(* A level limit that overflows panics (with overflow checks), u64::MAX for one. *)
Theorem C101_limit_overflow : forall cs r diff l, Forall wf cs -> is_nan r = false -> least_lv cs l -> (2 ^ 64 <= l + diff)%Z ->
  expand_by_radius (map code cs) r diff = None.
Proof.
  intros cs r diff l W NR (ML & MR) H. destruct (coarsest_ok cs W) as (l' & El & (ML' & MR') & Rl).
  assert (l = l'). { destruct MR as [(x & I & E)| ->], MR' as [(x' & I' & E')| ->]; [specialize (ML _ I'); specialize (ML' _ I); lia| |rewrite Forall_forall in W; destruct (W _ I') as (R & _); specialize (ML _ I'); lia|reflexivity]. rewrite Forall_forall in W; destruct (W _ I) as (R & _). specialize (ML' _ I). lia. }
  subst l'. destruct (C54_max_level MIN_WIDTHMETRIC r width_reasonable NR) as (L & EL & _). unfold expand_by_radius. rewrite El, EL.
  unfold add64. assert (LT : (l + diff <? 2 ^ 64)%Z = false) by (apply Z.ltb_ge; lia). rewrite LT. destruct (_ && _); [|reflexivity].
  destruct (C40_expand_at_level cs 0 W ltac:(lia)) as (ds & E & _). rewrite E. reflexivity.
Qed.
Print Assumptions C101_limit_overflow.

(* the cell of face 0 with (1, 0, 0) as a corner, a smaller one, and a point outside both
   at about 1/32 radians from that corner *)
Lemma asin_small c : 0 <= c <= 1 / 32 -> 2 * asin (c / 2) < 1 / 8 - 1 / 2 ^ 44.
Proof.
  intros H. assert (S : 1 / 64 <= sin (1 / 20)).
  { destruct (SIN (1 / 20) ltac:(lra)) as [K _]; [pose proof PI2_3_2; unfold PI2 in *; lra|]. eapply Rle_trans; [|exact K].
    unfold sin_lb, sin_approx, sum_f_R0, sin_term. cbn [Nat.mul Nat.add fact INR pow]. lra. }
  pose proof (asin_bound (c / 2)) as AB. pose proof PI2_3_2 as P2. unfold PI2 in P2. apply Rnot_le_lt. intros K.
  assert (L : sin (1 / 20) < sin (asin (c / 2))) by (apply sin_increasing_1; lra). rewrite sin_asin in L by lra. lra.
Qed.
Example C101_hyps : let cs := [Cell 2 8; Cell 4 3] in let q := Vec f1 (fneg (lit 1 (-5))) f0 in let r := lit 1 (-3) in
  Forall wf cs /\ is_nan r = false /\
  (exists d, patch (cell_of (Cell 2 8)) d /\ below (angle_between d (direction q)) r (1 / 2 ^ 44)) /\ finite_point q /\
  ~ covers_point (map code cs) q /\ option_map (@length Z) (expand_by_radius (map code cs) r 1) = Some 10%nat /\ fle r (value MIN_WIDTHMETRIC 0) = true.
Proof.
  cbv zeta. assert (W : wf (Cell 2 8)) by (vm_compute; intuition congruence). assert (Wc : Forall wf [Cell 2 8; Cell 4 3]) by (repeat constructor; vm_compute; intuition congruence).
  destruct (lit_val 1 (-5) ltac:(lia) ltac:(lia)) as [F5 V5]. destruct (lit_val 1 (-3) ltac:(lia) ltac:(lia)) as [F3 V3]. destruct (fneg_val _ F5) as [Fn Vn]. rewrite V5 in Vn. change (bpow radix2 (-5)) with (/ 32) in *. change (bpow radix2 (-3)) with (/ 8) in *.
  destruct f1_val as [F1 V1].
  split; [exact Wc|]. split; [reflexivity|]. split.
  - exists (Pos 1 0 0). split.
    + apply (patch_make (Cell 2 8) (Pos 1 0 0) 0 0 1).
      * unfold on_sphere. cbn [px3 py3 pz3]. lra.
      * lra.
      * change (2 * sq_i (sq (Cell 2 8)) - CoverGeom.N)%Z with 0%Z. change (2 * (sq_i (sq (Cell 2 8)) + sq_side (sq (Cell 2 8))) - CoverGeom.N)%Z with 536870912%Z. rewrite gv_zero. split; [lra|]. rewrite <- gv_zero. apply gv_mono; lia.
      * change (2 * sq_j (sq (Cell 2 8)) - CoverGeom.N)%Z with 0%Z. change (2 * (sq_j (sq (Cell 2 8)) + sq_side (sq (Cell 2 8))) - CoverGeom.N)%Z with 536870912%Z. rewrite gv_zero. split; [lra|]. rewrite <- gv_zero. apply gv_mono; lia.
      * change (face_of (Cell 2 8)) with 0%Z. unfold shrink, face_pos. cbn [Z.eqb px3 py3 pz3]. f_equal; lra.
    + right. split; [exact F3|]. rewrite V3. unfold angle_between, dist2, direction. cbn [vx vy vz px3 py3 pz3]. rewrite Vn, V1. change (B2R f0) with 0.
      match goal with |- context [1 / sqrt ?e] => set (n := sqrt e) end. assert (N2 : n * n = 1 + 1 / 1024) by (unfold n; rewrite sqrt_sqrt; lra). assert (N0 : 0 <= n) by apply sqrt_pos. assert (N1 : 1 <= n <= 1 + 1 / 2048) by nra.
      assert (I : / n * n = 1) by (apply Rinv_l; lra). assert (I1 : 1 - 1 / 2048 <= / n <= 1) by nra.
      match goal with |- 2 * asin (sqrt ?e / 2) < _ => set (dd := e) end. assert (DD : 0 <= dd <= 1 / 1024). { unfold dd, Rdiv. set (i := / n) in *. clearbody i. assert (i * i * (n * n) = 1) by (replace (i * i * (n * n)) with ((i * n) * (i * n)) by ring; rewrite I; ring). nra. }
      assert (SQ : 0 <= sqrt dd <= 1 / 32). { split; [apply sqrt_pos|]. rewrite <- (sqrt_square (1 / 32)) by lra. apply sqrt_le_1_alt. lra. }
      pose proof (asin_small _ SQ). lra.
  - split; [split; [exact F1|split; [exact Fn|split; [reflexivity|left; cbn [vx]; rewrite V1; lra]]]|]. split.
    + intros (x & id & E & I & C). vm_compute in E. injection E as <-. cbn [map In] in I. destruct I as [<-|[<-|[]]]; vm_compute in C; discriminate.
    + split; vm_compute; reflexivity.
Qed.
