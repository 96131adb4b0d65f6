(** The vertices of cells. *)
From Coq Require Import Reals Lra Lia.
From Flocq Require Import Core.
From Verif Require Import Base Spec F64 F64Facts IntervalSpec F64Arith F64Error F64Neg S1Proofs R1Model VectorModel StuvModel
  CellIdModel CellIdArith HilbertModel HilbertSpec HilbertGeom NeighborModel NeighborProofs
  CellSpec CellModel StuvError CellLattice CellProofs CellPoint.
Open Scope Z_scope.

(* the coordinate X of the cube of half side 2^30, as a real number *)
Definition gv (X : Z) : R := B2R (uvl (X + 2 ^ 30)).
Lemma gv_neg X : - 2 ^ 30 <= X <= 2 ^ 30 -> gv (- X) = (- gv X)%R.
Proof. intros H. unfold gv. rewrite <- uvl_neg by lia. do 2 f_equal. lia. Qed.
Lemma gv_one : gv (2 ^ 30) = 1%R /\ gv (- 2 ^ 30) = (-1)%R.
Proof. unfold gv. change (2 ^ 30 + 2 ^ 30) with (2 ^ 31). change (- 2 ^ 30 + 2 ^ 30) with 0. destruct uvl_ends as (A & B & _). auto. Qed.

Definition vals (r : vec) (P : Z * Z * Z) : Prop :=
  let '(X, Y, Z) := P in B2R (vx r) = gv X /\ B2R (vy r) = gv Y /\ B2R (vz r) = gv Z.
Lemma raw_vals f a b r : 0 <= f < 6 -> 0 <= a <= 2 ^ 30 -> 0 <= b <= 2 ^ 30 -> face_uv_to_xyz f (uvl (2 * a)) (uvl (2 * b)) = Some r ->
  vals r (cube_point f a b).
Proof.
  intros Hf Ha Hb E. destruct (uvl_val (2 * a) ltac:(lia)) as (Fa & _). destruct (uvl_val (2 * b) ltac:(lia)) as (Fb & _).
  destruct f1_val as [F1 V1]. destruct (fneg_val f1 F1) as [Fn Vn]. destruct (fneg_val _ Fa) as [_ Va]. destruct (fneg_val _ Fb) as [_ Vb].
  destruct gv_one as [G1 G2]. rewrite V1 in Vn.
  assert (Ea : B2R (uvl (2 * a)) = gv (2 * a - 2 ^ 30)) by (unfold gv; do 2 f_equal; lia).
  assert (Eb : B2R (uvl (2 * b)) = gv (2 * b - 2 ^ 30)) by (unfold gv; do 2 f_equal; lia).
  pose proof (gv_neg (2 * a - 2 ^ 30) ltac:(lia)) as Na. pose proof (gv_neg (2 * b - 2 ^ 30) ltac:(lia)) as Nb.
  unfold face_uv_to_xyz in E. unfold cube_point.
  destruct (face_zero_cases f Hf) as [-> | [-> | [-> | [-> | [-> | ->]]]]]; cbn [Z.eqb Pos.eqb] in E |- *; apply Some_inj in E; subst r;
  unfold vals; cbv zeta; cbn [vx vy vz]; rewrite ?G1, ?G2, ?Na, ?Nb, ?Va, ?Vb, ?V1, ?Vn, ?Ea, ?Eb; repeat split; lra.
Qed.

Lemma same_nonzero (x y : f64) : same x y -> finite x -> B2R x <> 0%R -> x = y.
Proof.
  intros [E|[Zx Zy]] F N; [exact E|]. exfalso. apply N. destruct x; try discriminate. reflexivity.
Qed.
Lemma feq_same (x y : f64) : finite x -> same x y -> feq x y = true.
Proof.
  intros F [<-|[Zx Zy]]; [|destruct x; try discriminate; destruct y; try discriminate; reflexivity].
  destruct (feq_R x x F F); [reflexivity|lra].
Qed.
Lemma normalize_vals r r' P : cube_pt r -> cube_pt r' -> vals r P -> vals r' P ->
  veq (VectorModel.normalize r) (VectorModel.normalize r') = true.
Proof.
  intros C C' V V'. rewrite (normalize_cube r C), (normalize_cube r' C'). destruct P as [[X Y] Z]. destruct V as (V1 & V2 & V3). destruct V' as (V1' & V2' & V3').
  pose proof C as ((Fx & Fy & Fz) & Bx & By & Bz & _). pose proof C' as ((Fx' & Fy' & Fz') & _).
  assert (Sx : same (vx r) (vx r')) by (apply same_val; auto; congruence).
  assert (Sy : same (vy r) (vy r')) by (apply same_val; auto; congruence).
  assert (Sz : same (vz r) (vz r')) by (apply same_val; auto; congruence).
  assert (Sn : norm r = norm r').
  { destruct (norm_range r C) as [Fn Bn]. apply same_nonzero; [|exact Fn|lra]. unfold norm, norm2, dot. apply fsqrt_same.
    apply fadd_same; [apply fadd_same|]; apply fmul_same; assumption. }
  unfold scale_of. rewrite <- Sn. destruct (scale_range r C) as [Fc Bc]. unfold scale_of in Fc, Bc. set (c := fdiv f1 (norm r)) in *.
  unfold veq, vscale. cbn [vx vy vz].
  rewrite !feq_same; try reflexivity; try (apply fmul_same; [assumption|apply same_refl]);
  apply comp_val; assumption.
Qed.

Lemma index4 {A} (a b c d : A) : index [a; b; c; d] 0 = Some a /\ index [a; b; c; d] 1 = Some b /\ index [a; b; c; d] 2 = Some c /\ index [a; b; c; d] 3 = Some d.
Proof. repeat split. Qed.
Definition cor_i (q : square) (k : Z) : Z := sq_i q + (if (k =? 1) || (k =? 2) then sq_side q else 0).
Definition cor_j (q : square) (k : Z) : Z := sq_j q + (if 2 <=? k then sq_side q else 0).
Lemma vertex_raw c k : wf c -> 0 <= k < 4 ->
  0 <= cor_i (sq c) k <= 2 ^ 30 /\ 0 <= cor_j (sq c) k <= 2 ^ 30 /\
  exists r, face_uv_to_xyz (face_of c) (uvl (2 * cor_i (sq c) k)) (uvl (2 * cor_j (sq c) k)) = Some r /\ cube_pt r /\
    cell_vertex (cell_of c) k = Some (VectorModel.normalize r).
Proof.
  intros W Hk. pose proof (face_of_range c W) as Hf. destruct (sq_aligned c W) as ((_ & P & _ & _ & B1 & B2 & B3 & B4) & F & S).
  assert (Ri : 0 <= cor_i (sq c) k <= 2 ^ 30) by (unfold cor_i; destruct ((k =? 1) || (k =? 2)); lia).
  assert (Rj : 0 <= cor_j (sq c) k <= 2 ^ 30) by (unfold cor_j; destruct (2 <=? k); lia).
  split; [exact Ri|]. split; [exact Rj|].
  destruct (uvl_val (2 * cor_i (sq c) k) ltac:(lia)) as (Fk & _ & Bk). destruct (uvl_val (2 * cor_j (sq c) k) ltac:(lia)) as (Fl & _ & Bl).
  destruct (face_uv_cube (face_of c) _ _ Hf Fk Fl ltac:(apply Rabs_le; lra) ltac:(apply Rabs_le; lra)) as (r & Er & C).
  exists r. split; [exact Er|]. split; [exact C|]. unfold cell_vertex, cell_of, uvrect, r2_vertices. cbn [c_uv c_face rx ry lo1 hi1].
  assert (K : k = 0 \/ k = 1 \/ k = 2 \/ k = 3) by lia. unfold cor_i, cor_j in Er.
  destruct K as [-> | [-> | [-> | ->]]]; cbn [Z.eqb Pos.eqb orb Z.leb Z.compare Pos.compare Pos.compare_cont] in Er; rewrite ?Z.add_0_r in Er;
  match goal with |- context [index [?a; ?b; ?c; ?d] _] => destruct (index4 a b c d) as (I0 & I1 & I2 & I3) end; rewrite ?I0, ?I1, ?I2, ?I3;
  cbn [px py]; rewrite Er; reflexivity.
Qed.
Lemma vertex_contained c k : wf c -> 0 <= k < 4 -> exists p, cell_vertex (cell_of c) k = Some p /\ cell_contains_point (cell_of c) p = Some true.
Proof.
  intros W Hk. destruct (vertex_raw c k W Hk) as (Ri & Rj & r & Er & C & V). exists (VectorModel.normalize r). split; [exact V|].
  pose proof (face_of_range c W) as Hf. destruct (sq_aligned c W) as ((_ & P & _) & F & S).
  destruct (uvl_val (2 * cor_i (sq c) k) ltac:(lia)) as (Fk & _ & Bk). destruct (uvl_val (2 * cor_j (sq c) k) ltac:(lia)) as (Fl & _ & Bl).
  destruct (point_back (face_of c) _ _ r Hf Fk Fl ltac:(apply Rabs_le; lra) ltac:(apply Rabs_le; lra) Er) as (u & v & X1 & X2 & Fu & Fv & Eu & Ev & _).
  apply (contains_near c _ u v (2 * cor_i (sq c) k) (2 * cor_j (sq c) k) W X1 Fu Fv); [| |exact Eu|exact Ev].
  - unfold cor_i. rewrite S in *. destruct ((k =? 1) || (k =? 2)); lia.
  - unfold cor_j. rewrite S in *. destruct (2 <=? k); lia.
Qed.
Lemma vertices_meet c d k l : wf c -> wf d -> 0 <= k < 4 -> 0 <= l < 4 -> corner (sq c) k = corner (sq d) l ->
  exists p p', cell_vertex (cell_of c) k = Some p /\ cell_vertex (cell_of d) l = Some p' /\ veq p p' = true.
Proof.
  intros W W' Hk Hl E. destruct (vertex_raw c k W Hk) as (Ri & Rj & r & Er & C & V). destruct (vertex_raw d l W' Hl) as (Ri' & Rj' & r' & Er' & C' & V').
  exists (VectorModel.normalize r), (VectorModel.normalize r'). split; [exact V|]. split; [exact V'|].
  destruct (sq_aligned c W) as ((Hf & _) & F & _). destruct (sq_aligned d W') as ((Hf' & _) & F' & _).
  unfold corner in E. fold (cor_i (sq c) k) (cor_j (sq c) k) (cor_i (sq d) l) (cor_j (sq d) l) in E.
  apply (normalize_vals r r' (cube_point (sq_face (sq c)) (cor_i (sq c) k) (cor_j (sq c) k))); auto.
  - apply raw_vals; auto. rewrite F. exact Er.
  - rewrite E. apply raw_vals; auto. rewrite F'. exact Er'.
Qed.
