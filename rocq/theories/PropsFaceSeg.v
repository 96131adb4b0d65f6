(** C147: the segments of an edge on the faces of the cube form one path. *)
From Coq Require Import ZArith Reals Lra Lia Psatz Bool List.
From Verif Require Import Base F64 F64Facts F64Arith F64Error F64Neg IntervalSpec R1Model R1Proofs S1Proofs VectorModel StuvModel StuvError PredicatesFloat PointModel ClipModel ClipProofs PropsClip FaceSegModel.
Import ListNotations BinNums.
Open Scope R_scope.

(** The point of the surface of the cube with the coordinates (u, v) on a face. *)
Definition cube_point (f : Z) (u v : R) : R * R * R :=
  match f with
  | 0%Z => (1, u, v)
  | 1%Z => (- u, 1, v)
  | 2%Z => (- u, - v, 1)
  | 3%Z => (-1, - v, - u)
  | 4%Z => (v, -1, - u)
  | _ => (v, u, -1)
  end.
Definition at2 (f : Z) (p : pt2) : R * R * R := cube_point f (B2R (px p)) (B2R (py p)).
(** The point is on the plane through the center with the normal [n]. *)
Definition on_plane (n : vec) (p : R * R * R) : Prop :=
  let '(x, y, z) := p in B2R (vx n) * x + B2R (vy n) * y + B2R (vz n) * z = 0.
(** The plane meets the face. *)
Definition meets (n : vec) (f : Z) : Prop := exists u v, on_face u v /\ on_plane n (cube_point f u v).
(** Faces that share an edge: neither equal nor opposite. *)
Definition neighbours (f g : Z) : Prop := f <> g /\ (f - g) mod 3 <> 0%Z.
Definition is_face (f : Z) : Prop := (0 <= f <= 5)%Z.

(* the coordinates of a point of the cube in the frame of a face *)
Definition in_frame (f : Z) (p : R * R * R) : R * R :=
  let '(x, y, z) := p in
  match f with
  | 0%Z => (y, z)
  | 1%Z => (- x, z)
  | 2%Z => (- x, - y)
  | 3%Z => (- z, - y)
  | 4%Z => (- z, x)
  | _ => (y, x)
  end.
Definition carries (g : Z) (p : R * R * R) : Prop :=
  let '(u, v) := in_frame g p in on_face u v /\ cube_point g u v = p.

Lemma faces f : is_face f -> f = 0%Z \/ f = 1%Z \/ f = 2%Z \/ f = 3%Z \/ f = 4%Z \/ f = 5%Z.
Proof. unfold is_face. lia. Qed.
Ltac each_face H := apply faces in H; destruct H as [->|[->|[->|[->|[->| ->]]]]].

Lemma triple (a b c a' b' c' : R) : a = a' -> b = b' -> c = c' -> (a, b, c) = (a', b', c').
Proof. intros -> -> ->. reflexivity. Qed.

Lemma shared_u f x y : is_face f -> on_face x y -> (x = 1 \/ x = -1) ->
  exists g, uvw_face f 0 (if Rlt_dec 0 x then 1 else 0)%Z = Some g /\ is_face g /\ neighbours f g /\ carries g (cube_point f x y).
Proof.
  intros F [X Y] S. unfold carries, on_face, neighbours, is_face. each_face F; destruct S as [-> | ->]; destruct Rlt_dec; try lra; (eexists; split; [vm_compute; reflexivity|]; split; [lia|]; split; [split; vm_compute; discriminate|]; cbn; split; [lra|apply triple; lra]).
Qed.
Lemma shared_v f x y : is_face f -> on_face x y -> (y = 1 \/ y = -1) ->
  exists g, uvw_face f 1 (if Rlt_dec 0 y then 1 else 0)%Z = Some g /\ is_face g /\ neighbours f g /\ carries g (cube_point f x y).
Proof.
  intros F [X Y] S. unfold carries, on_face, neighbours, is_face. each_face F; destruct S as [-> | ->]; destruct Rlt_dec; try lra; (eexists; split; [vm_compute; reflexivity|]; split; [lia|]; split; [split; vm_compute; discriminate|]; cbn; split; [lra|apply triple; lra]).
Qed.

(* the normal in the frame of a face *)
Lemma frame_line f n m : is_face f -> fvec n -> face_xyz_to_uvw f n = Some m -> fvec m /\ (forall x y, on_line m x y <-> on_plane n (cube_point f x y)) /\
  (~ (B2R (vx n) = 0 /\ B2R (vy n) = 0 /\ B2R (vz n) = 0) -> ~ (B2R (vx m) = 0 /\ B2R (vy m) = 0 /\ B2R (vz m) = 0)).
Proof.
  intros F (F1 & F2 & F3) E. destruct (fneg_val _ F1) as [N1 V1]. destruct (fneg_val _ F2) as [N2 V2]. destruct (fneg_val _ F3) as [N3 V3]. each_face F; cbn in E; injection E as <-; unfold fvec, on_line, on_plane; cbn [vx vy vz cube_point]; rewrite ?V1, ?V2, ?V3; (split; [auto|split; [intros; split; intros; lra|intros N (A & B & C); apply N; lra]]).
Qed.
Lemma frame_some f n : is_face f -> exists m, face_xyz_to_uvw f n = Some m.
Proof. intros F. each_face F; eexists; reflexivity. Qed.

(* the exit point, seen in space and from another face *)
Lemma point_xyz f (p : pt2) : is_face f -> finite (px p) -> finite (py p) -> exists q, face_uv_to_xyz f (px p) (py p) = Some q /\ fvec q /\ at2 f p = (B2R (vx q), B2R (vy q), B2R (vz q)).
Proof.
  intros F Fx Fy. destruct (fneg_val _ Fx) as [N1 V1]. destruct (fneg_val _ Fy) as [N2 V2]. destruct f1_val as [FO VO]. destruct (fneg_val f1 FO) as [FM VM]. unfold at2. each_face F; eexists; (split; [reflexivity|]); unfold fvec; cbn [vx vy vz cube_point]; rewrite ?V1, ?V2, ?VM, ?VO; auto.
Qed.
Lemma xyz_frame g q m : is_face g -> fvec q -> face_xyz_to_uvw g q = Some m -> in_frame g (B2R (vx q), B2R (vy q), B2R (vz q)) = (B2R (vx m), B2R (vy m)) /\ finite (vx m) /\ finite (vy m).
Proof.
  intros F (F1 & F2 & F3) E. destruct (fneg_val _ F1) as [N1 V1]. destruct (fneg_val _ F2) as [N2 V2]. destruct (fneg_val _ F3) as [N3 V3]. each_face F; cbn in E; injection E as <-; cbn [vx vy vz in_frame]; rewrite ?V1, ?V2, ?V3; auto.
Qed.

Lemma feq_val x y : finite x -> finite y -> feq x y = true -> B2R x = B2R y.
Proof. intros A B. destruct (feq_R _ _ A B); [auto|discriminate]. Qed.
Lemma unit_cases x : Rabs x = 1 -> x = 1 \/ x = -1.
Proof. unfold Rabs. destruct Rcase_abs; intros; [right|left]; lra. Qed.
Lemma dir_of x : finite x -> (if fgt x f0 then 1 else 0)%Z = (if Rlt_dec 0 (B2R x) then 1 else 0)%Z.
Proof. intros F. destruct f0_val as [F0 V0]. unfold fgt. destruct (flt_R _ _ F0 F) as [L|L]; rewrite V0 in L; destruct Rlt_dec; try reflexivity; contradiction. Qed.
Lemma unit_mul x y : finite x -> finite y -> (B2R x = 1 \/ B2R x = -1) -> finite (fmul x y) /\ B2R (fmul x y) = B2R x * B2R y.
Proof.
  intros Fx Fy S. pose proof (fmul_result x y Fx Fy) as R. destruct (fneg_val y Fy) as [_ VN]. destruct S as [E|E]; [apply (result_exact _ _ y R)|apply (result_exact _ _ (fneg y) R)]; rewrite ?VN, E; ring.
Qed.
Lemma carries_meets n f g x y : carries g (cube_point f x y) -> on_plane n (cube_point f x y) -> meets n g.
Proof. unfold carries. destruct (in_frame g (cube_point f x y)) as [u v] eqn:E. intros [O C] P. exists u, v. split; [exact O|]. rewrite C. exact P. Qed.

(** One turn of the loop. *)
Lemma turn ab f n target : is_face f -> fvec ab -> ~ (B2R (vx ab) = 0 /\ B2R (vy ab) = 0 /\ B2R (vz ab) = 0) -> meets ab f -> face_xyz_to_uvw f ab = Some n ->
  let e := exit_point n (exit_axis n) in
  finite (px e) /\ finite (py e) /\ on_face (B2R (px e)) (B2R (py e)) /\
  exists g, next_face f e (exit_axis n) n target = Some g /\ is_face g /\ neighbours f g /\ meets ab g /\ carries g (at2 f e).
Proof.
  intros F FN NZ (u0 & v0 & O & P) E e. destruct (frame_line f ab n F FN E) as (Fn & LP & NZ'). assert (M : exists x y, on_face x y /\ on_line n x y) by (exists u0, v0; split; [exact O|apply LP, P]).
  pose proof (C143_exit n Fn (NZ' NZ) M) as CE. cbv zeta in CE. fold e in CE. destruct CE as (Fx & Fy & OF & x & y & OX & LX & _ & AX). split; [exact Fx|]. split; [exact Fy|]. split; [exact OF|].
  apply LP in LX. destruct Fn as (N1 & N2 & N3). destruct f1_val as [FO VO]. unfold next_face, at2. set (axis := exit_axis n) in *. clearbody axis e.
  destruct axis; [change (1 - axis_value AxisU)%Z with 1%Z; change (axis_value AxisU) with 0%Z|change (1 - axis_value AxisV)%Z with 0%Z; change (axis_value AxisV) with 1%Z]; rewrite !dir_of by assumption; destruct AX as (U & PX & _); apply unit_cases in U.
  - rewrite <- PX in U. destruct (shared_u f _ _ F OF U) as (g & G1 & G2 & G3 & G4). rewrite PX in U.  destruct (shared_u f x y F OX U) as (g' & G1' & _ & _ & G4'). rewrite <- PX in G1'. rewrite G1 in G1'. injection G1' as <-.
    destruct (uvw_face f 1 (if Rlt_dec 0 (B2R (py e)) then 1 else 0)%Z) as [o|] eqn:EO.
    2:{ exfalso. clear - F EO. each_face F; destruct Rlt_dec; discriminate EO. }
    destruct (feq (fabs (py e)) f1 && (o =? target)%Z && _) eqn:T; [|exists g; split; [exact G1|]; split; [exact G2|]; split; [exact G3|]; split; [exact (carries_meets ab f g x y G4' LX)|exact G4]].
    apply andb_prop in T as [T T3]. apply andb_prop in T as [T1 T2]. apply Z.eqb_eq in T2. subst o. destruct (fabs_val _ Fy) as [FA VA]. apply (feq_val _ _ FA FO) in T1. rewrite VA, VO in T1. apply unit_cases in T1. destruct (shared_v f _ _ F OF T1) as (g2 & H1 & H2 & H3 & H4). rewrite H1 in EO. injection EO as <-.
    rewrite <- PX in U. destruct (unit_mul _ _ Fx N1 U) as [FA1 VA1]. destruct (unit_mul _ _ Fy N2 T1) as [FA2 VA2]. destruct (fneg_val _ N3) as [FA3 VA3]. apply (C143_sum _ _ _ FA1 FA2 FA3) in T3. rewrite VA1, VA2, VA3 in T3.
    exists g2. split; [reflexivity|]. split; [exact H2|]. split; [exact H3|]. split; [|exact H4]. apply (carries_meets ab f g2 _ _ H4). apply LP. unfold on_line. lra.
  - rewrite <- PX in U. destruct (shared_v f _ _ F OF U) as (g & G1 & G2 & G3 & G4). rewrite PX in U.  destruct (shared_v f x y F OX U) as (g' & G1' & _ & _ & G4'). rewrite <- PX in G1'. rewrite G1 in G1'. injection G1' as <-.
    destruct (uvw_face f 0 (if Rlt_dec 0 (B2R (px e)) then 1 else 0)%Z) as [o|] eqn:EO.
    2:{ exfalso. clear - F EO. each_face F; destruct Rlt_dec; discriminate EO. }
    destruct (feq (fabs (px e)) f1 && (o =? target)%Z && _) eqn:T; [|exists g; split; [exact G1|]; split; [exact G2|]; split; [exact G3|]; split; [exact (carries_meets ab f g x y G4' LX)|exact G4]].
    apply andb_prop in T as [T T3]. apply andb_prop in T as [T1 T2]. apply Z.eqb_eq in T2. subst o. destruct (fabs_val _ Fx) as [FA VA]. apply (feq_val _ _ FA FO) in T1. rewrite VA, VO in T1. apply unit_cases in T1. destruct (shared_u f _ _ F OF T1) as (g2 & H1 & H2 & H3 & H4). rewrite H1 in EO. injection EO as <-.
    rewrite <- PX in U. destruct (unit_mul _ _ Fx N1 T1) as [FA1 VA1]. destruct (unit_mul _ _ Fy N2 U) as [FA2 VA2]. destruct (fneg_val _ N3) as [FA3 VA3]. apply (C143_sum _ _ _ FA1 FA2 FA3) in T3. rewrite VA1, VA2, VA3 in T3.
    exists g2. split; [reflexivity|]. split; [exact H2|]. split; [exact H3|]. split; [|exact H4]. apply (carries_meets ab f g2 _ _ H4). apply LP. unfold on_line. lra.
Qed.

(** The points of the path: the end of each segment is the start of the next one, on a neighbouring face; all these points are on the faces. *)
Fixpoint path (l : list face_segment) : Prop :=
  match l with
  | s :: ((t :: _) as r) =>
      at2 (fs_face s) (fs_b s) = at2 (fs_face t) (fs_a t) /\ neighbours (fs_face s) (fs_face t) /\
      on_face (B2R (px (fs_b s))) (B2R (py (fs_b s))) /\ on_face (B2R (px (fs_a t))) (B2R (py (fs_a t))) /\ path r
  | _ => True
  end.

Lemma path_cons s t r : at2 (fs_face s) (fs_b s) = at2 (fs_face t) (fs_a t) /\ neighbours (fs_face s) (fs_face t) /\ on_face (B2R (px (fs_b s))) (B2R (py (fs_b s))) /\ on_face (B2R (px (fs_a t))) (B2R (py (fs_a t))) /\ path (t :: r) -> path (s :: t :: r).
Proof. intros H. exact H. Qed.
Lemma loop_head k ab bf bs f a l : face_loop k ab bf bs f a = Some l -> exists s r, l = s :: r /\ fs_face s = f /\ fs_a s = a.
Proof.
  destruct k; cbn [face_loop]; destruct (f =? bf)%Z; intros E; try discriminate; try (injection E as <-; eexists _, _; repeat split).
  destruct (face_xyz_to_uvw f ab) as [n|]; [|discriminate]. destruct (face_uv_to_xyz f _ _); [|discriminate]. destruct (next_face _ _ _ _ _); [|discriminate]. destruct (face_xyz_to_uvw z _); [|discriminate]. destruct (face_loop _ _ _ _ _ _); [|discriminate]. injection E as <-. eexists _, _. repeat split.
Qed.
Lemma loop_path ab bf bs : fvec ab -> ~ (B2R (vx ab) = 0 /\ B2R (vy ab) = 0 /\ B2R (vz ab) = 0) ->
  forall k f a l, is_face f -> meets ab f -> face_loop k ab bf bs f a = Some l -> path l /\ (forall s, In s l -> is_face (fs_face s) /\ meets ab (fs_face s)).
Proof.
  intros FN NZ. induction k as [|k IH]; intros f a l F M E; cbn [face_loop] in E; destruct (f =? bf)%Z eqn:EQ; try discriminate.
  1,2: apply Z.eqb_eq in EQ; injection E as <-; split; [exact I|]; intros s [<-|[]]; auto.
  destruct (face_xyz_to_uvw f ab) as [n|] eqn:EN; [|discriminate]. pose proof (turn ab f n bf F FN NZ M EN) as T. cbv zeta in T. set (e := exit_point n (exit_axis n)) in *. destruct T as (Fx & Fy & OF & g & G1 & G2 & G3 & G4 & G5).
  destruct (point_xyz f e F Fx Fy) as (q & Q1 & Q2 & Q3). rewrite Q1, G1 in E. destruct (face_xyz_to_uvw g q) as [m|] eqn:EM; [|discriminate]. destruct (xyz_frame g q m G2 Q2 EM) as (M1 & _ & _).
  destruct (face_loop k ab bf bs g (P2 (vx m) (vy m))) as [r|] eqn:EL; [|discriminate]. injection E as <-.
  destruct (IH g _ r G2 G4 EL) as (A & B). destruct (loop_head _ _ _ _ _ _ _ EL) as (s & r' & -> & S1 & S2). unfold carries in G5. rewrite Q3, M1 in G5. destruct G5 as [G5 G6]. split.
  - apply path_cons. cbn [fs_face fs_a fs_b]. rewrite S1, S2. cbn [px py]. split; [|split; [exact G3|split; [exact OF|split; [exact G5|exact A]]]]. rewrite Q3. unfold at2. cbn [px py]. symmetry. exact G6.
  - intros t [<-|T]; [cbn; auto|apply B, T].
Qed.

Lemma face_range r : is_face (face r).
Proof. unfold face, is_face. destruct (fgt (vy (vabs r)) (vx (vabs r))); destruct (fgt (vz (vabs r)) _); destruct (flt _ f0); lia. Qed.
Lemma uvw_range f ax d g : is_face f -> (ax = 0 \/ ax = 1)%Z -> (d = 0 \/ d = 1)%Z -> uvw_face f ax d = Some g -> is_face g /\ neighbours f g.
Proof. intros F [-> | ->] [-> | ->] E; each_face F; injection E as <-; (split; [unfold is_face; lia|split; vm_compute; discriminate]). Qed.
Lemma move_range f a ab p g q : is_face f -> move_origin_to_valid_face f a ab p = Some (g, q) -> is_face g /\ ((g = f /\ q = p) \/ neighbours f g).
Proof.
  intros F. unfold move_origin_to_valid_face. destruct (origin_is_valid f a ab p) as [[|]|]; [|..]; intros E; try discriminate; [injection E as <- <-; auto|].
  destruct (fge _ _); [destruct (uvw_face f 0 _) as [g'|] eqn:U|destruct (uvw_face f 1 _) as [g'|] eqn:U]; try discriminate; (apply uvw_range in U; [|exact F|auto|destruct (fgt _ _); auto]); destruct (valid_face_xyz_to_uv g' a) as [[? ?]|]; try discriminate; injection E as <- <-; tauto.
Qed.
Lemma uv_face a f u v : xyz_to_face_uv a = Some (f, u, v) -> f = face a.
Proof. unfold xyz_to_face_uv. destruct (valid_face_xyz_to_uv (face a) a) as [[? ?]|]; [|discriminate]. intros E. injection E as <- _ _. reflexivity. Qed.
Lemma loop_last k ab bf bs : forall f a l, face_loop k ab bf bs f a = Some l -> exists s r, rev l = s :: r /\ fs_face s = bf /\ fs_b s = bs.
Proof.
  induction k as [|k IH]; intros f a l E; cbn [face_loop] in E; destruct (f =? bf)%Z eqn:Q; try discriminate; try (apply Z.eqb_eq in Q; subst; injection E as <-; eexists _, _; repeat split; reflexivity).
  destruct (face_xyz_to_uvw f ab) as [n|]; [|discriminate]. destruct (face_uv_to_xyz f _ _); [|discriminate]. destruct (next_face _ _ _ _ _) as [g|]; [|discriminate]. destruct (face_xyz_to_uvw g _); [|discriminate]. destruct (face_loop _ _ _ _ g _) as [r|] eqn:L; [|discriminate]. injection E as <-.
  destruct (IH _ _ _ L) as (s & r' & A & B). cbn [rev]. rewrite A. exists s, (r' ++ [FS f a (exit_point n (exit_axis n))]). split; [reflexivity|exact B].
Qed.

(** [fuel] bounds the turns of the loop of the code; the claim holds for each number of turns.  The plane with the computed normal has to meet the
    face where the path starts. *)
Theorem C147_path : forall fuel a b l s, face_segments fuel a b = Some l -> hd_error l = Some s ->
  fvec (point_cross a b) -> ~ (B2R (vx (point_cross a b)) = 0 /\ B2R (vy (point_cross a b)) = 0 /\ B2R (vz (point_cross a b)) = 0) ->
  meets (point_cross a b) (fs_face s) ->
  path l /\ (forall t, In t l -> is_face (fs_face t) /\ meets (point_cross a b) (fs_face t)).
Proof.
  intros fuel a b l s E H FN NZ M. unfold face_segments in E. destruct (xyz_to_face_uv a) as [[[af ax] ay]|] eqn:EA; [|discriminate]. destruct (xyz_to_face_uv b) as [[[bf bx] by_]|] eqn:EB; [|discriminate]. apply uv_face in EA, EB.
  destruct (af =? bf)%Z.
  - injection E as <-. injection H as <-. split; [exact I|]. intros t [<-|[]]. split; [cbn; rewrite EA; apply face_range|exact M].
  - cbv zeta in E. destruct (move_origin_to_valid_face af _ _ _) as [[f p]|] eqn:EM; [|discriminate]. destruct (move_origin_to_valid_face bf _ _ _) as [[g q]|]; [|discriminate]. apply move_range in EM; [|rewrite EA; apply face_range]. destruct EM as [F _].
    destruct (loop_head _ _ _ _ _ _ _ E) as (s' & r & L & S1 & _). rewrite L in H. injection H as <-. rewrite S1 in M. destruct (loop_path _ _ _ FN NZ _ _ _ _ F M E) as (A & B). auto.
Qed.
Print Assumptions C147_path.

(** The path starts on the face of a, where a is, or on a neighbour; and ends so at b. *)
Theorem C147_ends : forall fuel a b l, face_segments fuel a b = Some l -> exists s t r r', l = s :: r /\ l = r' ++ [t] /\
  (xyz_to_face_uv a = Some (fs_face s, px (fs_a s), py (fs_a s)) \/ neighbours (face a) (fs_face s)) /\
  (xyz_to_face_uv b = Some (fs_face t, px (fs_b t), py (fs_b t)) \/ neighbours (face b) (fs_face t)).
Proof.
  intros fuel a b l E. unfold face_segments in E. destruct (xyz_to_face_uv a) as [[[af ax] ay]|] eqn:EA; [|discriminate]. destruct (xyz_to_face_uv b) as [[[bf bx] by_]|] eqn:EB; [|discriminate]. apply uv_face in EA, EB.
  destruct (af =? bf)%Z eqn:Q.
  - injection E as <-. apply Z.eqb_eq in Q. eexists _, _, [], []. split; [reflexivity|]. split; [reflexivity|]. cbn [fs_face fs_a fs_b px py]. rewrite <- Q. auto.
  - cbv zeta in E. destruct (move_origin_to_valid_face af _ _ _) as [[f p]|] eqn:EM; [|discriminate]. destruct (move_origin_to_valid_face bf _ _ _) as [[g q]|] eqn:EM2; [|discriminate]. apply move_range in EM; [|rewrite EA; apply face_range]. apply move_range in EM2; [|rewrite EB; apply face_range].
    destruct (loop_head _ _ _ _ _ _ _ E) as (s & r & L & S1 & S2). destruct (loop_last _ _ _ _ _ _ _ E) as (t & r' & L' & T1 & T2). exists s, t, r, (rev r'). split; [exact L|]. split; [rewrite <- (rev_involutive l), L'; reflexivity|]. rewrite S1, S2, T1, T2, <- EA, <- EB. split.
    + destruct EM as [_ [[-> ->]|N]]; [left; reflexivity|right; exact N].
    + destruct EM2 as [_ [[-> ->]|N]]; [left; reflexivity|right; exact N].
Qed.
Print Assumptions C147_ends.

(* from (1, 0, 0) to (-1, 1, 1/2): three segments; the normal is not zero and its plane meets the first face *)
Definition seg_faces (l : option (list face_segment)) : option (list Z) := option_map (map fs_face) l.
Example C147_example : let a := Vec f1 f0 f0 in let b := Vec (of_int (-1)) f1 fhalf in
  seg_faces (face_segments 5 a b) = Some [0; 1; 3]%Z /\ fvec (point_cross a b) /\ feq (vz (point_cross a b)) f0 = false /\ intersects_face (match face_xyz_to_uvw 0 (point_cross a b) with Some n => n | None => a end) = true.
Proof. vm_compute. repeat split. Qed.
