(** Facts about r1 intervals and r2 rectangles. *)
From Coq Require Import Reals Lra.
From Verif Require Import F64 F64Facts IntervalSpec R1Model.
Open Scope R_scope.

(** An order embedding of the extended line into the reals. *)
Definition phi (x : ext) : R :=
  match x with MInf => - (PI / 2) | Fin r => atan r | PInf => PI / 2 end.
Lemma phi_le x y : ele x y <-> phi x <= phi y.
Proof.
  pose proof PI_RGT_0.
  destruct x as [|a|], y as [|b|]; cbn [ele phi];
    try (pose proof (atan_bound a)); try (pose proof (atan_bound b)); split; intros; try lra; auto.
  - destruct (Req_dec a b); [subst; lra|]. left. apply atan_increasing. lra.
  - destruct (Rle_lt_dec a b); auto. pose proof (atan_increasing b a). lra.
Qed.
Lemma phi_lt x y : elt x y <-> phi x < phi y.
Proof. unfold elt. rewrite phi_le. lra. Qed.
Lemma phi_inj x y : phi x = phi y -> x = y.
Proof.
  intros E. assert (L : ele x y /\ ele y x) by (rewrite !phi_le; lra).
  destruct L as [L1 L2]. destruct x, y; cbn in *; try contradiction; auto. f_equal; lra.
Qed.
Lemma dense x y : elt x y -> exists z, elt x z /\ elt z y.
Proof.
  unfold elt. intros H. destruct x as [|a|], y as [|b|]; cbn in H; try tauto.
  - exists (Fin (b - 1)). cbn. split; [tauto|lra].
  - exists (Fin 0). cbn. tauto.
  - exists (Fin ((a + b) / 2)). cbn. lra.
  - exists (Fin (a + 1)). cbn. split; [lra|tauto].
Qed.

Lemma ev_rank x y : number x -> number y -> ele (ev x) (ev y) <-> (rank x <= rank y)%Z.
Proof.
  unfold number. intros Nx Ny.
  destruct (nan_false_cases x Nx) as [(sx & ->)|Fx]; destruct (nan_false_cases y Ny) as [(sy & ->)|Fy].
  - destruct sx, sy; cbn [ev ele rank]; pose proof far_pos; split; intros; try lia; auto.
  - pose proof (rank_bound y Fy). pose proof far_pos.
    destruct sx, y as [|[]| |]; try discriminate Fy; cbn [ev ele rank] in *; split; intros; try lia; auto; contradiction.
  - pose proof (rank_bound x Fx). pose proof far_pos.
    destruct sy, x as [|[]| |]; try discriminate Fx; cbn [ev ele rank] in *; split; intros; try lia; auto; contradiction.
  - assert (Ex : ev x = Fin (B2R x)) by (destruct x; try discriminate Fx; reflexivity).
    assert (Ey : ev y = Fin (B2R y)) by (destruct y; try discriminate Fy; reflexivity).
    rewrite Ex, Ey. cbn [ele]. rewrite !rank_R by auto.
    pose proof bpow_m1074_pos. split; intros.
    + apply le_IZR. eapply Rmult_le_reg_r; eauto.
    + apply Rmult_le_compat_r; [lra|]. apply IZR_le; auto.
Qed.

Definition g (x : f64) : R := phi (ev x).
Lemma g_rank x y : number x -> number y -> g x <= g y <-> (rank x <= rank y)%Z.
Proof. intros. unfold g. rewrite <- phi_le. apply ev_rank; auto. Qed.
Lemma fle_g x y : number x -> number y -> BoolSpec (g x <= g y) (~ (g x <= g y)) (fle x y).
Proof.
  intros Hx Hy. rewrite fle_rank by auto. pose proof (g_rank x y Hx Hy).
  destruct (Z.leb_spec (rank x) (rank y)); constructor; [tauto|]. intros G. apply H in G. lia.
Qed.
Lemma flt_g x y : number x -> number y -> BoolSpec (g x < g y) (~ (g x < g y)) (flt x y).
Proof.
  intros Hx Hy. rewrite flt_rank by auto. pose proof (g_rank y x Hy Hx).
  destruct (Z.ltb_spec (rank x) (rank y)); constructor.
  - apply Rnot_le_lt. intros G. apply H in G. lia.
  - apply Rle_not_lt. tauto.
Qed.
Lemma feq_g x y : number x -> number y -> BoolSpec (g x = g y) (~ (g x = g y)) (feq x y).
Proof.
  intros Hx Hy. rewrite feq_rank by auto. pose proof (g_rank y x Hy Hx). pose proof (g_rank x y Hx Hy).
  destruct (Z.eqb_spec (rank x) (rank y)); constructor.
  - apply Rle_antisym; [apply H0|apply H]; lia.
  - intros E. apply n. apply Z.le_antisymm; [apply H0|apply H]; lra.
Qed.
Lemma ev_feq x y : number x -> number y -> feq x y = true <-> ev x = ev y.
Proof.
  intros Hx Hy. destruct (feq_g x y Hx Hy) as [E|E]; split; intros A; try congruence; auto.
  - apply phi_inj; auto.
  - elim E. unfold g. congruence.
Qed.

Lemma fmax_g x y : number x -> number y -> number (fmax x y) /\ g (fmax x y) = Rmax (g x) (g y).
Proof.
  intros Hx Hy. unfold fmax, number in *. rewrite Hx, Hy. unfold Rmax.
  destruct (fle_g x y Hx Hy); destruct Rle_dec; split; auto; lra.
Qed.
Lemma fmin_g x y : number x -> number y -> number (fmin x y) /\ g (fmin x y) = Rmin (g x) (g y).
Proof.
  intros Hx Hy. unfold fmin, number in *. rewrite Hx, Hy. unfold Rmin.
  destruct (fle_g y x Hy Hx); destruct Rle_dec; split; auto; lra.
Qed.

Definition num1 (i : r1) : Prop := number (lo1 i) /\ number (hi1 i).
Definition In1 (i : r1) : ext -> Prop := between (lo1 i) (hi1 i).
Definition Int1 (i : r1) : ext -> Prop := strictly_between (lo1 i) (hi1 i).
Lemma In1_phi i x : In1 i x <-> g (lo1 i) <= phi x <= g (hi1 i).
Proof. unfold In1, between. rewrite !phi_le. unfold g. tauto. Qed.
Lemma Int1_phi i x : Int1 i x <-> g (lo1 i) < phi x < g (hi1 i).
Proof. unfold Int1, strictly_between. rewrite !phi_lt. unfold g. tauto. Qed.

Ltac cmp1 :=
  repeat match goal with
  | |- context [fle ?x ?y] => let E := fresh "E" in destruct (fle_g x y) as [E|E]; [solve [auto]|solve [auto]| |]
  | |- context [flt ?x ?y] => let E := fresh "E" in destruct (flt_g x y) as [E|E]; [solve [auto]|solve [auto]| |]
  | |- context [feq ?x ?y] => let E := fresh "E" in destruct (feq_g x y) as [E|E]; [solve [auto]|solve [auto]| |]
  | |- context [fgt ?x ?y] => unfold fgt
  | |- context [fge ?x ?y] => unfold fge
  end; cbn [andb orb negb].

Section S.
Context (i o : r1) (Hi : num1 i) (Ho : num1 o).

Lemma r1_is_empty_spec : r1_is_empty i = true <-> void (In1 i).
Proof.
  destruct Hi as [H1 H2]. unfold r1_is_empty, void. cmp1; split; intros; try congruence; auto.
  - rewrite In1_phi. lra.
  - exfalso. apply (H (ev (lo1 i))). rewrite In1_phi. fold (g (lo1 i)). lra.
Qed.
Lemma r1_contains_spec p : number p -> r1_contains i p = true <-> In1 i (ev p).
Proof.
  intros Hp. destruct Hi as [H1 H2]. rewrite In1_phi. fold (g p). unfold r1_contains.
  cmp1; split; intros; try congruence; lra.
Qed.
Lemma r1_interior_contains_spec p : number p -> r1_interior_contains i p = true <-> Int1 i (ev p).
Proof.
  intros Hp. destruct Hi as [H1 H2]. rewrite Int1_phi. fold (g p). unfold r1_interior_contains.
  cmp1; split; intros; try congruence; lra.
Qed.
Lemma r1_contains_interval_spec : r1_contains_interval i o = true <-> subset (In1 o) (In1 i).
Proof.
  destruct Hi as [H1 H2], Ho as [H3 H4]. unfold r1_contains_interval, r1_is_empty, subset. split.
  - intros H x. rewrite !In1_phi. revert H. cmp1; intros; try congruence; lra.
  - intros H. pose proof (H (ev (lo1 o))) as A. pose proof (H (ev (hi1 o))) as B.
    rewrite !In1_phi in A, B. fold (g (lo1 o)) in *. fold (g (hi1 o)) in *.
    cmp1; auto; try lra; exfalso; lra.
Qed.
Lemma r1_interior_contains_interval_spec : r1_interior_contains_interval i o = true <-> subset (In1 o) (Int1 i).
Proof.
  destruct Hi as [H1 H2], Ho as [H3 H4]. unfold r1_interior_contains_interval, r1_is_empty, subset. split.
  - intros H x. rewrite In1_phi, Int1_phi. revert H. cmp1; intros; try congruence; lra.
  - intros H. pose proof (H (ev (lo1 o))) as A. pose proof (H (ev (hi1 o))) as B.
    rewrite !In1_phi, !Int1_phi in *. fold (g (lo1 o)) in *. fold (g (hi1 o)) in *.
    cmp1; auto; try lra; exfalso; lra.
Qed.
Lemma r1_intersects_spec : r1_intersects i o = true <-> meets (In1 i) (In1 o).
Proof.
  destruct Hi as [H1 H2], Ho as [H3 H4]. unfold r1_intersects, meets. split.
  - intros H. destruct (Rle_lt_dec (g (lo1 i)) (g (lo1 o))).
    + exists (ev (lo1 o)). rewrite !In1_phi. fold (g (lo1 o)). revert H. cmp1; intros; try congruence; lra.
    + exists (ev (lo1 i)). rewrite !In1_phi. fold (g (lo1 i)). revert H. cmp1; intros; try congruence; lra.
  - intros (x & A & B). rewrite In1_phi in A, B. cmp1; auto; exfalso; lra.
Qed.
Lemma r1_interior_intersects_spec : r1_interior_intersects i o = true <-> meets (Int1 i) (In1 o).
Proof.
  destruct Hi as [H1 H2], Ho as [H3 H4]. unfold r1_interior_intersects, meets. split.
  - intros H. assert (L : g (lo1 o) < g (hi1 i) /\ g (lo1 i) < g (hi1 o) /\ g (lo1 i) < g (hi1 i) /\ g (lo1 o) <= g (hi1 o)).
    { revert H. cmp1; intros; try congruence; lra. }
    destruct (Rlt_le_dec (g (lo1 i)) (g (lo1 o))).
    { exists (ev (lo1 o)). rewrite Int1_phi, In1_phi. fold (g (lo1 o)). lra. }
    destruct (Rlt_le_dec (g (hi1 o)) (g (hi1 i))).
    { exists (ev (hi1 o)). rewrite Int1_phi, In1_phi. fold (g (hi1 o)). lra. }
    destruct (dense (ev (lo1 i)) (ev (hi1 i))) as (z & A & B).
    { apply phi_lt. apply L. }
    exists z. rewrite Int1_phi, In1_phi. rewrite phi_lt in A, B. fold (g (lo1 i)) in *. fold (g (hi1 i)) in *. lra.
  - intros (x & A & B). rewrite Int1_phi, In1_phi in *. cmp1; auto; exfalso; lra.
Qed.
Lemma r1_intersection_spec x : In1 (r1_intersection i o) x <-> In1 i x /\ In1 o x.
Proof.
  destruct Hi as [H1 H2], Ho as [H3 H4]. rewrite !In1_phi. cbn [r1_intersection lo1 hi1].
  destruct (fmax_g (lo1 i) (lo1 o)) as [_ ->]; auto. destruct (fmin_g (hi1 i) (hi1 o)) as [_ ->]; auto.
  unfold Rmax, Rmin. destruct Rle_dec, Rle_dec; lra.
Qed.
Lemma r1_intersection_num : num1 (r1_intersection i o).
Proof.
  destruct Hi as [H1 H2], Ho as [H3 H4]. split; [apply fmax_g|apply fmin_g]; auto.
Qed.
Lemma r1_union_num : num1 (r1_union i o).
Proof.
  destruct Hi as [H1 H2], Ho as [H3 H4]. unfold r1_union. destruct (r1_is_empty i), (r1_is_empty o); split; cbn [lo1 hi1]; auto; apply fmin_g || apply fmax_g; auto.
Qed.
Lemma r1_union_upper x : In1 i x \/ In1 o x -> In1 (r1_union i o) x.
Proof.
  destruct Hi as [H1 H2], Ho as [H3 H4]. unfold r1_union, r1_is_empty. rewrite !In1_phi. cmp1; intros; auto; try lra.
  cbn [lo1 hi1].
  destruct (fmin_g (lo1 i) (lo1 o)) as [_ ->]; auto. destruct (fmax_g (hi1 i) (hi1 o)) as [_ ->]; auto.
  unfold Rmax, Rmin. destruct Rle_dec, Rle_dec; lra.
Qed.
Lemma r1_union_least k : num1 k -> subset (In1 i) (In1 k) -> subset (In1 o) (In1 k) -> subset (In1 (r1_union i o)) (In1 k).
Proof.
  intros [H5 H6] A B x. destruct Hi as [H1 H2], Ho as [H3 H4]. unfold r1_union, r1_is_empty.
  cmp1; intros; auto. revert H. rewrite !In1_phi. cbn [lo1 hi1].
  pose proof (A (ev (lo1 i))) as A1. pose proof (A (ev (hi1 i))) as A2.
  pose proof (B (ev (lo1 o))) as B1. pose proof (B (ev (hi1 o))) as B2.
  rewrite !In1_phi in A1, A2, B1, B2. fold (g (lo1 i)) in *. fold (g (hi1 i)) in *. fold (g (lo1 o)) in *. fold (g (hi1 o)) in *.
  destruct (fmin_g (lo1 i) (lo1 o)) as [_ ->]; auto. destruct (fmax_g (hi1 i) (hi1 o)) as [_ ->]; auto.
  unfold Rmax, Rmin. destruct Rle_dec, Rle_dec; lra.
Qed.
Lemma r1_add_num p : number p -> num1 (r1_add i p).
Proof.
  intros. destruct Hi as [H1 H2]. unfold r1_add. destruct (r1_is_empty i), (flt p (lo1 i)), (fgt p (hi1 i)); split; cbn [lo1 hi1]; auto.
Qed.
Lemma r1_add_upper p x : number p -> In1 i x \/ x = ev p -> In1 (r1_add i p) x.
Proof.
  intros Hp [A|A]; try subst x; destruct Hi as [H1 H2]; unfold r1_add, r1_is_empty; rewrite In1_phi in *; try fold (g p);
    cmp1; cbn [lo1 hi1]; lra.
Qed.
Lemma r1_add_least p k : number p -> num1 k -> subset (In1 i) (In1 k) -> In1 k (ev p) -> subset (In1 (r1_add i p)) (In1 k).
Proof.
  intros Hp [H5 H6] A B x. destruct Hi as [H1 H2].
  pose proof (A (ev (lo1 i))) as A1. pose proof (A (ev (hi1 i))) as A2.
  rewrite !In1_phi in *. fold (g p) in *. fold (g (lo1 i)) in *. fold (g (hi1 i)) in *.
  unfold r1_add, r1_is_empty. cmp1; cbn [lo1 hi1]; lra.
Qed.
Lemma r1_clamp_num p : number p -> number (r1_clamp_point i p).
Proof.
  intros. destruct Hi. unfold r1_clamp_point. destruct (fmin_g (hi1 i) p); auto. apply fmax_g; auto.
Qed.
Lemma r1_clamp_spec p : number p -> ~ void (In1 i) ->
  In1 i (ev (r1_clamp_point i p)) /\ (In1 i (ev p) -> ev (r1_clamp_point i p) = ev p) /\
  (elt (ev p) (ev (lo1 i)) -> ev (r1_clamp_point i p) = ev (lo1 i)) /\
  (elt (ev (hi1 i)) (ev p) -> ev (r1_clamp_point i p) = ev (hi1 i)).
Proof.
  intros Hp E. destruct Hi as [H1 H2]. assert (L : g (lo1 i) <= g (hi1 i)).
  { apply Rnot_lt_le. intros L. apply E. intros x. rewrite In1_phi. lra. }
  assert (G : g (r1_clamp_point i p) = Rmax (g (lo1 i)) (Rmin (g (hi1 i)) (g p))).
  { unfold r1_clamp_point. destruct (fmin_g (hi1 i) p) as [N G]; auto.
    destruct (fmax_g (lo1 i) (fmin (hi1 i) p)) as [_ ->]; auto. rewrite G. reflexivity. }
  rewrite !phi_lt, !In1_phi. fold (g p) (g (lo1 i)) (g (hi1 i)) (g (r1_clamp_point i p)).
  split; [|split; [|split]]; intros; try (apply phi_inj; fold (g p) (g (lo1 i)) (g (hi1 i)) (g (r1_clamp_point i p)));
    rewrite G; unfold Rmax, Rmin; repeat destruct Rle_dec; lra.
Qed.
Lemma r1_eq_spec : r1_eq i o = true <-> forall x, In1 i x <-> In1 o x.
Proof.
  destruct Hi as [H1 H2], Ho as [H3 H4]. unfold r1_eq, r1_is_empty. split.
  - intros H x. rewrite !In1_phi. revert H. cmp1; intros; try congruence; lra.
  - intros H. pose proof (H (ev (lo1 o))) as A. pose proof (H (ev (hi1 o))) as B.
    pose proof (H (ev (lo1 i))) as C. pose proof (H (ev (hi1 i))) as D.
    rewrite !In1_phi in *. fold (g (lo1 o)) in *. fold (g (hi1 o)) in *. fold (g (lo1 i)) in *. fold (g (hi1 i)) in *.
    cmp1; auto; exfalso; lra.
Qed.
End S.

Lemma r1_pair_spec p q : number p -> number q ->
  let i := r1_from_point_pair p q in
  num1 i /\ In1 i (ev p) /\ In1 i (ev q) /\
  forall k, num1 k -> In1 k (ev p) -> In1 k (ev q) -> subset (In1 i) (In1 k).
Proof.
  intros Hp Hq i. unfold i, r1_from_point_pair, subset. cmp1; (split; [split; auto|]); rewrite !In1_phi; cbn [lo1 hi1];
   (split; [fold (g p) (g q); lra|]; split; [fold (g p) (g q); lra|]); intros k Hk A B x;
   rewrite !In1_phi in *; fold (g p) (g q) in *; cbn [lo1 hi1]; lra.
Qed.
