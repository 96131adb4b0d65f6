(** The values of st_to_uv at the grid lines, and the leaf column of a coordinate. *)
From Coq Require Import Reals Lra Lia.
From Flocq Require Import Core.
From Verif Require Import Base F64 F64Facts IntervalSpec F64Arith F64Error S1Proofs R1Model VectorModel StuvModel CellIdModel HilbertModel NeighborModel CellModel StuvError.
Open Scope R_scope.

Lemma float_eq (x y : f64) : finite x -> finite y -> B2R x = B2R y -> B2R x <> 0 -> x = y.
Proof.
  intros Fx Fy E N. unfold finite in *. apply B2R_inj; auto.
  - destruct x; try discriminate; [exfalso; apply N; reflexivity|reflexivity].
  - destruct y; try discriminate; [exfalso; apply N; rewrite E; reflexivity|reflexivity].
Qed.

(* grid line k, in units of half a leaf *)
Definition lat (k : Z) : f64 := fdiv (of_int k) (of_int (2 ^ 31)).

Lemma lat_val k : (0 <= k <= 2 ^ 31)%Z -> finite (lat k) /\ B2R (lat k) = IZR k / 2147483648.
Proof.
  intros H. destruct (of_int_val k ltac:(lia)) as [F V]. destruct (of_int_val (2 ^ 31) ltac:(lia)) as [F' V'].
  change (IZR (2 ^ 31)) with 2147483648 in V'.
  pose proof (fdiv_result (of_int k) (of_int (2 ^ 31)) F F' ltac:(rewrite V'; lra)) as R. rewrite V, V' in R.
  apply (result_format _ _ k (-31) R); [lia|lia|]. change (bpow radix2 (-31)) with (/ 2147483648). reflexivity.
Qed.
Lemma lat_01 k : (0 <= k <= 2 ^ 31)%Z -> 0 <= B2R (lat k) <= 1.
Proof. intros H. destruct (lat_val k H) as [_ ->]. destruct H as [A B]. apply IZR_le in A, B. change (IZR (2 ^ 31)) with 2147483648 in B. lra. Qed.

Lemma siti_lat k : (0 <= k <= 2 ^ 31)%Z -> siti_to_st k = lat k.
Proof. intros H. unfold siti_to_st, MAX_SITI. destruct (Z.ltb_spec (2 ^ 31) k); [lia|reflexivity]. Qed.
Lemma ij_lat i : (0 <= i <= 2 ^ 30)%Z -> ij_to_stmin i = lat (2 * i).
Proof.
  intros H. unfold ij_to_stmin, MAX_SIZE_F64, MAX_SIZE, MAX_LEVEL. destruct (Z.eq_dec i 0) as [->|N]; [vm_compute; reflexivity|].
  destruct (of_int_val i ltac:(lia)) as [F V]. destruct (of_int_val (2 ^ 30) ltac:(lia)) as [F' V'].
  change (IZR (2 ^ 30)) with 1073741824 in V'.
  pose proof (fdiv_result (of_int i) (of_int (2 ^ 30)) F F' ltac:(rewrite V'; lra)) as R. rewrite V, V' in R.
  destruct (result_format _ _ i (-30) R) as [Fz Vz]; [lia|lia|change (bpow radix2 (-30)) with (/ 1073741824); reflexivity|].
  destruct (lat_val (2 * i) ltac:(lia)) as [Fl Vl]. apply float_eq; auto.
  - rewrite Vz, Vl, mult_IZR. lra.
  - rewrite Vz. assert (0 < IZR i) by (apply IZR_lt; lia). lra.
Qed.

(* the u coordinate of grid line k *)
Definition uvl (k : Z) : f64 := st_to_uv (lat k).
Definition UUk (k : Z) : R := UU (IZR k / 2147483648).
Lemma uvl_val k : (0 <= k <= 2 ^ 31)%Z -> finite (uvl k) /\ Rabs (B2R (uvl k) - UUk k) <= 4 * eps /\ -1 <= B2R (uvl k) <= 1.
Proof.
  intros H. destruct (lat_val k H) as [F V]. pose proof (lat_01 k H) as B. destruct (st_to_uv_err (lat k) F B) as [G E].
  split; [exact G|]. split; [unfold UUk; rewrite <- V; exact E|]. apply st_to_uv_range; auto.
Qed.
Lemma UUk_gap j k : (0 <= j <= k)%Z -> (k <= 2 ^ 31)%Z -> 4 / 3 * ((IZR k - IZR j) / 2147483648) <= UUk k - UUk j.
Proof.
  intros H K. unfold UUk. assert (0 <= IZR j /\ IZR j <= IZR k /\ IZR k <= 2147483648) as (A & B & C).
  { destruct H as [H1 H2]. apply IZR_le in H1, H2, K. change (IZR (2 ^ 31)) with 2147483648 in K. lra. }
  destruct (UU_slope (IZR j / 2147483648) (IZR k / 2147483648)) as [S _]; lra.
Qed.
(* consecutive lines are at least 2^-31 apart *)
Lemma uvl_gap j k : (0 <= j < k)%Z -> (k <= 2 ^ 31)%Z -> B2R (uvl j) + / 2147483648 <= B2R (uvl k).
Proof.
  intros H K. pose proof (UUk_gap j k ltac:(lia) K) as G. assert (D : 1 <= IZR k - IZR j).
  { rewrite <- minus_IZR. change 1 with (IZR 1). apply IZR_le. lia. }
  destruct (uvl_val j ltac:(lia)) as (_ & E & _). destruct (uvl_val k ltac:(lia)) as (_ & E' & _). apply Rabs_le_inv in E, E'. lra.
Qed.
Lemma feq_B2R (x y : f64) : finite x -> finite y -> feq x y = true -> B2R x = B2R y.
Proof. intros Fx Fy E. revert E. destruct (feq_R x y Fx Fy); [auto|discriminate]. Qed.
Lemma uvl_ends : B2R (uvl 0) = -1 /\ B2R (uvl (2 ^ 31)) = 1 /\ B2R (uvl (2 ^ 30)) = 0.
Proof.
  destruct f1_val as [F1 V1]. destruct (fneg_val f1 F1) as [Fn Vn]. rewrite V1 in Vn.
  split; [|split].
  - rewrite (feq_B2R (uvl 0) (fneg f1)); [lra|vm_compute; reflexivity|exact Fn|vm_compute; reflexivity].
  - rewrite (feq_B2R (uvl (2 ^ 31)) f1); [lra|vm_compute; reflexivity|exact F1|vm_compute; reflexivity].
  - rewrite (feq_B2R (uvl (2 ^ 30)) f0); [reflexivity|vm_compute; reflexivity|reflexivity|vm_compute; reflexivity].
Qed.
Lemma uvl_neg k : (0 <= k <= 2 ^ 31)%Z -> B2R (uvl (2 ^ 31 - k)) = - B2R (uvl k).
Proof.
  assert (P : forall k, (2 ^ 30 < k <= 2 ^ 31)%Z -> B2R (uvl (2 ^ 31 - k)) = - B2R (uvl k)).
  { clear k. intros k H. destruct (lat_val k ltac:(lia)) as [F V]. destruct (lat_val (2 ^ 31 - k) ltac:(lia)) as [F' V'].
    rewrite minus_IZR in V'. change (IZR (2 ^ 31)) with 2147483648 in V'.
    assert (1073741824 < IZR k <= 2147483648) by (split; [apply IZR_lt; lia|change 2147483648 with (IZR (2 ^ 31)); apply IZR_le; lia]).
    unfold uvl. destruct (st_hi (lat k) F ltac:(lra)) as [_ ->]. destruct (st_lo (lat (2 ^ 31 - k)) F' ltac:(lra)) as [_ ->].
    assert (rnd (1 - B2R (lat (2 ^ 31 - k))) = B2R (lat k)) as ->; [|reflexivity].
    rewrite <- (rnd_fix (lat k)). f_equal. rewrite V, V'. lra. }
  intros H. destruct (Z.lt_trichotomy k (2 ^ 30)) as [L|[->|L]].
  - replace k with (2 ^ 31 - (2 ^ 31 - k))%Z at 2 by lia. rewrite (P (2 ^ 31 - k)%Z) by lia. lra.
  - change (2 ^ 31 - 2 ^ 30)%Z with (2 ^ 30)%Z. destruct uvl_ends as (_ & _ & ->). lra.
  - apply P. lia.
Qed.

(** ** Leaf columns *)
Lemma st_to_ij_range s : (0 <= st_to_ij s < 2 ^ 30)%Z.
Proof. unfold st_to_ij, clampZ, MAX_SIZE, MAX_LEVEL. destruct (Z.ltb_spec (to_int (- 2 ^ 31) (2 ^ 31 - 1) (ffloor (fmul MAX_SIZE_F64 s))) 0); [lia|].
  destruct (Z.ltb_spec (2 ^ 30 - 1) (to_int (- 2 ^ 31) (2 ^ 31 - 1) (ffloor (fmul MAX_SIZE_F64 s)))); lia. Qed.

Lemma st_to_ij_floor s : finite s -> 0 <= B2R s <= 1 ->
  st_to_ij s = Z.min (Zfloor (1073741824 * B2R s)) (2 ^ 30 - 1).
Proof.
  intros F B. destruct (of_int_val (2 ^ 30) ltac:(lia)) as [F' V']. change (IZR (2 ^ 30)) with 1073741824 in V'.
  unfold st_to_ij, MAX_SIZE_F64, MAX_SIZE, MAX_LEVEL.
  pose proof (fmul_result (of_int (2 ^ 30)) s F' F) as R. rewrite V' in R.
  destruct (result_half _ _ 31 ltac:(lia) R) as (Fm & Vm & _); [rewrite Rabs_pos_eq; [change (pow2 31) with 2147483648; lra|lra]|].
  rewrite (Rmult_comm 1073741824) in Vm. change 1073741824 with (pow2 30) in Vm. rewrite rnd_scale in Vm by lia.
  change (pow2 30) with 1073741824 in Vm. rewrite Rmult_comm in Vm. set (t := fmul (of_int (2 ^ 30)) s) in *.
  destruct (ffloor_val t Fm) as [Ff Vf]. rewrite Vm in Vf. set (n := Zfloor (1073741824 * B2R s)) in *.
  assert (Bn : (0 <= n <= 2 ^ 30)%Z).
  { unfold n. split; [apply Zfloor_lub; lra|]. apply le_IZR. change (IZR (2 ^ 30)) with 1073741824.
    pose proof (Zfloor_lb (1073741824 * B2R s)). lra. }
  rewrite (to_int_val _ _ _ n Ff Vf) by lia. unfold clampZ.
  destruct (Z.ltb_spec n 0); [lia|]. destruct (Z.ltb_spec (2 ^ 30 - 1) n); lia.
Qed.

(* the column of a coordinate contains it, up to the rounding of the two maps *)
Lemma column (x : f64) : finite x -> -1 <= B2R x <= 1 ->
  let i := st_to_ij (uv_to_st x) in
  (0 <= i < 2 ^ 30)%Z /\ B2R (uvl (2 * i)) - 8 * eps <= B2R x <= B2R (uvl (2 * i + 2)) + 8 * eps.
Proof.
  intros F B i. destruct (uv_to_st_err x F B) as (Fs & Bs & E). split; [apply st_to_ij_range|].
  pose proof (st_to_ij_range (uv_to_st x)) as Ri. fold i in Ri.
  assert (Ei : i = Z.min (Zfloor (1073741824 * B2R (uv_to_st x))) (2 ^ 30 - 1)) by (apply st_to_ij_floor; auto).
  set (s := uv_to_st x) in *. pose proof (Zfloor_lb (1073741824 * B2R s)) as L1. pose proof (Zfloor_ub (1073741824 * B2R s)) as L2.
  destruct (uvl_val (2 * i) ltac:(lia)) as (_ & E1 & _). destruct (uvl_val (2 * i + 2) ltac:(lia)) as (_ & E2 & _).
  apply Rabs_le_inv in E, E1, E2. unfold UUk in *. rewrite plus_IZR, mult_IZR in E2. rewrite mult_IZR in E1.
  assert (IZR i <= 1073741824 * B2R s).
  { eapply Rle_trans; [|exact L1]. apply IZR_le. lia. }
  assert (0 <= IZR i) by (apply IZR_le; lia). assert (IZR i + 1 <= 1073741824).
  { change 1 with (IZR 1). rewrite <- plus_IZR. change 1073741824 with (IZR (2 ^ 30)). apply IZR_le. lia. }
  split.
  - destruct (UU_slope (2 * IZR i / 2147483648) (B2R s)) as [S _]; lra.
  - destruct (Z.min_spec (Zfloor (1073741824 * B2R s)) (2 ^ 30 - 1)) as [[_ M]|[_ M]]; rewrite M in Ei.
    + rewrite <- Ei in L2. destruct (UU_slope (B2R s) ((2 * IZR i + 2) / 2147483648)) as [S _]; lra.
    + rewrite Ei in *. change (2 * (2 ^ 30 - 1) + 2)%Z with (2 ^ 31)%Z. destruct uvl_ends as (_ & -> & _). lra.
Qed.

(* a coordinate close to grid line k, strictly inside the face, is in a column that
   touches the line *)
Lemma column_near (x : f64) k : finite x -> (0 < k < 2 ^ 31)%Z -> Rabs (B2R x - B2R (uvl k)) <= 8 * eps ->
  let i := st_to_ij (uv_to_st x) in (2 * i <= k <= 2 * i + 2)%Z.
Proof.
  intros F K N i. destruct (uvl_val k ltac:(lia)) as (Fk & _ & _).
  pose proof (uvl_gap 0 k ltac:(lia) ltac:(lia)) as G0. pose proof (uvl_gap k (2 ^ 31) ltac:(lia) ltac:(lia)) as G1.
  destruct uvl_ends as (E0 & E1 & _). rewrite E0 in G0. rewrite E1 in G1. apply Rabs_le_inv in N.
  destruct (column x F ltac:(lra)) as (Ri & Lo & Hi). fold i in Ri, Lo, Hi. split.
  - destruct (Z.le_gt_cases (2 * i) k); [auto|]. pose proof (uvl_gap k (2 * i) ltac:(lia) ltac:(lia)). lra.
  - destruct (Z.le_gt_cases k (2 * i + 2)); [auto|]. pose proof (uvl_gap (2 * i + 2) k ltac:(lia) ltac:(lia)). lra.
Qed.
