(** Clipping an edge of the plane to a rectangle, on real numbers: edges that rise from the lower
    left to the upper right; others are mirrored. *)
From Coq Require Import ZArith Reals Lra Lia Psatz Bool.
From Flocq Require Import Core.
From Verif Require Import Base F64 F64Facts F64Arith F64Error IntervalSpec R1Model R1Proofs S1Proofs StuvError PredicatesError ClipModel ClipProofs LinProofs.
Open Scope R_scope.

Record prob := Prob { a0 : R; b0 : R; a1 : R; b1 : R; cl0 : R; ch0 : R; cl1 : R; ch1 : R }.
Definition negp (p : prob) : prob := Prob (- a0 p) (- b0 p) (- a1 p) (- b1 p) (- ch0 p) (- cl0 p) (- ch1 p) (- cl1 p).
Definition flip1 (p : prob) : prob := Prob (a0 p) (b0 p) (- a1 p) (- b1 p) (cl0 p) (ch0 p) (- ch1 p) (- cl1 p).
Definition swap (p : prob) : prob := Prob (a1 p) (b1 p) (a0 p) (b0 p) (cl1 p) (ch1 p) (cl0 p) (ch0 p).
Definition m0 p := Rmin (a0 p) (b0 p). Definition M0 p := Rmax (a0 p) (b0 p).
Definition m1 p := Rmin (a1 p) (b1 p). Definition M1 p := Rmax (a1 p) (b1 p).
Definition xs p s := a0 p + s * (b0 p - a0 p). Definition ys p s := a1 p + s * (b1 p - a1 p).
Definition lin0 p c := lin c (a0 p) (b0 p) (a1 p) (b1 p). Definition lin1 p c := lin c (a1 p) (b1 p) (a0 p) (b0 p).
Record good (p : prob) : Prop := Good {
  g_fmt : fmt (a0 p) /\ fmt (b0 p) /\ fmt (a1 p) /\ fmt (b1 p) /\ fmt (cl0 p) /\ fmt (ch0 p) /\ fmt (cl1 p) /\ fmt (ch1 p);
  g_bnd : Rabs (a0 p) <= Mx /\ Rabs (b0 p) <= Mx /\ Rabs (a1 p) <= Mx /\ Rabs (b1 p) <= Mx;
  g_s0 : spread (a0 p) (b0 p); g_s1 : spread (a1 p) (b1 p);
  g_up : 0 <= (b0 p - a0 p) * (b1 p - a1 p) }.
Lemma good_neg p : good p -> good (negp p).
Proof.
  intros [(?&?&?&?&?&?&?&?) (?&?&?&?) S0 S1 U]. split; cbn.
  - repeat split; apply fmt_opp; assumption.
  - rewrite !Rabs_Ropp. auto.
  - apply spread_opp, S0.
  - apply spread_opp, S1.
  - replace ((- b0 p - - a0 p) * (- b1 p - - a1 p)) with ((b0 p - a0 p) * (b1 p - a1 p)) by ring. exact U.
Qed.
Lemma good_swap p : good p -> good (swap p).
Proof. intros [(?&?&?&?&?&?&?&?) (?&?&?&?) S0 S1 U]. split; cbn; auto 10. rewrite Rmult_comm. exact U. Qed.

Notation e8 := (8 * u).
Lemma xs_hull p s : 0 <= s <= 1 -> m0 p <= xs p s <= M0 p.
Proof.
  intros S. unfold m0, M0, xs, Rmin, Rmax. destruct Rle_dec as [L|L].
  - pose proof (Rmult_le_pos s (b0 p - a0 p) ltac:(lra) ltac:(lra)). pose proof (Rmult_le_pos (1 - s) (b0 p - a0 p) ltac:(lra) ltac:(lra)). lra.
  - pose proof (Rmult_le_pos s (a0 p - b0 p) ltac:(lra) ltac:(lra)). pose proof (Rmult_le_pos (1 - s) (a0 p - b0 p) ltac:(lra) ltac:(lra)). lra.
Qed.
Lemma ys_hull p s : 0 <= s <= 1 -> m1 p <= ys p s <= M1 p.
Proof. exact (xs_hull (swap p) s). Qed.
(* further right is not lower *)
Lemma up_pt p s r : good p -> a0 p <> b0 p -> xs p s <= xs p r -> ys p s <= ys p r.
Proof.
  intros [_ _ _ _ U] N L. unfold xs, ys in *. destruct (Rle_lt_dec (ys p s) (ys p r)) as [K|K]; unfold ys in K; [exact K|exfalso].
  assert (A : 0 <= (r - s) * (b0 p - a0 p)) by lra. assert (B : (r - s) * (b1 p - a1 p) < 0) by lra. destruct (Req_dec r s) as [->|D]; [rewrite Rminus_diag_eq in B by reflexivity; lra|].
  assert (A' : 0 < (r - s) * (b0 p - a0 p)). { destruct A as [A|A]; [exact A|]. symmetry in A. apply Rmult_integral in A as [A|A]; lra. }
  assert (0 < ((r - s) * (b0 p - a0 p)) * - ((r - s) * (b1 p - a1 p))) by (apply Rmult_lt_0_compat; lra). assert (0 <= ((r - s) * (r - s)) * ((b0 p - a0 p) * (b1 p - a1 p))) by (apply Rmult_le_pos; [apply Rle_0_sqr|exact U]). lra.
Qed.
Lemma line0 p c : good p -> fmt c -> a0 p <> b0 p -> m0 p <= c <= M0 p -> m1 p <= lin0 p c <= M1 p /\ exists s, 0 <= s <= 1 /\ xs p s = c /\ Rabs (lin0 p c - ys p s) <= e8.
Proof.
  intros [(?&?&?&?&?&?&?&?) (?&?&?&?) S0 S1 _] F N HC. pose proof (hull_t _ _ _ N HC) as T. destruct S0 as [S0|S0]; [contradiction|].
  destruct (lin_ok c (a0 p) (b0 p) (a1 p) (b1 p)) as [P Q]; auto. split; [exact P|]. exists ((c - a0 p) / (b0 p - a0 p)). split; [exact T|]. split; [unfold xs; field; lra|]. unfold ys. rewrite (Rmult_comm ((c - a0 p) / (b0 p - a0 p))). exact Q.
Qed.
Lemma line1 p c : good p -> fmt c -> a1 p <> b1 p -> m1 p <= c <= M1 p -> m0 p <= lin1 p c <= M0 p /\ exists s, 0 <= s <= 1 /\ ys p s = c /\ Rabs (lin1 p c - xs p s) <= e8.
Proof. intros G. exact (line0 (swap p) c (good_swap p G)). Qed.
Lemma mono0 p c d : good p -> fmt c -> fmt d -> a0 p <> b0 p -> m0 p <= c <= d -> d <= M0 p -> lin0 p c <= lin0 p d \/ d - c <= wide.
Proof. intros [(?&?&?&?&?&?&?&?) (?&?&?&?) S0 S1 U] Fc Fd N HC K. apply lin_mono; auto. Qed.
Lemma mono1 p c d : good p -> fmt c -> fmt d -> a1 p <> b1 p -> m1 p <= c <= d -> d <= M1 p -> lin1 p c <= lin1 p d \/ d - c <= wide.
Proof. intros G. exact (mono0 (swap p) c d (good_swap p G)). Qed.

(* where the lower left corner can be: after the first axis, and at the end *)
Definition low1 p (l0 l1 : R) : Prop := (l0 = m0 p /\ l1 = m1 p) \/ (l0 = cl0 p /\ m0 p < cl0 p <= M0 p /\ l1 = lin0 p (cl0 p)).
Definition low p (l0 l1 : R) : Prop := low1 p l0 l1 \/ (l1 = cl1 p /\ m1 p < cl1 p <= M1 p /\ l0 = lin1 p (cl1 p)) \/
  (l0 = cl0 p /\ l1 = cl1 p /\ m0 p < cl0 p <= M0 p /\ m1 p < cl1 p <= M1 p /\ lin0 p (cl0 p) < cl1 p /\ lin1 p (cl1 p) <= cl0 p).
Definition high1 p h0 h1 := low1 (negp p) (- h0) (- h1).
Definition high p h0 h1 := low (negp p) (- h0) (- h1).
Lemma m0_neg p : m0 (negp p) = - M0 p. Proof. unfold m0, M0. cbn. symmetry. apply Ropp_Rmax. Qed.
Lemma M0_neg p : M0 (negp p) = - m0 p. Proof. unfold m0, M0. cbn. symmetry. apply Ropp_Rmin. Qed.
Lemma m1_neg p : m1 (negp p) = - M1 p. Proof. unfold m1, M1. cbn. symmetry. apply Ropp_Rmax. Qed.
Lemma M1_neg p : M1 (negp p) = - m1 p. Proof. unfold m1, M1. cbn. symmetry. apply Ropp_Rmin. Qed.
Lemma lin0_neg p c : lin0 (negp p) (- c) = - lin0 p c. Proof. unfold lin0. cbn. rewrite lin_neg, lin_opp. reflexivity. Qed.
Lemma lin1_neg p c : lin1 (negp p) (- c) = - lin1 p c. Proof. unfold lin1. cbn. rewrite lin_neg, lin_opp. reflexivity. Qed.
Lemma high1_inv p h0 h1 : high1 p h0 h1 -> (h0 = M0 p /\ h1 = M1 p) \/ (h0 = ch0 p /\ m0 p <= ch0 p < M0 p /\ h1 = lin0 p (ch0 p)).
Proof. unfold high1, low1. change (cl0 (negp p)) with (- ch0 p). rewrite m0_neg, m1_neg, M0_neg, lin0_neg. intros [H|H]; [left|right]; lra. Qed.
Lemma high_inv p h0 h1 : high p h0 h1 -> (h0 = M0 p /\ h1 = M1 p) \/ (h0 = ch0 p /\ m0 p <= ch0 p < M0 p /\ h1 = lin0 p (ch0 p)) \/ (h1 = ch1 p /\ m1 p <= ch1 p < M1 p /\ h0 = lin1 p (ch1 p)) \/ (h0 = ch0 p /\ h1 = ch1 p /\ m0 p <= ch0 p < M0 p /\ m1 p <= ch1 p < M1 p).
Proof.
  unfold high, low. intros [H|H]; [apply high1_inv in H; tauto|]. change (cl1 (negp p)) with (- ch1 p) in H. change (cl0 (negp p)) with (- ch0 p) in H. rewrite m0_neg, m1_neg, M0_neg, M1_neg, lin0_neg, lin1_neg in H. destruct H as [H|H]; [right; right; left|right; right; right]; lra.
Qed.
Lemma nd0 p c d : m0 p <= c -> c < d -> d <= M0 p -> a0 p <> b0 p.
Proof. intros A B C E. unfold m0, M0 in *. rewrite E in *. unfold Rmin, Rmax in *. destruct Rle_dec; lra. Qed.
Lemma nd1 p c d : m1 p <= c -> c < d -> d <= M1 p -> a1 p <> b1 p.
Proof. exact (nd0 (swap p) c d). Qed.
Lemma mM0 p : m0 p <= M0 p. Proof. unfold m0, M0, Rmin, Rmax. destruct Rle_dec; lra. Qed.
Lemma mM1 p : m1 p <= M1 p. Proof. exact (mM0 (swap p)). Qed.

Lemma low_hull p l0 l1 : good p -> low p l0 l1 -> m0 p <= l0 <= M0 p /\ m1 p <= l1 <= M1 p.
Proof.
  intros G. pose proof (mM0 p) as mm0. pose proof (mM1 p) as mm1. pose proof (g_fmt p G) as (fa&fb&fc&fd&fe&ff&fg&fh). intros [[[-> ->]|(-> & H1 & ->)]|[(-> & H1 & ->)|(-> & -> & H1 & H2 & _)]]; try lra.
  - destruct (line0 p (cl0 p) G) as [P _]; auto; [apply (nd0 p (m0 p) (cl0 p)); lra|lra|lra].
  - destruct (line1 p (cl1 p) G) as [P _]; auto; [apply (nd1 p (m1 p) (cl1 p)); lra|lra|lra].
Qed.
Lemma high_hull p h0 h1 : good p -> high p h0 h1 -> m0 p <= h0 <= M0 p /\ m1 p <= h1 <= M1 p.
Proof. intros G H. pose proof (low_hull _ _ _ (good_neg p G) H) as K. rewrite m0_neg, m1_neg, M0_neg, M1_neg in K. lra. Qed.
(* the corner is next to the edge *)
Lemma low_near p l0 l1 : good p -> low p l0 l1 -> exists s, 0 <= s <= 1 /\ Rabs (l0 - xs p s) <= e8 /\ Rabs (l1 - ys p s) <= e8.
Proof.
  intros G. pose proof (g_fmt p G) as (fa&fb&fc&fd&fe&ff&fg&fh). assert (Z : forall x y, x = y -> Rabs (x - y) <= e8) by (intros x y ->; rewrite Rminus_diag_eq, Rabs_R0 by reflexivity; lra). intros [[[-> ->]|(-> & H1 & ->)]|[(-> & H1 & ->)|(-> & -> & H1 & H2 & H3 & H4)]].
  - pose proof (g_up p G) as U. assert (C : (a0 p <= b0 p /\ a1 p <= b1 p) \/ (b0 p <= a0 p /\ b1 p <= a1 p)). { destruct (Rle_lt_dec (a0 p) (b0 p)) as [A|A]; destruct (Rle_lt_dec (a1 p) (b1 p)) as [B|B]; try (left; lra); try (right; lra). - destruct A as [A|A]; [|right; lra]. pose proof (Rmult_lt_0_compat (b0 p - a0 p) (a1 p - b1 p) ltac:(lra) ltac:(lra)). lra. - destruct B as [B|B]; [|right; lra]. pose proof (Rmult_lt_0_compat (a0 p - b0 p) (b1 p - a1 p) ltac:(lra) ltac:(lra)). lra. }
    destruct C as [[A B]|[A B]]; [exists 0|exists 1]; unfold m0, m1, xs, ys; (split; [lra|]); [rewrite !Rmin_left by lra|rewrite !Rmin_right by lra]; split; apply Z; ring.
  - destruct (line0 p (cl0 p) G) as (_ & s & S & X & Y); auto; [apply (nd0 p (m0 p) (cl0 p)); lra|lra|]. exists s. split; [exact S|]. split; [apply Z; auto|exact Y].
  - destruct (line1 p (cl1 p) G) as (_ & s & S & X & Y); auto; [apply (nd1 p (m1 p) (cl1 p)); lra|lra|]. exists s. split; [exact S|]. split; [exact Y|apply Z; auto].
  - assert (N0 : a0 p <> b0 p) by (apply (nd0 p (m0 p) (cl0 p)); lra). destruct (line0 p (cl0 p) G) as (_ & s & S & X & Y); auto; [lra|]. destruct (line1 p (cl1 p) G) as (_ & r & T & X' & Y'); auto; [apply (nd1 p (m1 p) (cl1 p)); lra|lra|]. apply Rabs_le_inv in Y, Y'.
    destruct (Rle_lt_dec (cl1 p) (ys p s)) as [L|L].
    + exists s. split; [exact S|]. split; [apply Z; auto|apply Rabs_le; lra].
    + exists r. split; [exact T|]. split; [|apply Z; auto]. apply Rabs_le. split; [lra|]. destruct (Rle_lt_dec (xs p s) (xs p r)) as [K|K]; [lra|]. pose proof (up_pt p r s G N0 ltac:(lra)). lra.
Qed.
(* and cuts nothing off *)
Lemma low_cover p l0 l1 s : good p -> low p l0 l1 -> 0 <= s <= 1 -> cl0 p <= xs p s -> cl1 p <= ys p s -> l0 - e8 <= xs p s /\ l1 - e8 <= ys p s.
Proof.
  intros G L S C0 C1. pose proof (xs_hull p s S) as X. pose proof (ys_hull p s S) as Y. pose proof (g_fmt p G) as (fa&fb&fc&fd&fe&ff&fg&fh). destruct L as [[[-> ->]|(-> & H1 & ->)]|[(-> & H1 & ->)|(-> & -> & H1 & H2 & H3 & H4)]]; try lra.
  - assert (N : a0 p <> b0 p) by (apply (nd0 p (m0 p) (cl0 p)); lra). destruct (line0 p (cl0 p) G) as (_ & r & T & X' & Y'); auto; [lra|]. apply Rabs_le_inv in Y'. pose proof (up_pt p r s G N ltac:(lra)). lra.
  - assert (N : a1 p <> b1 p) by (apply (nd1 p (m1 p) (cl1 p)); lra). destruct (line1 p (cl1 p) G) as (_ & r & T & X' & Y'); auto; [lra|]. apply Rabs_le_inv in Y'. pose proof (up_pt (swap p) r s (good_swap p G) N ltac:(change (ys p r <= ys p s); lra)) as K. change (xs p r <= xs p s) in K. lra.
Qed.

(* a point of the edge well inside of the rectangle *)
Definition inner p : Prop := exists s, 0 <= s <= 1 /\ cl0 p + wide < xs p s < ch0 p - wide /\ cl1 p + wide < ys p s < ch1 p - wide.
(* one side of the rectangle *)
Definition rb (A0 B0 A1 B1 c l0 h0 l1 h1 : R) : option (R * R) :=
  if Rlt_dec l0 c then if Rlt_dec h0 c then None else let v := lin c A0 B0 A1 B1 in if Rlt_dec h1 v then None else Some (c, if Rlt_dec l1 v then v else l1) else Some (l0, l1).
Lemma B0_ok p h0 h1 : good p -> high1 p h0 h1 -> m0 p <= h0 -> m1 p <= h1 ->
  match rb (a0 p) (b0 p) (a1 p) (b1 p) (cl0 p) (m0 p) h0 (m1 p) h1 with Some (k0, k1) => low1 p k0 k1 /\ cl0 p <= k0 <= h0 /\ k1 <= h1 | None => ~ inner p end.
Proof.
  intros G H L0 L1. pose proof (g_fmt p G) as (fa&fb&fc&fd&fe&ff&fg&fh). pose proof (high_hull p h0 h1 G (or_introl H)) as [HH0 HH1]. apply high1_inv in H. unfold rb. destruct Rlt_dec as [C|C]; [|split; [left; auto|lra]].
  destruct Rlt_dec as [D|D].
  - intros (s & S & X & Y). pose proof (xs_hull p s S). destruct H as [[-> _]|(-> & _)]; lra.
  - assert (N : a0 p <> b0 p) by (apply (nd0 p (m0 p) (cl0 p)); lra). destruct (line0 p (cl0 p) G fe N ltac:(lra)) as (V & _). cbv zeta. change (lin (cl0 p) (a0 p) (b0 p) (a1 p) (b1 p)) with (lin0 p (cl0 p)). destruct Rlt_dec as [E|E].
    + intros (s & S & X & Y). destruct H as [[_ ->]|(-> & K & ->)]; [lra|]. destruct (mono0 p (cl0 p) (ch0 p) G fe ff N ltac:(lra) ltac:(lra)) as [Q|Q]; lra.
    + split; [right; split; [reflexivity|]; split; [lra|]; destruct Rlt_dec; lra|]. split; [lra|]. destruct Rlt_dec; lra.
Qed.
Lemma B1_ok p l0 l1 h0 h1 : good p -> low1 p l0 l1 -> high p h0 h1 -> l0 <= h0 -> l1 <= h1 ->
  match rb (a1 p) (b1 p) (a0 p) (b0 p) (cl1 p) l1 h1 l0 h0 with Some (k1, k0) => low p k0 k1 /\ l0 <= k0 <= h0 /\ cl1 p <= k1 <= h1 | None => ~ inner p end.
Proof.
  intros G L H L0 L1. pose proof (g_fmt p G) as (fa&fb&fc&fd&fe&ff&fg&fh). pose proof (high_hull p h0 h1 G H) as [HH0 HH1]. pose proof (low_hull p l0 l1 G (or_introl L)) as [LL0 LL1]. apply high_inv in H. unfold rb. destruct Rlt_dec as [C|C]; [|split; [left; exact L|lra]].
  destruct Rlt_dec as [D|D].
  - intros (s & S & X & Y). pose proof (ys_hull p s S). destruct H as [[_ ->]|[(-> & K & ->)|[(-> & _)|(_ & -> & _)]]]; try lra. assert (N : a0 p <> b0 p) by (apply (nd0 p (ch0 p) (M0 p)); lra). destruct (line0 p (ch0 p) G ff N ltac:(lra)) as (_ & r & T & X' & Y'). apply Rabs_le_inv in Y'. pose proof (up_pt p s r G N ltac:(lra)). lra.
  - assert (N : a1 p <> b1 p) by (apply (nd1 p (m1 p) (cl1 p)); lra). destruct (line1 p (cl1 p) G fg N ltac:(lra)) as (V & r & T & X' & Y'). cbv zeta. change (lin (cl1 p) (a1 p) (b1 p) (a0 p) (b0 p)) with (lin1 p (cl1 p)). apply Rabs_le_inv in Y'. destruct Rlt_dec as [E|E].
    + intros (s & S & X & Y). assert (K : xs p r <= xs p s) by (apply (up_pt (swap p) r s (good_swap p G) N); change (ys p r <= ys p s); lra). destruct H as [[-> _]|[(-> & _)|[(-> & K' & ->)|(-> & _)]]]; try lra. destruct (mono1 p (cl1 p) (ch1 p) G fg fh N ltac:(lra) ltac:(lra)) as [Q|Q]; lra.
    + split; [|split; [destruct Rlt_dec; lra|lra]]. destruct Rlt_dec as [F|F].
      * right. left. split; [reflexivity|]. split; [lra|reflexivity].
      * destruct L as [[E0 E1]|(E0 & K & E1)]; right; [left; split; [reflexivity|]; split; [lra|]; lra|right]. split; [exact E0|]. split; [reflexivity|]. split; [exact K|]. split; [lra|]. lra.
Qed.
