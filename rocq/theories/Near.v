(** Doubles near real numbers: the errors of sums, differences and products of values that
    are not large. *)
From Coq Require Import ZArith Reals Lra Lia Psatz.
From Flocq Require Import Core.
From Verif Require Import F64 F64Facts IntervalSpec F64Arith F64Error AngleProofs ExpandProofs.
Open Scope R_scope.

Definition near (x : f64) (r e : R) : Prop := finite x /\ Rabs (B2R x - r) <= e.

Lemma near_val x : finite x -> near x (B2R x) 0.
Proof. intros F. split; [exact F|]. rewrite Rminus_diag_eq, Rabs_R0 by reflexivity. lra. Qed.
Lemma near_weak x r e e' : near x r e -> e <= e' -> near x r e'.
Proof. intros [F E] L. split; [exact F|lra]. Qed.
Lemma near_move x r r' e d : near x r e -> Rabs (r - r') <= d -> near x r' (e + d).
Proof. intros [F E] D. split; [exact F|]. replace (B2R x - r') with (B2R x - r + (r - r')) by ring. eapply Rle_trans; [apply Rabs_triang|lra]. Qed.
Lemma near_size x r e : near x r e -> Rabs (B2R x) <= Rabs r + e.
Proof. intros [F E]. replace (B2R x) with (r + (B2R x - r)) by ring. eapply Rle_trans; [apply Rabs_triang|lra]. Qed.
Lemma near_neg x r e : near x r e -> near (fneg x) (- r) e.
Proof. intros [F E]. destruct (fneg_val x F) as [F' V']. split; [exact F'|]. rewrite V'. replace (- B2R x - - r) with (- (B2R x - r)) by ring. rewrite Rabs_Ropp. exact E. Qed.
Lemma near_add x y a b ex ey : near x a ex -> near y b ey -> Rabs (a + b) + ex + ey <= 16 -> near (fadd x y) (a + b) (ex + ey + 4 * ulp1).
Proof.
  intros [Fx Ex] [Fy Ey] B. pose proof (fadd_result _ _ Fx Fy) as R.
  assert (D : Rabs (B2R x + B2R y - (a + b)) <= ex + ey). { replace (B2R x + B2R y - (a + b)) with ((B2R x - a) + (B2R y - b)) by ring. eapply Rle_trans; [apply Rabs_triang|lra]. }
  destruct (half4 _ _ R) as (F & _ & E). { replace (B2R x + B2R y) with ((a + b) + (B2R x + B2R y - (a + b))) by ring. eapply Rle_trans; [apply Rabs_triang|lra]. }
  split; [exact F|]. apply Rabs_le_inv in D. apply Rabs_le. lra.
Qed.
Lemma near_sub x y a b ex ey : near x a ex -> near y b ey -> Rabs (a - b) + ex + ey <= 16 -> near (fsub x y) (a - b) (ex + ey + 4 * ulp1).
Proof.
  intros [Fx Ex] [Fy Ey] B. pose proof (fsub_result _ _ Fx Fy) as R.
  assert (D : Rabs (B2R x - B2R y - (a - b)) <= ex + ey). { replace (B2R x - B2R y - (a - b)) with ((B2R x - a) - (B2R y - b)) by ring. eapply Rle_trans; [apply Rabs_triang|rewrite Rabs_Ropp; lra]. }
  destruct (half4 _ _ R) as (F & _ & E). { replace (B2R x - B2R y) with ((a - b) + (B2R x - B2R y - (a - b))) by ring. eapply Rle_trans; [apply Rabs_triang|lra]. }
  split; [exact F|]. apply Rabs_le_inv in D. apply Rabs_le. lra.
Qed.
Lemma prod_near x y a b ex ey A B : Rabs (x - a) <= ex -> Rabs (y - b) <= ey -> Rabs a <= A -> Rabs b <= B -> Rabs (x * y - a * b) <= ex * (B + ey) + A * ey.
Proof.
  intros Ex Ey HA HB. replace (x * y - a * b) with ((x - a) * y + a * (y - b)) by ring. eapply Rle_trans; [apply Rabs_triang|]. rewrite !Rabs_mult.
  assert (Rabs y <= B + ey). { replace y with (b + (y - b)) by ring. eapply Rle_trans; [apply Rabs_triang|lra]. }
  apply Rplus_le_compat; apply Rmult_le_compat; try apply Rabs_pos; lra.
Qed.
Lemma near_mul x y a b ex ey A B : near x a ex -> near y b ey -> Rabs a <= A -> Rabs b <= B -> (A + ex) * (B + ey) <= 16 -> near (fmul x y) (a * b) (ex * (B + ey) + A * ey + 4 * ulp1).
Proof.
  intros Nx Ny HA HB L. pose proof (near_size _ _ _ Nx) as Sx. pose proof (near_size _ _ _ Ny) as Sy. destruct Nx as [Fx Ex]. destruct Ny as [Fy Ey]. pose proof (fmul_result _ _ Fx Fy) as R.
  pose proof (prod_near _ _ _ _ _ _ _ _ Ex Ey HA HB) as D.
  destruct (half4 _ _ R) as (F & _ & E). { rewrite Rabs_mult. eapply Rle_trans; [|exact L]. apply Rmult_le_compat; try apply Rabs_pos; lra. }
  split; [exact F|]. apply Rabs_le_inv in D. apply Rabs_le. lra.
Qed.
