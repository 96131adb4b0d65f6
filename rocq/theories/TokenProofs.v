(** Proofs about the token model. *)
From Verif Require Import Base CellIdModel TokenModel TokenSpec.
Open Scope Z_scope.
Open Scope list_scope.

Notation chars := list_ascii_of_string.

Lemma byte_range c : 0 <= byte_of c < 256.
Proof.
  unfold byte_of. destruct c as [[] [] [] [] [] [] [] []]; vm_compute; split; congruence.
Qed.

Lemma byte_inj c d : byte_of c = byte_of d -> c = d.
Proof.
  unfold byte_of. intros H. apply N2Z.inj in H.
  rewrite <- (ascii_N_embedding c), <- (ascii_N_embedding d). congruence.
Qed.

Lemma b0 : byte_of "0" = 48. Proof. reflexivity. Qed.
Lemma ba : byte_of "a" = 97. Proof. reflexivity. Qed.
Lemma bA : byte_of "A" = 65. Proof. reflexivity. Qed.
Lemma bF : byte_of "F" = 70. Proof. reflexivity. Qed.
Lemma bplus : byte_of "+" = 43. Proof. reflexivity. Qed.
Lemma bminus : byte_of "-" = 45. Proof. reflexivity. Qed.

Lemma to_digit16_spec c d : to_digit16 c = Some d <-> hex_digit c d.
Proof.
  unfold to_digit16, hex_digit, code_of. fold (byte_of c).
  rewrite b0, ba, bA.
  destruct ((48 <=? byte_of c) && (byte_of c <=? 57)) eqn:E1.
  { split; [intros [= <-]; lia | intros H; f_equal; lia]. }
  destruct ((97 <=? byte_of c) && (byte_of c <=? 102)) eqn:E2.
  { split; [intros [= <-]; lia | intros H; f_equal; lia]. }
  destruct ((65 <=? byte_of c) && (byte_of c <=? 70)) eqn:E3.
  { split; [intros [= <-]; lia | intros H; f_equal; lia]. }
  split; [discriminate | lia].
Qed.

Lemma hex_digit_range c d : hex_digit c d -> 0 <= d < 16.
Proof. unfold hex_digit. lia. Qed.

Lemma value16_bound ds : Forall (fun d => 0 <= d < 16) ds ->
  0 <= value16 ds < 16 ^ Z.of_nat (List.length ds).
Proof.
  induction 1 as [| d ds Hd _ IH]; cbn [value16 List.length]; [change (16 ^ Z.of_nat 0) with 1; lia |].
  rewrite Nat2Z.inj_succ, Z.pow_succ_r by lia. nia.
Qed.

Lemma Forall2_hex_range cs ds : Forall2 hex_digit cs ds -> Forall (fun d => 0 <= d < 16) ds.
Proof.
  induction 1; constructor; auto. eapply hex_digit_range; eauto.
Qed.

Lemma radix16_loop_spec s : forall acc v, 0 <= acc ->
  radix16_loop acc s = Some v <->
  exists ds, Forall2 hex_digit (chars s) ds /\
    v = acc * 16 ^ Z.of_nat (List.length ds) + value16 ds /\
    (s <> EmptyString -> v < 2 ^ 64).
Proof.
  induction s as [| c s IH]; intros acc v Ha; cbn [radix16_loop chars].
  - split.
    + intros [= <-]. exists []. split; [constructor |]. split; [cbn; lia | congruence].
    + intros (ds & H & -> & _). inversion H; subst. cbn. f_equal. lia.
  - split.
    + unfold mul64, add64. destruct (acc * 16 <? 2 ^ 64) eqn:E1; [| discriminate].
      destruct (to_digit16 c) as [d |] eqn:E2; [| discriminate].
      destruct (acc * 16 + d <? 2 ^ 64) eqn:E3; [| discriminate].
      apply to_digit16_spec in E2. pose proof (hex_digit_range _ _ E2).
      intros H0. apply IH in H0; [| lia]. destruct H0 as (ds & H1 & -> & H2).
      exists (d :: ds). split; [constructor; auto |]. cbn [List.length value16].
      rewrite Nat2Z.inj_succ, Z.pow_succ_r by lia. split; [ring |].
      intros _. destruct s; [| apply H2; congruence].
      inversion H1; subst. cbn. change (16 ^ 0) with 1. lia.
    + intros (ds & H & -> & Hv). specialize (Hv ltac:(congruence)).
      inversion H as [| ? d ? ds' Hd Hds]; subst. cbn [List.length value16] in *.
      pose proof (hex_digit_range _ _ Hd). pose proof (value16_bound _ (Forall2_hex_range _ _ Hds)) as Hb.
      rewrite Nat2Z.inj_succ, Z.pow_succ_r in * by lia.
      set (P := 16 ^ Z.of_nat (List.length ds')) in *.
      assert (HP : 1 <= P) by (subst P; apply (Z.pow_le_mono_r 16 0); lia).
      assert (Hlt : acc * 16 + d < 2 ^ 64) by nia.
      unfold mul64, add64.
      replace (acc * 16 <? 2 ^ 64) with true by lia.
      rewrite (proj2 (to_digit16_spec c d) Hd).
      replace (acc * 16 + d <? 2 ^ 64) with true by lia.
      apply IH; [lia |]. exists ds'. split; [exact Hds |]. split; [fold P; ring |].
      intros _. replace _ with (acc * (16 * P) + (d * P + value16 ds')) by ring. exact Hv.
Qed.

Lemma chars_string_of l : chars (string_of_list_ascii l) = l.
Proof. apply list_ascii_of_string_of_list_ascii. Qed.

Lemma plus_not_hex d : ~ hex_digit "+" d.
Proof. unfold hex_digit. rewrite b0, ba, bA, bplus. lia. Qed.
Lemma minus_not_hex d : ~ hex_digit "-" d.
Proof. unfold hex_digit. rewrite b0, ba, bA, bminus. lia. Qed.

(* spelling, by cases on the first byte *)
Lemma spells_nil ds : ~ spells EmptyString ds.
Proof.
  intros (Hn & cs & [H | H] & F); [| discriminate].
  destruct cs; [inversion F; subst; auto | discriminate].
Qed.

Lemma spells_plus s ds : spells (String "+" s) ds <-> ds <> [] /\ Forall2 hex_digit (chars s) ds.
Proof.
  split.
  - intros (Hn & cs & [H | H] & F).
    + destruct cs as [| c cs]; [discriminate |]. cbn in H. injection H as <- ->.
      inversion F; subst. exfalso. eapply plus_not_hex; eauto.
    + injection H as ->. rewrite chars_string_of. auto.
  - intros [Hn F]. split; [exact Hn |]. exists (chars s).
    rewrite string_of_list_ascii_of_string. auto.
Qed.

Lemma spells_other c s ds : c <> "+"%char ->
  spells (String c s) ds <-> Forall2 hex_digit (chars (String c s)) ds.
Proof.
  intros Hc. split.
  - intros (Hn & cs & [H | H] & F); [| congruence].
    rewrite H, chars_string_of. exact F.
  - intros F. split; [intros ->; inversion F |].
    exists (chars (String c s)). rewrite string_of_list_ascii_of_string. auto.
Qed.

Lemma loop0 s v : s <> EmptyString ->
  radix16_loop 0 s = Some v <->
  exists ds, Forall2 hex_digit (chars s) ds /\ v = value16 ds /\ value16 ds < 2 ^ 64.
Proof.
  intros Hs. rewrite radix16_loop_spec by lia. split; intros (ds & F & Hv & Hl); exists ds.
  - rewrite Z.mul_0_l, Z.add_0_l in Hv. subst v. auto.
  - split; [exact F |]. split; [lia | intros; lia].
Qed.

Lemma from_str_radix16_spec s v :
  from_str_radix16 s = Some v <-> exists ds, spells s ds /\ v = value16 ds /\ value16 ds < 2 ^ 64.
Proof.
  destruct s as [| c s]; cbn [from_str_radix16].
  { split; [discriminate |]. intros (ds & H & _). destruct (spells_nil _ H). }
  destruct (Ascii.eqb_spec c "+") as [-> | Hc].
  - destruct s as [| c' s].
    + split; [discriminate |]. intros (ds & H & _). apply spells_plus in H.
      destruct H as [Hn F]. inversion F; subst; congruence.
    + rewrite loop0 by discriminate. split; intros (ds & H & Hv); exists ds; split; auto.
      * apply spells_plus. split; [intros ->; inversion H | exact H].
      * apply spells_plus in H. apply H.
  - assert (E : radix16_loop 0 (String c s) = Some v <->
              exists ds, spells (String c s) ds /\ v = value16 ds /\ value16 ds < 2 ^ 64).
    { rewrite loop0 by discriminate. split; intros (ds & H & Hv); exists ds; split; auto;
        apply (spells_other c s); auto. }
    destruct s as [| c' s]; [| exact E].
    cbn [orb]. destruct (Ascii.eqb_spec c "-") as [-> | Hm]; [| exact E].
    split; [discriminate |]. intros (ds & H & _). apply spells_other in H; [| discriminate].
    inversion H; subst. exfalso. eapply minus_not_hex; eauto.
Qed.

Lemma hex_digit_det c d d' : hex_digit c d -> hex_digit c d' -> d = d'.
Proof. unfold hex_digit. rewrite b0, ba, bA. lia. Qed.

Lemma Forall2_hex_det cs : forall ds ds', Forall2 hex_digit cs ds -> Forall2 hex_digit cs ds' -> ds = ds'.
Proof.
  induction cs; intros ds ds' H H'; inversion H; inversion H'; subst; auto.
  f_equal; eauto using hex_digit_det.
Qed.

Lemma spells_det s ds ds' : spells s ds -> spells s ds' -> ds = ds'.
Proof.
  destruct s as [| c s]; [intros H; destruct (spells_nil _ H) |].
  destruct (Ascii.eqb_spec c "+") as [-> | Hc].
  - rewrite !spells_plus. intros [_ H] [_ H']. eapply Forall2_hex_det; eauto.
  - rewrite !spells_other by auto. apply Forall2_hex_det.
Qed.

Lemma Forall2_len {A B} (R : A -> B -> Prop) l l' : Forall2 R l l' -> List.length l = List.length l'.
Proof. induction 1; cbn; auto. Qed.

Lemma chars_length s : List.length (chars s) = String.length s.
Proof. induction s; cbn; auto. Qed.

Lemma spells_len s ds : spells s ds -> (1 <= List.length ds <= String.length s)%nat.
Proof.
  destruct s as [| c s]; [intros H; destruct (spells_nil _ H) |].
  destruct (Ascii.eqb_spec c "+") as [-> | Hc].
  - rewrite spells_plus. intros [Hn F]. apply Forall2_len in F. rewrite chars_length in F.
    destruct ds; [congruence |]. cbn in *. lia.
  - rewrite spells_other by auto. intros F. apply Forall2_len in F. rewrite chars_length in F. cbn in *. lia.
Qed.

Lemma spells_range s ds : spells s ds -> Forall (fun d => 0 <= d < 16) ds.
Proof. intros (_ & cs & _ & F). eapply Forall2_hex_range; eauto. Qed.

Lemma from_token_spells s ds : spells s ds -> value16 ds < 2 ^ 64 ->
  from_token s = Some (value16 ds * 16 ^ Z.max 0 (16 - Z.of_nat (String.length s))).
Proof.
  intros H Hl. unfold from_token.
  rewrite (proj2 (from_str_radix16_spec s (value16 ds))) by eauto.
  pose proof (spells_len _ _ H) as Hlen. pose proof (value16_bound _ (spells_range _ _ H)) as Hb.
  destruct (Z.of_nat (String.length s) <? 16) eqn:E.
  - unfold sub64. replace (Z.of_nat (String.length s) <=? 16) with true by lia.
    set (n := Z.of_nat (String.length s)) in *.
    unfold shl64. replace (4 * (16 - n) <? 64) with true by lia. f_equal.
    rewrite Z.max_r by lia. rewrite Z.shiftl_mul_pow2 by lia.
    rewrite Z.pow_mul_r by lia. change (2 ^ 4) with 16. apply Z.mod_small.
    assert (Hb2 : value16 ds < 16 ^ n).
    { eapply Z.lt_le_trans; [apply Hb |]. apply Z.pow_le_mono_r; lia. }
    assert (HP : 0 < 16 ^ (16 - n)) by (apply Z.pow_pos_nonneg; lia).
    split; [nia |]. change (2 ^ 64) with (16 ^ 16).
    replace (16 ^ 16) with (16 ^ n * 16 ^ (16 - n)) by (rewrite <- Z.pow_add_r by lia; f_equal; lia).
    apply Z.mul_lt_mono_pos_r; assumption.
  - rewrite Z.max_l by lia. rewrite Z.mul_1_r. reflexivity.
Qed.

Lemma from_token_rejects s : ~ (exists ds, spells s ds /\ value16 ds < 2 ^ 64) -> from_token s = Some 0.
Proof.
  intros H. unfold from_token. destruct (from_str_radix16 s) eqn:E; auto.
  apply from_str_radix16_spec in E. destruct E as (ds & ? & ? & ?). exfalso. eauto.
Qed.

(** ** Writing *)

Lemma chars_app s t : chars (s ++ t)%string = chars s ++ chars t.
Proof. induction s; cbn; congruence. Qed.

Lemma value16_app l l' : value16 (l ++ l') = value16 l * 16 ^ Z.of_nat (List.length l') + value16 l'.
Proof.
  induction l as [| d l IH]; cbn [value16 app]; [lia |].
  rewrite IH, app_length, Nat2Z.inj_add, Z.pow_add_r by lia. ring.
Qed.

Lemma hex_char_lower d : 0 <= d < 16 -> lower_hex_digit (hex_char d) d.
Proof.
  intros Hd. assert (E : byte_of (hex_char d) = if d <? 10 then 48 + d else 87 + d).
  { unfold byte_of, hex_char. rewrite N_ascii_embedding; destruct (d <? 10) eqn:?; lia. }
  unfold lower_hex_digit, hex_digit. rewrite E, b0, ba, bA, bF. destruct (d <? 10) eqn:?; lia.
Qed.

Lemma format_hex_spec n : forall x, 0 <= x < 16 ^ Z.of_nat n ->
  exists ds, Forall2 lower_hex_digit (chars (format_hex n x)) ds /\ List.length ds = n /\ value16 ds = x.
Proof.
  induction n as [| n IH]; intros x Hx; cbn [format_hex].
  - exists []. change (16 ^ Z.of_nat 0) with 1 in Hx. split; [constructor |]. split; [auto | cbn; lia].
  - rewrite Nat2Z.inj_succ, Z.pow_succ_r in Hx by lia.
    assert (Hd : 0 <= x / 16 < 16 ^ Z.of_nat n).
    { split; [apply Z.div_pos; lia | apply Z.div_lt_upper_bound; lia]. }
    destruct (IH _ Hd) as (ds & F & L & V).
    exists (ds ++ [x mod 16]). rewrite chars_app. split; [| split].
    + apply Forall2_app; [exact F |]. constructor; [| constructor].
      apply hex_char_lower. apply Z.mod_pos_bound. lia.
    + rewrite app_length. cbn. lia.
    + rewrite value16_app, V. cbn. pose proof (Z.div_mod x 16). lia.
Qed.

(* trimming removes exactly the trailing zeros *)
Lemma trim_spec s : exists k, chars s = chars (trim_end_zeros s) ++ repeat "0"%char k /\
  forall p c, chars (trim_end_zeros s) = p ++ [c] -> c <> "0"%char.
Proof.
  induction s as [| c s (k & E & N)]; cbn [trim_end_zeros].
  - exists O. split; [reflexivity |]. intros [| ? []] c H; discriminate.
  - destruct (trim_end_zeros s) as [| c' t] eqn:T.
    + cbn in E. destruct (Ascii.eqb_spec c "0") as [-> | Hc].
      * exists (S k). split; [cbn; congruence |]. intros [| ? []] c H; discriminate.
      * exists k. split; [cbn; congruence |]. intros [| a p] d H; [cbn in H; congruence |].
        exfalso. cbn in H. injection H as _ H. destruct p; discriminate.
    + exists k. split; [cbn in *; congruence |]. intros [| a p] d H; [cbn in H; congruence |].
      cbn in H. injection H as _ H. apply (N p d). cbn. exact H.
Qed.

Lemma lower0 d : hex_digit "0" d -> d = 0.
Proof. unfold hex_digit. rewrite b0, ba, bA. lia. Qed.

Lemma Forall2_zeros k ds : Forall2 hex_digit (repeat "0"%char k) ds -> ds = repeat 0 k.
Proof.
  revert ds. induction k; intros ds H; inversion H; subst; auto.
  cbn. f_equal; auto using lower0.
Qed.

Lemma value16_zeros k : value16 (repeat 0 k) = 0.
Proof. induction k; cbn [repeat value16]; lia. Qed.

Lemma lower_hex cs ds : Forall2 lower_hex_digit cs ds -> Forall2 hex_digit cs ds.
Proof. induction 1; constructor; auto. apply H. Qed.

(* the token of a nonzero value *)
Lemma to_token_spec x : 0 < x < 2 ^ 64 ->
  exists ds, Forall2 lower_hex_digit (chars (to_token x)) ds /\
    (1 <= List.length ds <= 16)%nat /\
    value16 ds * 16 ^ (16 - Z.of_nat (List.length ds)) = x /\
    forall p c, chars (to_token x) = p ++ [c] -> c <> "0"%char.
Proof.
  intros Hx. unfold to_token. replace (x =? 0) with false by lia.
  destruct (format_hex_spec 16 x) as (ds & F & L & V); [change (16 ^ Z.of_nat 16) with (2 ^ 64); lia |].
  destruct (trim_spec (format_hex 16 x)) as (k & E & N).
  rewrite E in F. apply Forall2_app_inv_l in F. destruct F as (d1 & d2 & F1 & F2 & ->).
  pose proof (Forall2_zeros _ _ (lower_hex _ _ F2)) as E2. subst d2.
  rewrite app_length, repeat_length in L.
  rewrite value16_app, value16_zeros, repeat_length in V.
  exists d1. split; [exact F1 |]. split.
  - destruct d1; [cbn in V; lia |]. cbn [List.length] in *. lia.
  - split; [| exact N].
    replace (16 - Z.of_nat (List.length d1)) with (Z.of_nat k) by lia. lia.
Qed.

Lemma token_round_trip x : 0 <= x < 2 ^ 64 -> from_token (to_token x) = Some x.
Proof.
  intros Hx. destruct (Z.eqb_spec x 0) as [-> | Hn]; [reflexivity |].
  destruct (to_token_spec x) as (ds & F & L & V & _); [lia |].
  pose proof (lower_hex _ _ F) as F'.
  assert (HP : 1 <= 16 ^ (16 - Z.of_nat (List.length ds))) by (apply (Z.pow_le_mono_r 16 0); lia).
  pose proof (value16_bound _ (Forall2_hex_range _ _ F')).
  pose proof (Forall2_len _ _ _ F') as Hlen. rewrite chars_length in Hlen.
  rewrite (from_token_spells _ ds).
  - f_equal. rewrite Hlen, Z.max_r by lia. exact V.
  - split; [intros ->; cbn in L; lia |]. exists (chars (to_token x)).
    rewrite string_of_list_ascii_of_string. auto.
  - nia.
Qed.

(** ** Order *)

Inductive ldict : list ascii -> list ascii -> Prop :=
| ld_nil c s : ldict [] (c :: s)
| ld_head c d s t : byte_of c < byte_of d -> ldict (c :: s) (d :: t)
| ld_tail c s t : ldict s t -> ldict (c :: s) (c :: t).

Lemma ldict_dict s : forall t, ldict (chars s) (chars t) -> dict_lt s t.
Proof.
  induction s as [| c s IH]; intros [| d t] H; cbn in H; inversion H; subst;
    auto using dict_nil, dict_head, dict_tail.
Qed.

Lemma lower_mono c c' d d' : lower_hex_digit c d -> lower_hex_digit c' d' -> d < d' -> byte_of c < byte_of c'.
Proof. unfold lower_hex_digit, hex_digit. rewrite b0, ba, bA, bF. lia. Qed.
Lemma lower_inj c c' d : lower_hex_digit c d -> lower_hex_digit c' d -> c = c'.
Proof. unfold lower_hex_digit, hex_digit. rewrite b0, ba, bA, bF. intros. apply byte_inj. lia. Qed.
Lemma lower_ge0 c d : lower_hex_digit c d -> byte_of "0" <= byte_of c.
Proof. unfold lower_hex_digit, hex_digit. rewrite b0, ba, bA, bF. lia. Qed.

Lemma digits_ldict l : forall l' ds ds', Forall2 lower_hex_digit l ds -> Forall2 lower_hex_digit l' ds' ->
  List.length ds = List.length ds' -> value16 ds < value16 ds' -> ldict l l'.
Proof.
  induction l as [| c l IH]; intros l' ds ds' F F' L V;
    inversion F as [| ? d ? es Hd Hes]; subst;
    inversion F' as [| c' d' k' es' Hd' Hes']; subst; cbn [value16 List.length] in *; try lia.
  injection L as L.
  pose proof (value16_bound _ (Forall2_hex_range _ _ (lower_hex _ _ Hes))) as B1.
  pose proof (value16_bound _ (Forall2_hex_range _ _ (lower_hex _ _ Hes'))) as B2.
  rewrite L in *. set (P := 16 ^ Z.of_nat (List.length es')) in *.
  destruct (Z.lt_trichotomy d d') as [Hlt | [<- | Hgt]].
  - apply ld_head. eapply lower_mono; eauto.
  - rewrite (lower_inj _ _ _ Hd Hd'). apply ld_tail. eapply IH; eauto. lia.
  - nia.
Qed.

Lemma ldict_zeros l k : Forall (fun c => byte_of "0" <= byte_of c) l ->
  List.length l = k -> ~ ldict l (repeat "0"%char k).
Proof.
  revert k. induction l as [| c l IH]; intros k F <- H; cbn in H; inversion H; subst; inversion F; subst; [lia |].
  eapply IH; eauto.
Qed.

Lemma ldict_irrefl l : ~ ldict l l.
Proof. induction l; intros H; inversion H; subst; [lia | auto]. Qed.

Lemma ldict_trim l : forall l' k k', Forall (fun c => byte_of "0" <= byte_of c) l ->
  (List.length l + k = List.length l' + k')%nat ->
  ldict (l ++ repeat "0"%char k) (l' ++ repeat "0"%char k') -> ldict l l'.
Proof.
  induction l as [| c l IH]; intros l' k k' F L H.
  - destruct l' as [| c' l']; [| constructor]. cbn in *. subst k'. destruct (ldict_irrefl _ H).
  - destruct l' as [| c' l'].
    + cbn [app] in H. exfalso. eapply (ldict_zeros _ k'); [| | exact H].
      * inversion F; subst. constructor; auto. apply Forall_app. split; auto.
        apply Forall_forall. intros ? Hin. apply repeat_spec in Hin. subst. lia.
      * cbn in *. rewrite app_length, repeat_length. lia.
    + cbn [app] in H. inversion F; subst. inversion H; subst; [apply ld_head; auto | apply ld_tail].
      eapply IH; eauto. cbn in L. lia.
Qed.

Lemma token_order x y : 0 < x -> x < y -> y < 2 ^ 64 -> dict_lt (to_token x) (to_token y).
Proof.
  intros Hx Hxy Hy. apply ldict_dict. unfold to_token.
  replace (x =? 0) with false by lia. replace (y =? 0) with false by lia.
  destruct (format_hex_spec 16 x) as (ds & F & L & V); [change (16 ^ Z.of_nat 16) with (2 ^ 64); lia |].
  destruct (format_hex_spec 16 y) as (es & F' & L' & V'); [change (16 ^ Z.of_nat 16) with (2 ^ 64); lia |].
  destruct (trim_spec (format_hex 16 x)) as (k & E & _).
  destruct (trim_spec (format_hex 16 y)) as (k' & E' & _).
  assert (H : ldict (chars (format_hex 16 x)) (chars (format_hex 16 y))).
  { eapply digits_ldict; eauto; lia. }
  pose proof (Forall2_len _ _ _ F) as G. pose proof (Forall2_len _ _ _ F') as G'.
  assert (FF : Forall (fun c => byte_of "0" <= byte_of c) (chars (format_hex 16 x))).
  { clear - F. induction F; constructor; auto. eapply lower_ge0; eauto. }
  rewrite E in FF. apply Forall_app in FF.
  rewrite E, app_length, repeat_length in G. rewrite E', app_length, repeat_length in G'.
  rewrite E, E' in H. eapply ldict_trim; [apply FF | | exact H]. lia.
Qed.
