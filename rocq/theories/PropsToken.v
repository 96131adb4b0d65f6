(** Property theorems for tokens: C16, C17, C59. *)
From Verif Require Import Base TokenModel TokenSpec TokenProofs.
Open Scope Z_scope.
Open Scope list_scope.

(** C16: the token of every 64-bit value reads back as that value; it is "X" for 0
    and otherwise 1 to 16 lower-case hexadecimal digits, the last one not '0', which
    spell the leading digits of the value; tokens of distinct values differ. *)
Theorem C16_token_round_trip :
  (forall x, 0 <= x < 2 ^ 64 -> from_token (to_token x) = Some x) /\
  to_token 0 = "X"%string /\
  (forall x, 0 < x < 2 ^ 64 ->
     exists ds,
       Forall2 lower_hex_digit (list_ascii_of_string (to_token x)) ds /\
       (1 <= List.length ds <= 16)%nat /\
       value16 ds * 16 ^ (16 - Z.of_nat (List.length ds)) = x /\
       (forall p c, list_ascii_of_string (to_token x) = p ++ [c] -> c <> "0"%char)) /\
  (forall x y, 0 <= x < 2 ^ 64 -> 0 <= y < 2 ^ 64 -> to_token x = to_token y -> x = y).
Proof.
  split; [exact token_round_trip |]. split; [reflexivity |]. split; [exact to_token_spec |].
  intros x y Hx Hy E. pose proof (token_round_trip x Hx) as H.
  rewrite E, token_round_trip in H by exact Hy. congruence.
Qed.
Example C16_example :
  to_token 0x80855c0000000000 = "80855c"%string /\
  to_token (2 ^ 64 - 1) = "ffffffffffffffff"%string /\ to_token 1 = "0000000000000001"%string /\
  from_token "80855c" = Some 0x80855c0000000000.
Proof. vm_compute. auto. Qed.
Print Assumptions C16_token_round_trip.

(** C17: from_token never panics.  A string that spells (in either case, after an
    optional '+') at least one digit, with a value below 2^64, yields that value,
    shifted left by one digit for every byte the string is short of 16; the digits
    are determined by the string.  Every other string yields 0. *)
Theorem C17_from_token_total :
  (forall s ds, spells s ds -> value16 ds < 2 ^ 64 ->
     from_token s = Some (value16 ds * 16 ^ Z.max 0 (16 - Z.of_nat (String.length s)))) /\
  (forall s ds ds', spells s ds -> spells s ds' -> ds = ds') /\
  (forall s, ~ (exists ds, spells s ds /\ value16 ds < 2 ^ 64) -> from_token s = Some 0) /\
  (forall s, exists v, from_token s = Some v /\ 0 <= v < 2 ^ 64).
Proof.
  split; [exact from_token_spells |]. split; [exact spells_det |]. split; [exact from_token_rejects |].
  intros s. destruct (from_str_radix16 s) as [v |] eqn:E.
  - apply from_str_radix16_spec in E. destruct E as (ds & H & -> & V).
    eexists. split; [apply from_token_spells; eauto |].
    pose proof (spells_len _ _ H). pose proof (value16_bound _ (spells_range _ _ H)) as Hb.
    set (n := Z.of_nat (String.length s)) in *.
    destruct (Z.le_gt_cases 16 n).
    + rewrite Z.max_l by lia. rewrite Z.mul_1_r. lia.
    + rewrite Z.max_r by lia.
      assert (HP : 0 < 16 ^ (16 - n)) by (apply Z.pow_pos_nonneg; lia).
      assert (Hb2 : value16 ds < 16 ^ n).
      { eapply Z.lt_le_trans; [apply Hb |]. apply Z.pow_le_mono_r; lia. }
      split; [nia |]. change (2 ^ 64) with (16 ^ 16).
      replace (16 ^ 16) with (16 ^ n * 16 ^ (16 - n)) by (rewrite <- Z.pow_add_r by lia; f_equal; lia).
      apply Z.mul_lt_mono_pos_r; assumption.
  - exists 0. unfold from_token. rewrite E. split; [reflexivity | lia].
Qed.
Example C17_example :
  spells "+aF" [10; 15] /\ from_token "+aF" = Some (0xaf * 16 ^ 13) /\
  from_token "X" = Some 0 /\ from_token "" = Some 0 /\ from_token "-1" = Some 0 /\
  from_token "10000000000000000" = Some 0 /\ from_token "000000000000000010" = Some 16.
Proof.
  split; [| vm_compute; auto 10].
  split; [discriminate |]. exists ["a"; "F"]%char. split; [right; reflexivity |].
  unfold hex_digit.
  constructor; [right; left; split; [lia | reflexivity] |].
  constructor; [right; right; split; [lia | reflexivity] | constructor].
Qed.
Print Assumptions C17_from_token_total.

(** C59: tokens of nonzero ids sort, byte by byte, exactly as the ids do. *)
Theorem C59_token_order : forall x y, 0 < x < 2 ^ 64 -> 0 < y < 2 ^ 64 ->
  (x < y <-> dict_lt (to_token x) (to_token y)).
Proof.
  intros x y Hx Hy. split; intros H; [apply token_order; lia |].
  assert (irr : forall s, ~ dict_lt s s).
  { induction s; intros K; inversion K; subst; [lia | auto]. }
  assert (asym : forall s t, dict_lt s t -> ~ dict_lt t s).
  { induction 1; intros K; inversion K; subst; try lia; auto. }
  destruct (Z.lt_trichotomy x y) as [? | [-> | G]]; [assumption | destruct (irr _ H) |].
  exfalso. apply (asym _ _ H). apply token_order; lia.
Qed.
Example C59_example : dict_lt (to_token (2 ^ 61)) (to_token (2 ^ 61 + 1)).
Proof. apply C59_token_order; lia. Qed.
Print Assumptions C59_token_order.
