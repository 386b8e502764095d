(** * PropCoerce: C35, C36, C44 — coercions between cell types. *)

From Coq Require Import ZArith List Bool Ascii String Lia Floats.SpecFloat.
From Verif Require Import Base Coerce CoerceSpec CoerceProofs.
Import ListNotations.
Open Scope Z_scope.

(** ** C35: integers to text and back *)

(** Coercing an index, integer or unsigned cell to text gives a decimal literal of its value,
    and coercing that text back to the type of the cell gives the same cell. *)
Theorem C35_integer_text_roundtrip : forall c z,
  c = CIdx z \/ c = CInt z \/ c = CUInt z -> cell_ok c ->
  exists s, coerce1 default_rules TStr c = Ok (CStr s)
            /\ dec_int s z
            /\ coerce1 default_rules (type_of c) (CStr s) = Ok c.
Proof.
  intros c z Hc Hok. exists (itos z).
  destruct Hc as [-> | [-> | ->]]; cbn [cell_ok] in Hok; (split; [reflexivity|]);
    (split; [apply itos_denotes|]); cbn.
  - now rewrite stoul_itos.
  - now rewrite stoi_itos.
  - rewrite stoul_itos by (unfold W; lia). cbn.
    destruct (4294967295 <? z) eqn:E; [lia|]. now rewrite w32_id.
Qed.
Print Assumptions C35_integer_text_roundtrip.

Example C35_ex : coerce1 default_rules TStr (CInt (-2147483648)) = Ok (CStr (lit "-2147483648"))
  /\ coerce1 default_rules TInt (CStr (lit "-2147483648")) = Ok (CInt (-2147483648)).
Proof. split; reflexivity. Qed.
Example C35_ex_idx : coerce1 default_rules TStr (CIdx (W - 1)) = Ok (CStr (lit "18446744073709551615"))
  /\ coerce1 default_rules TIdx (CStr (lit "18446744073709551615")) = Ok (CIdx (W - 1)).
Proof. split; reflexivity. Qed.

(** Distinct integers have distinct texts. *)
Theorem C35_text_injective : forall z1 z2 s,
  coerce1 default_rules TStr (CLong z1) = Ok (CStr s) ->
  coerce1 default_rules TStr (CLong z2) = Ok (CStr s) -> 
  - 2 ^ 31 <= z1 < 2 ^ 31 -> - 2 ^ 31 <= z2 < 2 ^ 31 -> z1 = z2.
Proof.
  cbn. intros z1 z2 s H1 H2 B1 B2. injection H1 as H1. injection H2 as H2.
  pose proof (stoi_itos z1 B1). pose proof (stoi_itos z2 B2). congruence.
Qed.
Print Assumptions C35_text_injective.

(** Reading text as an integer: blanks before and other characters after the literal are
    ignored; the value is exact or the call throws. *)
Theorem C35_text_to_integer : forall ws s z rest,
  Forall blank ws -> dec_int s z -> no_digit_first rest ->
  (- 2 ^ 31 <= z < 2 ^ 31 -> coerce1 default_rules TInt (CStr (ws ++ s ++ rest)%list) = Ok (CInt z))
  /\ (~ - 2 ^ 31 <= z < 2 ^ 31 -> coerce1 default_rules TInt (CStr (ws ++ s ++ rest)%list) = Throw OutOfRange).
Proof.
  intros ws s z rest Hw Hs Hr.
  cbn [coerce1 default_rules type_of on_type rule_int witness].
  rewrite (stoi_spec _ _ _ _ Hw Hs Hr).
  destruct (- 2 ^ 31 <=? z) eqn:A, (z <? 2 ^ 31) eqn:B; cbn [andb bindO]; split; intros; try reflexivity; lia.
Qed.
Print Assumptions C35_text_to_integer.
Example C35_text_ex : coerce1 default_rules TInt (CStr (lit "  -17abc")) = Ok (CInt (-17)).
Proof. reflexivity. Qed.

(** An integer cell coerced to numeric directly, or through its text, gives the same numeric. *)
Theorem C35_integer_text_numeric : forall c z s,
  int_cell c z -> cell_ok c ->
  coerce1 default_rules TStr c = Ok (CStr s) ->
  coerce1 default_rules TNum (CStr s) = coerce1 default_rules TNum c.
Proof.
  intros c z s Hc Hok H.
  assert (B : - 2 ^ 64 < z < 2 ^ 64)
    by (destruct Hc as [-> | [-> | [-> | [-> | ->]]]]; cbn [cell_ok] in Hok; unfold W in *; lia).
  destruct Hc as [-> | [-> | [-> | [-> | ->]]]]; cbn in H; injection H as <-; cbn;
    rewrite (stod_itos_64 z B); reflexivity.
Qed.
Print Assumptions C35_integer_text_numeric.
Example C35_num_ex : coerce1 default_rules TNum (CStr (lit "18446744073709551615"))
  = Ok (CNum (S754_finite false 4503599627370496 12)).
Proof. reflexivity. Qed.

(** integer and uinteger cells survive the trip through numeric; so do indices below 2^53. *)
Theorem C35_integer_numeric_roundtrip : forall c z,
  c = CInt z \/ c = CUInt z \/ (c = CIdx z /\ z < 2 ^ 53) -> cell_ok c ->
  exists f, coerce1 default_rules TNum c = Ok (CNum f)
            /\ coerce1 default_rules (type_of c) (CNum f) = Ok c.
Proof.
  intros c z Hc Hok. exists (dbl z).
  assert (B : - 2 ^ 53 < z < 2 ^ 53)
    by (destruct Hc as [-> | [-> | [-> Hz]]]; cbn [cell_ok] in Hok; unfold W in *; lia).
  destruct Hc as [-> | [-> | [-> Hz]]]; (split; [reflexivity|]); cbn [cell_ok] in Hok;
    cbn [coerce1 default_rules type_of on_type rule_int rule_uint rule_idx witness]; unfold f2i;
    rewrite ?dbl_neg, ?dbl_trunc by exact B.
  - destruct (- 2 ^ 31 <=? z) eqn:E1, (z <? 2 ^ 31) eqn:E2; try reflexivity; lia.
  - destruct (z <? 0) eqn:E0; [lia|].
    destruct (0 <=? z) eqn:E1, (z <? 2 ^ 32) eqn:E2; try reflexivity; lia.
  - destruct (z <? 0) eqn:E0; [lia|].
    destruct (0 <=? z) eqn:E1, (z <? W) eqn:E2; try reflexivity; lia.
Qed.
Print Assumptions C35_integer_numeric_roundtrip.
Example C35_numrt_ex : coerce1 default_rules TNum (CInt (-7)) = Ok (CNum (S754_finite true 7881299347898368 (-50)))
  /\ coerce1 default_rules TInt (CNum (S754_finite true 7881299347898368 (-50))) = Ok (CInt (-7)).
Proof. split; reflexivity. Qed.

(** Larger indices do not: 2^53 + 1 comes back as 2^53. *)
Theorem C35_index_numeric_refuted : exists c f c',
  cell_ok c /\ coerce1 default_rules TNum c = Ok (CNum f)
  /\ coerce1 default_rules TIdx (CNum f) = Ok c' /\ c' <> c.
Proof.
  exists (CIdx (2 ^ 53 + 1)), (S754_finite false 4503599627370496 1), (CIdx (2 ^ 53)).
  repeat split; cbn; unfold W; try lia. congruence.
Qed.

(** ** C36: coercions to unsigned types *)

(** To index_t from any integer type: negative values throw, others are preserved. *)
Theorem C36_index_from_integer : forall c z,
  int_cell c z -> cell_ok c ->
  (z < 0 -> coerce1 default_rules TIdx c = Throw InvalidArgument)
  /\ (0 <= z -> coerce1 default_rules TIdx c = Ok (CIdx z)).
Proof.
  intros c z Hc Hok.
  destruct Hc as [-> | [-> | [-> | [-> | ->]]]]; cbn [cell_ok] in Hok; unfold W in Hok; cbn;
    (split; intros; [ try lia | ]);
    try (destruct (z <? 0) eqn:E; [auto; lia|try lia]);
    try (rewrite w64_id by (unfold W; lia)); reflexivity.
Qed.
Print Assumptions C36_index_from_integer.
Example C36_idx_ex : coerce1 default_rules TIdx (CLong (-1)) = Throw InvalidArgument
  /\ coerce1 default_rules TIdx (CLong 7) = Ok (CIdx 7).
Proof. split; reflexivity. Qed.

(** To uinteger from an integer type: negative values throw, values below 2^32 are preserved. *)
Theorem C36_uinteger_from_integer : forall c z,
  int_cell c z -> cell_ok c ->
  (z < 0 -> coerce1 default_rules TUInt c = Throw InvalidArgument)
  /\ (0 <= z < 2 ^ 32 -> coerce1 default_rules TUInt c = Ok (CUInt z)).
Proof.
  intros c z Hc Hok.
  destruct Hc as [-> | [-> | [-> | [-> | ->]]]]; cbn [cell_ok] in Hok; unfold W in Hok; cbn;
    (split; intros; [ try lia | ]);
    try (destruct (z <? 0) eqn:E; [auto; lia|try lia]);
    try (rewrite w32_id by lia); reflexivity.
Qed.
Print Assumptions C36_uinteger_from_integer.
Example C36_uint_ex : coerce1 default_rules TUInt (CInt (-1)) = Throw InvalidArgument
  /\ coerce1 default_rules TUInt (CIdx 4294967295) = Ok (CUInt 4294967295).
Proof. split; reflexivity. Qed.

(** To integer from an integer type: values that fit are preserved. *)
Theorem C36_integer_from_integer : forall c z,
  int_cell c z -> cell_ok c -> - 2 ^ 31 <= z < 2 ^ 31 -> coerce1 default_rules TInt c = Ok (CInt z).
Proof.
  intros c z Hc Hok B.
  destruct Hc as [-> | [-> | [-> | [-> | ->]]]]; cbn; try (rewrite s32_id by exact B); reflexivity.
Qed.
Print Assumptions C36_integer_from_integer.
Example C36_int_ex : coerce1 default_rules TInt (CIdx 5) = Ok (CInt 5).
Proof. reflexivity. Qed.

(** From a text holding a non-negative literal: exact, or an exception. *)
Theorem C36_unsigned_from_text : forall ws s v rest,
  Forall blank ws -> dec_nat s v -> no_digit_first rest ->
  (v < W -> coerce1 default_rules TIdx (CStr (ws ++ s ++ rest)%list) = Ok (CIdx v))
  /\ (W <= v -> coerce1 default_rules TIdx (CStr (ws ++ s ++ rest)%list) = Throw OutOfRange)
  /\ (v < 2 ^ 32 -> coerce1 default_rules TUInt (CStr (ws ++ s ++ rest)%list) = Ok (CUInt v))
  /\ (2 ^ 32 <= v -> exists e, coerce1 default_rules TUInt (CStr (ws ++ s ++ rest)%list) = Throw e).
Proof.
  intros ws s v rest Hw Hs Hr. pose proof (dec_nat_nonneg _ _ Hs) as P. cbn.
  rewrite (stoul_nat _ _ _ _ Hw Hs Hr). unfold W in *.
  destruct (v <? 2 ^ 64) eqn:E; cbn [bindO];
    repeat split; intros; try reflexivity; try lia; eauto.
  - destruct (4294967295 <? v) eqn:F; [lia|]. now rewrite w32_id by lia.
  - destruct (4294967295 <? v) eqn:F; [eauto|lia].
Qed.
Print Assumptions C36_unsigned_from_text.
Example C36_text_ex : coerce1 default_rules TUInt (CStr (lit "4294967296")) = Throw InvalidArgument
  /\ coerce1 default_rules TIdx (CStr (lit "18446744073709551616")) = Throw OutOfRange
  /\ coerce1 default_rules TUInt (CStr (lit "4294967295")) = Ok (CUInt 4294967295).
Proof. repeat split; reflexivity. Qed.

(** Text without a literal throws for every numeric target. *)
Theorem C36_no_literal : forall ws rest,
  Forall blank ws -> no_digit_first rest ->
  (forall c r, rest = c :: r -> is_space c = false /\ c <> "-"%char /\ c <> "+"%char) ->
  coerce1 default_rules TIdx (CStr (ws ++ rest)%list) = Throw InvalidArgument
  /\ coerce1 default_rules TInt (CStr (ws ++ rest)%list) = Throw InvalidArgument
  /\ coerce1 default_rules TUInt (CStr (ws ++ rest)%list) = Throw InvalidArgument.
Proof.
  intros ws rest Hw Hr Hn. cbn. unfold stoul, stoi.
  assert (P : parse_dec (ws ++ rest)%list = None).
  { unfold parse_dec. rewrite skip_ws_blank by assumption.
    destruct rest as [|c r]; [reflexivity|].
    destruct (Hn c r eq_refl) as (A & B & C).
    rewrite skip_ws_stop by assumption. rewrite take_sign_other by assumption.
    rewrite take_digits_stop by assumption. reflexivity. }
  rewrite P. repeat split.
Qed.
Print Assumptions C36_no_literal.
Example C36_no_literal_ex : coerce1 default_rules TIdx (CStr (lit "abc")) = Throw InvalidArgument
  /\ coerce1 default_rules TInt (CStr []) = Throw InvalidArgument.
Proof. split; reflexivity. Qed.

(** Numeric cells: negative values throw; otherwise the value is truncated towards zero when it
    fits (and is undefined when it does not). *)
Theorem C36_unsigned_from_numeric : forall f,
  (fneg f = true -> coerce1 default_rules TIdx (CNum f) = Throw InvalidArgument
                    /\ coerce1 default_rules TUInt (CNum f) = Throw InvalidArgument)
  /\ (fneg f = false ->
       (forall z, ftrunc f = Some z -> 0 <= z < W -> coerce1 default_rules TIdx (CNum f) = Ok (CIdx z))
       /\ (forall z, ftrunc f = Some z -> 0 <= z < 2 ^ 32 -> coerce1 default_rules TUInt (CNum f) = Ok (CUInt z))
       /\ (forall z, ftrunc f = Some z -> W <= z -> coerce1 default_rules TIdx (CNum f) = UB)
       /\ (forall z, ftrunc f = Some z -> 2 ^ 32 <= z -> coerce1 default_rules TUInt (CNum f) = UB)
       /\ (ftrunc f = None -> coerce1 default_rules TIdx (CNum f) = UB /\ coerce1 default_rules TUInt (CNum f) = UB)).
Proof.
  intros f. cbn [coerce1 default_rules type_of on_type rule_idx rule_uint witness]. unfold f2i. split.
  - intros ->. auto.
  - intros ->. repeat split; intros; rewrite H.
    + destruct (0 <=? z) eqn:A, (z <? W) eqn:B; try reflexivity; lia.
    + destruct (0 <=? z) eqn:A, (z <? 2 ^ 32) eqn:B; try reflexivity; lia.
    + destruct (0 <=? z) eqn:A, (z <? W) eqn:B; try reflexivity; lia.
    + destruct (0 <=? z) eqn:A, (z <? 2 ^ 32) eqn:B; try reflexivity; lia.
    + reflexivity.
    + reflexivity.
Qed.
Print Assumptions C36_unsigned_from_numeric.

(** To int: truncated towards zero when the result fits, undefined otherwise. *)
Theorem C36_integer_from_numeric : forall f,
  (forall z, ftrunc f = Some z -> - 2 ^ 31 <= z < 2 ^ 31 -> coerce1 default_rules TInt (CNum f) = Ok (CInt z))
  /\ (forall z, ftrunc f = Some z -> ~ (- 2 ^ 31 <= z < 2 ^ 31) -> coerce1 default_rules TInt (CNum f) = UB)
  /\ (ftrunc f = None -> coerce1 default_rules TInt (CNum f) = UB).
Proof.
  intros f. cbn [coerce1 default_rules type_of on_type rule_int witness]. unfold f2i.
  repeat split; intros; rewrite H; try reflexivity;
    destruct (- 2 ^ 31 <=? z) eqn:A, (z <? 2 ^ 31) eqn:B; try reflexivity; lia.
Qed.
Print Assumptions C36_integer_from_numeric.
Example C36_integer_ex : coerce1 default_rules TInt (CNum (S754_finite true 7 (-1))) = Ok (CInt (-3))
  /\ coerce1 default_rules TInt (CNum (S754_finite false 1 31)) = UB
  /\ coerce1 default_rules TInt (CNum (S754_finite true 1 31)) = Ok (CInt (- 2 ^ 31)).
Proof. repeat split; reflexivity. Qed.
Example C36_numeric_ex : coerce1 default_rules TIdx (CNum (S754_finite true 1 (-1))) = Throw InvalidArgument
  /\ coerce1 default_rules TIdx (CNum (S754_finite false 7 (-1))) = Ok (CIdx 3)
  /\ coerce1 default_rules TIdx (CNum S754_nan) = UB.
Proof. repeat split; reflexivity. Qed.

(** What negative literals really do: they wrap modulo 2^64. *)
Theorem C36_negative_text_wraps : forall ws s v rest,
  Forall blank ws -> dec_nat s v -> no_digit_first rest -> v < W ->
  coerce1 default_rules TIdx (CStr (ws ++ "-"%char :: s ++ rest)%list) = Ok (CIdx ((- v) mod 2 ^ 64)).
Proof.
  intros ws s v rest Hw Hs Hr Hv. cbn. rewrite (stoul_neg _ _ _ _ Hw Hs Hr).
  destruct (v <? W) eqn:E; [reflexivity|lia].
Qed.
Print Assumptions C36_negative_text_wraps.

(** The general claim "throws or equal" fails in these ways. *)
Theorem C36_index_negative_text_refuted : exists s z z',
  dec_int s z /\ coerce1 default_rules TIdx (CStr s) = Ok (CIdx z') /\ z' <> z.
Proof.
  exists (lit "-1"), (-1), (2 ^ 64 - 1). repeat split; [|lia].
  apply (di_neg ["1"%char] 1). apply dn_one. cbv. tauto.
Qed.

Theorem C36_uinteger_negative_text_refuted : exists s z z',
  dec_int s z /\ coerce1 default_rules TUInt (CStr s) = Ok (CUInt z') /\ z' <> z.
Proof.
  exists (lit "-18446744073709551615"), (-18446744073709551615), 1. repeat split; [|lia].
  exact (itos_denotes (-18446744073709551615)).
Qed.

Theorem C36_narrowing_refuted : exists c z c1 c2,
  int_cell c z /\ cell_ok c
  /\ coerce1 default_rules TUInt c = Ok c1 /\ ~ int_cell c1 z
  /\ coerce1 default_rules TInt c = Ok c2 /\ ~ int_cell c2 z.
Proof.
  exists (CIdx (2 ^ 32)), (2 ^ 32), (CUInt 0), (CInt 0).
  repeat split; try (cbn; unfold W; lia).
  - left; reflexivity.
  - intros [H|[H|[H|[H|H]]]]; discriminate.
  - intros [H|[H|[H|[H|H]]]]; discriminate.
Qed.

(** A char column is printed as character codes, not characters (std::to_string promotes). *)
Theorem C36_char_text : forall z, cell_ok (CChar z) ->
  coerce1 default_rules TStr (CChar z) = Ok (CStr (itos z)).
Proof. reflexivity. Qed.
Example C36_char_ex : coerce1 default_rules TStr (CChar 97) = Ok (CStr (lit "97")).
Proof. reflexivity. Qed.

(** ** C44: numeric cells are printed with six decimals, correctly rounded *)

Theorem C44_numeric_text : forall s m e,
  exists q ip fp,
    coerce1 default_rules TStr (CNum (S754_finite s m e))
      = Ok (CStr ((if s then ["-"%char] else []) ++ ip ++ "."%char :: fp)%list)
    /\ 0 <= q
    /\ dec_nat ip (q / 10 ^ 6) /\ dec_nat fp (q mod 10 ^ 6) /\ List.length fp = 6%nat
    /\ 2 * Z.abs (Z.abs (fnum s m e) * 10 ^ 6 - q * fden e) <= fden e
    /\ (2 * Z.abs (Z.abs (fnum s m e) * 10 ^ 6 - q * fden e) = fden e -> Z.even q = true).
Proof.
  intros s m e. destruct (ftos_finite s m e) as (q & ip & fp & E & R).
  exists q, ip, fp. split; [|exact R]. rewrite <- E. reflexivity.
Qed.
Print Assumptions C44_numeric_text.
Example C44_ex : coerce1 default_rules TStr (CNum (S754_finite true 7074254294673575 (-51)))
  = Ok (CStr (lit "-3.141600")).
Proof. reflexivity. Qed.
(** 2^-7 = 0.0078125 is a tie: the even one is taken. *)
Example C44_tie_ex : coerce1 default_rules TStr (CNum (S754_finite false 1 (-7))) = Ok (CStr (lit "0.007812")).
Proof. reflexivity. Qed.

(** The trip numeric -> text -> numeric is therefore not the identity. *)
Theorem C44_numeric_roundtrip_refuted : exists f s f',
  coerce1 default_rules TStr (CNum f) = Ok (CStr s)
  /\ coerce1 default_rules TNum (CStr s) = Ok (CNum f') /\ f' <> f.
Proof.
  exists (S754_finite false 1 (-30)), (lit "0.000000"), (S754_zero false).
  repeat split. discriminate.
Qed.
