(** * CoerceProofs: lemmas about the C library conversions and the rules. *)

From Coq Require Import ZArith List Bool Ascii String Lia Floats.SpecFloat.
From Verif Require Import Base Coerce CoerceSpec.
Import ListNotations.
Open Scope Z_scope.

Lemma char_digit_iff c d : char_digit c = Some d <-> is_digit c d.
Proof.
  unfold char_digit, is_digit, digit_table. split.
  - destruct c as [b0 b1 b2 b3 b4 b5 b6 b7].
    destruct b0, b1, b2, b3, b4, b5, b6, b7; cbn; intros H; inversion H; subst; cbn; tauto.
  - cbn [In]. intros H.
    repeat (destruct H as [H|H]; [injection H as <- <-; reflexivity|]). destruct H.
Qed.

Lemma char_digit_none c : char_digit c = None <-> (forall d, ~ is_digit c d).
Proof.
  split.
  - intros H d Hd. apply char_digit_iff in Hd. congruence.
  - intros H. destruct (char_digit c) eqn:E; [|reflexivity].
    apply char_digit_iff in E. elim (H _ E).
Qed.

Lemma digit_char_ok d : 0 <= d < 10 -> is_digit (digit_char d) d.
Proof.
  intros H. apply char_digit_iff.
  assert (D : d = 0 \/ d = 1 \/ d = 2 \/ d = 3 \/ d = 4 \/ d = 5 \/ d = 6 \/ d = 7 \/ d = 8 \/ d = 9) by lia.
  repeat (destruct D as [D|D]; [subst; reflexivity|]). subst; reflexivity.
Qed.

Lemma digit_range c d : is_digit c d -> 0 <= d < 10.
Proof.
  unfold is_digit, digit_table. cbn [In]. intros H.
  repeat (destruct H as [H|H]; [injection H as _ <-; lia|]). destruct H.
Qed.

Lemma digit_not_space c d : is_digit c d -> is_space c = false.
Proof.
  unfold is_digit, digit_table. cbn [In]. intros H.
  repeat (destruct H as [H|H]; [injection H as <- _; reflexivity|]). destruct H.
Qed.

Lemma digit_not_sign c d : is_digit c d -> c <> "-"%char /\ c <> "+"%char /\ c <> "."%char.
Proof.
  unfold is_digit, digit_table. cbn [In]. intros H.
  repeat (destruct H as [H|H]; [injection H as <- _; repeat split; discriminate|]). destruct H.
Qed.

Lemma dec_nat_nonneg s v : dec_nat s v -> 0 <= v.
Proof. induction 1 as [c d H|s v c d _ IH H]; apply digit_range in H; lia. Qed.

Lemma dec_nat_nonempty s v : dec_nat s v -> s <> [].
Proof. destruct 1; [discriminate|]. destruct s; discriminate. Qed.

Lemma dec_nat_head s v : dec_nat s v -> exists c d s', s = c :: s' /\ is_digit c d.
Proof.
  induction 1 as [c d H|s v c d _ IH H].
  - exists c, d, []. auto.
  - destruct IH as (c' & d' & s' & -> & H'). exists c', d', (s' ++ [c])%list. auto.
Qed.

Lemma dec_digits_ok fuel n : 0 <= n -> n < 2 ^ Z.of_nat fuel -> (0 < fuel)%nat -> dec_nat (dec_digits fuel n) n.
Proof.
  revert n. induction fuel as [|k IH]; intros n H0 H1 Hp; [lia|].
  cbn [dec_digits]. destruct (n <? 10) eqn:E.
  - apply dn_one, digit_char_ok. lia.
  - assert (n = 10 * (n / 10) + n mod 10) as Hd by (apply Z.div_mod; lia).
    rewrite Hd at 3. apply dn_snoc.
    + assert (n / 10 < 2 ^ Z.of_nat k).
      { replace (Z.of_nat (S k)) with (Z.of_nat k + 1) in H1 by lia.
        rewrite Z.pow_add_r in H1 by lia. change (2 ^ 1) with 2 in H1.
        apply Z.div_lt_upper_bound; lia. }
      apply IH; auto.
      * apply Z.div_pos; lia.
      * destruct k; [|lia]. cbn in H. assert (1 <= n / 10) by (apply Z.div_le_lower_bound; lia). lia.
    + apply digit_char_ok, Z.mod_pos_bound; lia.
Qed.

Lemma itos_mag m : 0 <= m -> dec_nat (dec_digits (S (Z.to_nat (Z.log2 m))) m) m.
Proof.
  intros H. apply dec_digits_ok; [lia| |lia].
  destruct (Z.eq_dec m 0) as [->|Hn]; [cbn; lia|].
  assert (m < 2 ^ Z.succ (Z.log2 m)) by (apply Z.log2_spec; lia).
  pose proof (Z.log2_nonneg m).
  replace (Z.of_nat (S (Z.to_nat (Z.log2 m)))) with (Z.succ (Z.log2 m)) by lia. assumption.
Qed.

Lemma itos_denotes z : dec_int (itos z) z.
Proof.
  unfold itos. destruct (z <? 0) eqn:E.
  - assert (H : dec_int ("-"%char :: dec_digits (S (Z.to_nat (Z.log2 (Z.abs z)))) (Z.abs z)) (- Z.abs z))
      by (apply di_neg, itos_mag; lia).
    replace (- Z.abs z) with z in H by lia. exact H.
  - assert (H : dec_int (dec_digits (S (Z.to_nat (Z.log2 (Z.abs z)))) (Z.abs z)) (Z.abs z))
      by (apply di_pos, itos_mag; lia).
    replace (Z.abs z) with z in H at 3 by lia. exact H.
Qed.

(** ** Parsing *)

Lemma take_digits_app s : forall v, dec_nat s v -> forall acc k rest,
  take_digits acc k (s ++ rest)%list
  = take_digits (acc * 10 ^ Z.of_nat (List.length s) + v) (k + List.length s) rest.
Proof.
  intros v H. induction H as [c d H|s v c d Hs IH H]; intros acc k rest.
  - cbn [app List.length take_digits]. apply char_digit_iff in H. rewrite H.
    change (10 ^ Z.of_nat 1) with 10. f_equal. lia.
  - rewrite <- app_assoc, IH. cbn [app take_digits]. apply char_digit_iff in H. rewrite H.
    rewrite app_length. cbn [List.length].
    rewrite Nat2Z.inj_add, Z.pow_add_r by lia. change (10 ^ Z.of_nat 1) with 10.
    f_equal; lia.
Qed.

Lemma take_digits_stop acc k rest : no_digit_first rest -> take_digits acc k rest = (acc, k, rest).
Proof.
  destruct rest as [|c r]; cbn; [reflexivity|]. intros H. apply char_digit_none in H. now rewrite H.
Qed.

Lemma take_digits_dec s v rest : dec_nat s v -> no_digit_first rest ->
  take_digits 0 0 (s ++ rest)%list = (v, List.length s, rest).
Proof.
  intros H Hr. rewrite (take_digits_app _ _ H). rewrite take_digits_stop by assumption.
  rewrite Z.mul_0_l. reflexivity.
Qed.

Lemma blank_space c : blank c -> is_space c = true.
Proof.
  unfold blank. cbn [In]. intros H.
  repeat (destruct H as [H|H]; [subst; reflexivity|]). destruct H.
Qed.

Lemma skip_ws_blank ws s : Forall blank ws -> skip_ws (ws ++ s)%list = skip_ws s.
Proof.
  induction 1 as [|c ws H _ IH]; cbn; [reflexivity|]. now rewrite (blank_space _ H).
Qed.

Lemma skip_ws_stop c s : is_space c = false -> skip_ws (c :: s) = c :: s.
Proof. intros H. cbn. now rewrite H. Qed.

Lemma take_sign_other c s : c <> "-"%char -> c <> "+"%char -> take_sign (c :: s) = (false, c :: s).
Proof.
  intros H1 H2. unfold take_sign.
  destruct c as [b0 b1 b2 b3 b4 b5 b6 b7].
  destruct b0, b1, b2, b3, b4, b5, b6, b7; try reflexivity; congruence.
Qed.

Lemma parse_dec_nat ws s v rest : Forall blank ws -> dec_nat s v -> no_digit_first rest ->
  parse_dec (ws ++ s ++ rest)%list = Some (false, v).
Proof.
  intros Hw Hs Hr. unfold parse_dec. rewrite skip_ws_blank by assumption.
  destruct (dec_nat_head _ _ Hs) as (c & d & s' & E & Hd).
  assert (T : take_sign (skip_ws (s ++ rest)%list) = (false, (s ++ rest)%list)).
  { subst s. cbn [app]. rewrite skip_ws_stop by (eapply digit_not_space; eauto).
    apply take_sign_other; eapply digit_not_sign; eauto. }
  rewrite T, (take_digits_dec _ _ _ Hs Hr). subst s. reflexivity.
Qed.

Lemma parse_dec_neg ws s v rest : Forall blank ws -> dec_nat s v -> no_digit_first rest ->
  parse_dec (ws ++ "-"%char :: s ++ rest)%list = Some (true, v).
Proof.
  intros Hw Hs Hr. unfold parse_dec. rewrite skip_ws_blank by assumption.
  rewrite skip_ws_stop by reflexivity. cbn [take_sign].
  rewrite (take_digits_dec _ _ _ Hs Hr).
  apply dec_nat_nonempty in Hs. destruct s; [congruence|reflexivity].
Qed.

Lemma parse_dec_plus ws s v rest : Forall blank ws -> dec_nat s v -> no_digit_first rest ->
  parse_dec (ws ++ "+"%char :: s ++ rest)%list = Some (false, v).
Proof.
  intros Hw Hs Hr. unfold parse_dec. rewrite skip_ws_blank by assumption.
  rewrite skip_ws_stop by reflexivity. cbn [take_sign].
  rewrite (take_digits_dec _ _ _ Hs Hr).
  apply dec_nat_nonempty in Hs. destruct s; [congruence|reflexivity].
Qed.

(** std::stoi on blanks, an integer literal, and anything after it. *)
Lemma stoi_spec ws s z rest : Forall blank ws -> dec_int s z -> no_digit_first rest ->
  stoi (ws ++ s ++ rest)%list
  = if (- 2 ^ 31 <=? z) && (z <? 2 ^ 31) then Ok z else Throw OutOfRange.
Proof.
  intros Hw Hs Hr. unfold stoi. destruct Hs as [s v H|s v H].
  - rewrite (parse_dec_nat _ _ _ _ Hw H Hr). reflexivity.
  - cbn [app]. rewrite (parse_dec_neg _ _ _ _ Hw H Hr). reflexivity.
Qed.

Lemma stoul_nat ws s v rest : Forall blank ws -> dec_nat s v -> no_digit_first rest ->
  stoul (ws ++ s ++ rest)%list = if v <? W then Ok v else Throw OutOfRange.
Proof.
  intros Hw Hs Hr. unfold stoul. rewrite (parse_dec_nat _ _ _ _ Hw Hs Hr).
  rewrite Z.leb_antisym. now destruct (v <? W).
Qed.

Lemma stoul_neg ws s v rest : Forall blank ws -> dec_nat s v -> no_digit_first rest ->
  stoul (ws ++ "-"%char :: s ++ rest)%list = if v <? W then Ok (w64 (- v)) else Throw OutOfRange.
Proof.
  intros Hw Hs Hr. unfold stoul. rewrite (parse_dec_neg _ _ _ _ Hw Hs Hr).
  rewrite Z.leb_antisym. now destruct (v <? W).
Qed.

Lemma stoi_itos z : - 2 ^ 31 <= z < 2 ^ 31 -> stoi (itos z) = Ok z.
Proof.
  intros H. pose proof (stoi_spec [] (itos z) z [] (Forall_nil _) (itos_denotes z) I) as E.
  cbn [app] in E. rewrite app_nil_r in E. rewrite E.
  destruct (- 2 ^ 31 <=? z) eqn:A, (z <? 2 ^ 31) eqn:B; try reflexivity; lia.
Qed.

Lemma itos_nonneg z : 0 <= z -> dec_nat (itos z) z.
Proof.
  intros H. unfold itos. destruct (z <? 0) eqn:E; [lia|].
  rewrite Z.abs_eq by lia. apply itos_mag. lia.
Qed.

Lemma stoul_itos z : 0 <= z < W -> stoul (itos z) = Ok z.
Proof.
  intros H. pose proof (stoul_nat [] (itos z) z [] (Forall_nil _) (itos_nonneg z ltac:(lia)) I) as E.
  cbn [app] in E. rewrite app_nil_r in E. rewrite E. destruct (z <? W) eqn:B; [reflexivity|lia].
Qed.

Lemma w64_id z : 0 <= z < W -> w64 z = z.
Proof. intros H. apply Z.mod_small. exact H. Qed.
Lemma w32_id z : 0 <= z < 2 ^ 32 -> w32 z = z.
Proof. intros H. apply Z.mod_small. exact H. Qed.
Lemma s32_id z : - 2 ^ 31 <= z < 2 ^ 31 -> s32 z = z.
Proof. intros H. unfold s32. rewrite Z.mod_small; lia. Qed.

(** ** double *)

Lemma digits2_Zdigits2 p : Zdigits2 (Zpos p) = Z.log2 (Zpos p) + 1.
Proof.
  cbn [Zdigits2]. induction p as [p IH|p IH|]; cbn [digits2_pos]; [| |reflexivity].
  - rewrite Pos2Z.inj_succ, IH. change (Z.pos p~1) with (2 * Z.pos p + 1).
    rewrite Z.log2_succ_double by lia. lia.
  - rewrite Pos2Z.inj_succ, IH. change (Z.pos p~0) with (2 * Z.pos p).
    rewrite Z.log2_double by lia. lia.
Qed.

(** A positive integer below 2^53 is represented exactly, with a normalised mantissa. *)
Lemma binary_round_exact sx p :
  Zpos p < 2 ^ 53 ->
  exists m k, binary_round 53 1024 sx p 0 = S754_finite sx m (- k)
              /\ 0 <= k /\ Zpos m = Zpos p * 2 ^ k /\ Z.log2 (Zpos m) = 52.
Proof.
  intros H. set (L := Z.log2 (Zpos p)).
  assert (HL : 0 <= L <= 52).
  { split; [apply Z.log2_nonneg|]. unfold L. enough (Z.log2 (Zpos p) < 53) by lia.
    apply Z.log2_lt_pow2; lia. }
  assert (HD : Z.pos (digits2_pos p) = L + 1) by (pose proof (digits2_Zdigits2 p); cbn [Zdigits2] in *; lia).
  unfold binary_round. rewrite HD. unfold fexp, emin.
  replace (Z.max (L + 1 + 0 - 53) (3 - 1024 - 53)) with (- (52 - L)) by lia.
  set (k := 52 - L).
  assert (A : exists m, shl_align p 0 (- k) = (m, - k) /\ Zpos m = Zpos p * 2 ^ k).
  { unfold shl_align. destruct (- k - 0) eqn:E.
    - exists p. assert (k = 0) as -> by lia. split; [reflexivity|]. rewrite Z.pow_0_r. lia.
    - unfold k in E. lia.
    - exists (shift_pos p0 p). split; [reflexivity|]. rewrite shift_pos_correct.
      rewrite Zpower_pos_nat, Zpower_nat_Z, positive_nat_Z. rewrite Z.mul_comm. f_equal. f_equal. lia. }
  destruct A as (m & -> & Hm).
  assert (HLm : Z.log2 (Zpos m) = 52).
  { rewrite Hm. rewrite Z.log2_mul_pow2 by (unfold k; lia). fold L. unfold k. lia. }
  assert (HDm : Zdigits2 (Zpos m) = 53) by (rewrite digits2_Zdigits2; lia).
  exists m, k. split; [|repeat split; auto; unfold k; lia].
  unfold binary_round_aux, shr_fexp. rewrite HDm. unfold fexp, emin.
  replace (Z.max (53 + - k - 53) (3 - 1024 - 53) - - k) with 0 by (unfold k; lia).
  cbn [shr shr_record_of_loc loc_of_shr_record shr_m shr_r shr_s round_nearest_even].
  rewrite HDm.
  replace (Z.max (53 + - k - 53) (3 - 1024 - 53) - - k) with 0 by (unfold k; lia).
  cbn [shr shr_m].
  destruct (- k <=? 1024 - 53) eqn:E; [reflexivity|]. unfold k in E. lia.
Qed.

Lemma ftrunc_exact s m k p : 0 <= k -> Zpos m = Zpos p * 2 ^ k ->
  ftrunc (S754_finite s m (- k)) = Some (if s then - Zpos p else Zpos p).
Proof.
  intros Hk Hm. cbn [ftrunc].
  assert (E : (if 0 <=? - k then Zpos m * 2 ^ (- k) else Zpos m / 2 ^ (- - k)) = Zpos p).
  { destruct (0 <=? - k) eqn:E.
    - assert (k = 0) as -> by lia. rewrite Z.pow_0_r in Hm. change (- 0) with 0. rewrite Z.pow_0_r. lia.
    - rewrite Z.opp_involutive, Hm. apply Z.div_mul. pose proof (Z.pow_pos_nonneg 2 k). lia. }
  now rewrite E.
Qed.

Lemma dbl_trunc z : - 2 ^ 53 < z < 2 ^ 53 -> ftrunc (dbl z) = Some z.
Proof.
  intros H. unfold dbl, binary_normalize. destruct z as [|p|p]; [reflexivity| |].
  - destruct (binary_round_exact false p) as (m & k & -> & Hk & Hm & _); [lia|].
    now rewrite (ftrunc_exact _ _ _ _ Hk Hm).
  - destruct (binary_round_exact true p) as (m & k & -> & Hk & Hm & _); [lia|].
    now rewrite (ftrunc_exact _ _ _ _ Hk Hm).
Qed.

Lemma dbl_neg z : - 2 ^ 53 < z < 2 ^ 53 -> fneg (dbl z) = (z <? 0).
Proof.
  intros H. unfold dbl, binary_normalize. destruct z as [|p|p]; [reflexivity| |].
  - destruct (binary_round_exact false p) as (m & k & -> & _); [lia|]. reflexivity.
  - destruct (binary_round_exact true p) as (m & k & -> & _); [lia|]. reflexivity.
Qed.

(** Text that an integer prints to is read by strtod as that integer. *)
Lemma lower_digit c d : is_digit c d -> lower c = c.
Proof.
  unfold is_digit, digit_table. cbn [In]. intros H.
  repeat (destruct H as [H|H]; [injection H as <- _; reflexivity|]). destruct H.
Qed.

Lemma no_inf_digit c d s : is_digit c d ->
  has_prefix (lit "inf") (map lower (c :: s)) = false /\ has_prefix (lit "nan") (map lower (c :: s)) = false.
Proof.
  intros H. cbn [map]. rewrite (lower_digit _ _ H). cbn [lit list_ascii_of_string has_prefix].
  unfold is_digit, digit_table in H. cbn [In] in H.
  repeat (destruct H as [H|H]; [injection H as <- _; split; reflexivity|]). destruct H.
Qed.

Lemma dec_nat_chars s v : dec_nat s v -> Forall (fun c => exists d, is_digit c d) s.
Proof. induction 1; [repeat constructor; eauto|]. apply Forall_app. split; [assumption|]. repeat constructor. eauto. Qed.
Lemma digit_not_x c d : is_digit c d -> lower c <> "x"%char.
Proof.
  intros H. rewrite (lower_digit _ _ H). unfold is_digit, digit_table in H. cbn [In] in H.
  repeat (destruct H as [H|H]; [injection H as <- _; discriminate|]). destruct H.
Qed.
Lemma hex_part_digits s : Forall (fun c => exists d, is_digit c d) s -> hex_part s = None.
Proof.
  intros H. unfold hex_part. destruct s as [|c [|x s]]; try reflexivity.
  - destruct c as [b0 b1 b2 b3 b4 b5 b6 b7]. destruct b0, b1, b2, b3, b4, b5, b6, b7; reflexivity.
  - inversion H as [|? ? _ H1]; subst. inversion H1 as [|? ? [d Hd] _]; subst.
    destruct (ascii_dec (lower x) "x") as [E|_]; [now apply digit_not_x in Hd|].
    destruct c as [b0 b1 b2 b3 b4 b5 b6 b7]. destruct b0, b1, b2, b3, b4, b5, b6, b7; reflexivity.
Qed.

Lemma stod_dec (neg : bool) s v :
  dec_nat s v ->
  stod ((if neg then ["-"%char] else []) ++ s)%list
  = let f := if v =? 0 then S754_zero neg
             else binary_normalize 53 1024 ((if neg then -1 else 1) * v) 0 neg in
    match f with S754_infinity _ => Throw OutOfRange | _ => Ok f end.
Proof.
  intros H. unfold stod.
  destruct (dec_nat_head _ _ H) as (c & d & s' & E & Hd).
  assert (T : take_sign (skip_ws ((if neg then ["-"%char] else []) ++ s)%list) = (neg, s)).
  { destruct neg; cbn [app].
    - rewrite skip_ws_stop by reflexivity. reflexivity.
    - subst s. rewrite skip_ws_stop by (eapply digit_not_space; eauto).
      apply take_sign_other; eapply digit_not_sign; eauto. }
  rewrite T.
  destruct (no_inf_digit c d s' Hd) as [E1 E2]. rewrite <- E in E1, E2. rewrite E1, E2.
  rewrite (hex_part_digits s (dec_nat_chars _ _ H)). unfold take_mant.
  pose proof (take_digits_dec s v [] H I) as TD. rewrite app_nil_r in TD. rewrite TD.
  assert (Nat.eqb (List.length s) 0 = false) as -> by (subst s; reflexivity).
  unfold literal_value. cbn [take_exp]. replace (0 - 0) with 0 by lia. cbn [Z.leb Z.compare].
  rewrite Z.pow_0_r, Z.mul_1_r, andb_false_r.
  cbv zeta.
  destruct (v =? 0); [reflexivity|].
  destruct (binary_normalize _ _ _ _ _); reflexivity.
Qed.

Lemma stod_itos z : z <> 0 -> (forall s, dbl z <> S754_infinity s) -> stod (itos z) = Ok (dbl z).
Proof.
  intros Hz Hi. unfold itos. set (m := Z.abs z). set (ds := dec_digits _ m).
  assert (D : dec_nat ds m) by (apply itos_mag; unfold m; lia).
  destruct (z <? 0) eqn:E.
  - pose proof (stod_dec true ds m D) as S. cbn [app] in S. rewrite S.
    assert (m =? 0 = false) as -> by (unfold m; lia).
    replace (-1 * m) with z by (unfold m; lia). cbv zeta.
    assert (B : binary_normalize 53 1024 z 0 true = dbl z) by (destruct z; [lia|reflexivity|reflexivity]).
    rewrite B. destruct (dbl z) eqn:F; try reflexivity. elim (Hi s). reflexivity.
  - pose proof (stod_dec false ds m D) as S. cbn [app] in S. rewrite S.
    assert (m =? 0 = false) as -> by (unfold m; lia).
    replace (1 * m) with z by (unfold m; lia). cbv zeta.
    change (binary_normalize 53 1024 z 0 false) with (dbl z).
    destruct (dbl z) eqn:F; try reflexivity. elim (Hi s). reflexivity.
Qed.

Lemma stod_itos_0 : stod (itos 0) = Ok (dbl 0).
Proof. reflexivity. Qed.

(** ** No overflow for 64-bit integers *)

Lemma shr_1_le r : 0 <= shr_m r -> 0 <= shr_m (shr_1 r) <= shr_m r.
Proof.
  destruct r as [m rr ss]. cbn [shr_m]. intros H. unfold shr_1.
  destruct m as [|[p|p|]|p]; cbn [shr_m]; lia.
Qed.

Lemma iter_shr_le p : forall r, 0 <= shr_m r -> 0 <= shr_m (iter_pos shr_1 p r) <= shr_m r.
Proof.
  induction p as [p IH|p IH|]; intros r H; cbn [iter_pos].
  - pose proof (shr_1_le r H). pose proof (IH (shr_1 r) ltac:(lia)).
    pose proof (IH (iter_pos shr_1 p (shr_1 r)) ltac:(lia)). lia.
  - pose proof (IH r H). pose proof (IH (iter_pos shr_1 p r) ltac:(lia)). lia.
  - apply shr_1_le, H.
Qed.

Lemma shr_fexp_bound m e l r e' :
  0 <= m <= 2 ^ 65 -> -100 <= e <= 400 -> shr_fexp 53 1024 m e l = (r, e') ->
  0 <= shr_m r <= m /\ -100 <= e' <= e + 66.
Proof.
  intros Hm He. unfold shr_fexp, shr.
  assert (HD : 0 <= Zdigits2 m <= 66).
  { destruct m as [|p|p]; [cbn; lia| |lia]. rewrite digits2_Zdigits2.
    pose proof (Z.log2_nonneg (Zpos p)).
    assert (Z.log2 (Zpos p) <= Z.log2 (2 ^ 65)) by (apply Z.log2_le_mono; lia).
    rewrite Z.log2_pow2 in * by lia. lia. }
  assert (HS : shr_m (shr_record_of_loc m l) = m) by (destruct l as [|[]]; reflexivity).
  unfold fexp, emin.
  destruct (Z.max (Zdigits2 m + e - 53) (3 - 1024 - 53) - e) eqn:E; intros X; injection X as <- <-.
  - rewrite HS. lia.
  - pose proof (iter_shr_le p (shr_record_of_loc m l) ltac:(lia)). rewrite HS in *. lia.
  - rewrite HS. lia.
Qed.

Lemma binary_round_no_inf sx p s : Zpos p < 2 ^ 64 -> binary_round 53 1024 sx p 0 <> S754_infinity s.
Proof.
  intros H.
  destruct (Z_lt_le_dec (Zpos p) (2 ^ 53)) as [Hs|Hb].
  { destruct (binary_round_exact sx p Hs) as (m & k & -> & _). discriminate. }
  unfold binary_round.
  assert (A : shl_align p 0 (fexp 53 1024 (Z.pos (digits2_pos p) + 0)) = (p, 0)).
  { unfold shl_align. pose proof (digits2_Zdigits2 p) as D. cbn [Zdigits2] in D. rewrite D.
    assert (53 <= Z.log2 (Zpos p)) by (apply Z.log2_le_pow2; lia).
    unfold fexp, emin.
    destruct (Z.max (Z.log2 (Z.pos p) + 1 + 0 - 53) (3 - 1024 - 53) - 0) eqn:E; try reflexivity. lia. }
  rewrite A. unfold binary_round_aux.
  destruct (shr_fexp 53 1024 (Z.pos p) 0 loc_Exact) as [r1 e1] eqn:E1.
  apply shr_fexp_bound in E1; [|lia|lia].
  set (m1 := round_nearest_even (shr_m r1) (loc_of_shr_record r1)).
  assert (Hm1 : 0 <= m1 <= 2 ^ 64).
  { unfold m1, round_nearest_even. destruct (loc_of_shr_record r1) as [|[]]; try lia.
    destruct (Z.even (shr_m r1)); lia. }
  destruct (shr_fexp 53 1024 m1 e1 loc_Exact) as [r2 e2] eqn:E2.
  apply shr_fexp_bound in E2; [|lia|lia].
  destruct (shr_m r2); try discriminate.
  destruct (e2 <=? 1024 - 53) eqn:E; [discriminate|lia].
Qed.

Lemma dbl_no_inf z s : - 2 ^ 64 < z < 2 ^ 64 -> dbl z <> S754_infinity s.
Proof.
  intros H. unfold dbl, binary_normalize. destruct z as [|p|p]; [discriminate| |];
    apply binary_round_no_inf; lia.
Qed.

Lemma stod_itos_64 z : - 2 ^ 64 < z < 2 ^ 64 -> stod (itos z) = Ok (dbl z).
Proof.
  intros H. destruct (Z.eq_dec z 0) as [->|Hz]; [apply stod_itos_0|].
  apply stod_itos; [assumption|]. intros s. apply dbl_no_inf. assumption.
Qed.

(** ** printf("%f") *)

Lemma div_ne_near a b : 0 < b -> 2 * Z.abs (a - div_ne a b * b) <= b.
Proof.
  intros Hb. unfold div_ne.
  pose proof (Z.div_mod a b ltac:(lia)). pose proof (Z.mod_pos_bound a b Hb).
  set (q := a / b) in *. set (r := a mod b) in *.
  destruct (2 * r <? b) eqn:E1; [lia|].
  destruct (b <? 2 * r) eqn:E2; [nia|].
  destruct (Z.even q); nia.
Qed.
Lemma div_ne_even a b : 0 < b -> 2 * Z.abs (a - div_ne a b * b) = b -> Z.even (div_ne a b) = true.
Proof.
  intros Hb. unfold div_ne.
  pose proof (Z.div_mod a b ltac:(lia)). pose proof (Z.mod_pos_bound a b Hb).
  set (q := a / b) in *. set (r := a mod b) in *.
  destruct (2 * r <? b) eqn:E1; [intros; exfalso; lia|].
  destruct (b <? 2 * r) eqn:E2; [intros; exfalso; nia|].
  destruct (Z.even q) eqn:E; intros _; [exact E|]. rewrite Z.add_1_r, Z.even_succ, <- Z.negb_even, E. reflexivity.
Qed.

Lemma pad6_digits n : 0 <= n < 10 ^ 6 -> dec_nat (pad6 n) n /\ List.length (pad6 n) = 6%nat.
Proof.
  intros H. split; [|reflexivity].
  unfold pad6. cbn [map].
  assert (D : forall k, is_digit (digit_char ((n / 10 ^ k) mod 10)) ((n / 10 ^ k) mod 10))
    by (intros; apply digit_char_ok, Z.mod_pos_bound; lia).
  pose proof (dn_one _ _ (D 5)) as N5.
  pose proof (dn_snoc _ _ _ _ N5 (D 4)) as N4.
  pose proof (dn_snoc _ _ _ _ N4 (D 3)) as N3.
  pose proof (dn_snoc _ _ _ _ N3 (D 2)) as N2.
  pose proof (dn_snoc _ _ _ _ N2 (D 1)) as N1.
  pose proof (dn_snoc _ _ _ _ N1 (D 0)) as N0.
  cbn [app] in N0.
  match type of N0 with dec_nat _ ?v => assert (E : v = n) end.
  { clear - H.
    change (10 ^ 5) with 100000. change (10 ^ 4) with 10000. change (10 ^ 3) with 1000.
    change (10 ^ 2) with 100. change (10 ^ 1) with 10. change (10 ^ 0) with 1.
    change (10 ^ 6) with 1000000 in H.
    Z.to_euclidean_division_equations; lia. }
  rewrite E in N0. exact N0.
Qed.

Lemma ftos_finite s m e :
  exists q ip fp,
    ftos (S754_finite s m e) = ((if s then ["-"%char] else []) ++ ip ++ "."%char :: fp)%list
    /\ 0 <= q
    /\ dec_nat ip (q / 10 ^ 6) /\ dec_nat fp (q mod 10 ^ 6) /\ List.length fp = 6%nat
    /\ 2 * Z.abs (Z.abs (fnum s m e) * 10 ^ 6 - q * fden e) <= fden e
    /\ (2 * Z.abs (Z.abs (fnum s m e) * 10 ^ 6 - q * fden e) = fden e -> Z.even q = true).
Proof.
  cbn [ftos].
  set (q := if 0 <=? e then Z.pos m * 2 ^ e * 10 ^ 6 else div_ne (Z.pos m * 10 ^ 6) (2 ^ (- e))).
  assert (Hq : 2 * Z.abs (Z.abs (fnum s m e) * 10 ^ 6 - q * fden e) <= fden e).
  { unfold fnum, fden, q. destruct (0 <=? e) eqn:E.
    - pose proof (Z.pow_nonneg 2 e). destruct s; rewrite ?Z.mul_1_l; nia.
    - pose proof (Z.pow_pos_nonneg 2 (- e) ltac:(lia) ltac:(lia)).
      pose proof (div_ne_near (Z.pos m * 10 ^ 6) (2 ^ (- e)) ltac:(lia)).
      replace (Z.abs ((if s then -1 else 1) * Z.pos m)) with (Z.pos m) by (destruct s; lia). assumption. }
  assert (He : 2 * Z.abs (Z.abs (fnum s m e) * 10 ^ 6 - q * fden e) = fden e -> Z.even q = true).
  { unfold fnum, fden, q. destruct (0 <=? e) eqn:E.
    - intros H. exfalso. lia.
    - replace (Z.abs ((if s then -1 else 1) * Z.pos m)) with (Z.pos m) by (destruct s; lia).
      apply div_ne_even. apply Z.pow_pos_nonneg; lia. }
  assert (H0 : 0 <= q).
  { unfold q. destruct (0 <=? e).
    - pose proof (Z.pow_nonneg 2 e). nia.
    - unfold div_ne. pose proof (Z.div_pos (Z.pos m * 10 ^ 6) (2 ^ (- e))).
      destruct (Z.eq_dec (2 ^ (- e)) 0) as [->|].
      + rewrite Zdiv_0_r, Zmod_0_r. destruct (2 * _ <? 0); [lia|]. destruct (0 <? _); [lia|]. destruct (Z.even 0); lia.
      + pose proof (Z.pow_nonneg 2 (- e)).
        repeat match goal with |- context [if ?b then _ else _] => destruct b end; lia. }
  exists q, (itos (q / 10 ^ 6)), (pad6 (q mod 10 ^ 6)).
  split; [destruct s; reflexivity|]. split; [assumption|].
  assert (P : 0 <= q mod 10 ^ 6 < 10 ^ 6) by (apply Z.mod_pos_bound; lia).
  destruct (pad6_digits _ P) as [P1 P2].
  repeat split; auto. apply itos_nonneg, Z.div_pos; lia.
Qed.
