(** * PropReadNum: property C62 (text and doubles).

    Vocabulary (ReadNumSpec.v): [number s neg r], a decimal or hexadecimal literal with its sign and magnitude; [longest s rest], no longer prefix of
    [s ++ rest] is a number; [spells w inf_word], the letters of "inf" in either case; [nearest_even f x], the nearest double, ties to even;
    [huge], half a step above the largest double; [smallest_normal] = 2^-1022. *)

From Coq Require Import ZArith Bool Ascii String List Lia Classical Floats.SpecFloat Reals Lra.
From Flocq Require Import Core Relative BinarySingleNaN.
From Verif Require Import Base Coerce CoerceSpec CoerceProofs Random RandomProofs StatsSpec StatsProofs ReadNumSpec ReadNumProofs.
Import ListNotations.
Open Scope Z_scope.

Local Notation fex := (FLT_exp (-1074) 53).
Local Notation rnd := (round radix2 fex ZnearestE).
Local Existing Instance Hprec.
Local Existing Instance Hmax.
Local Existing Instance Vfex.

(** Blanks before the number are skipped, the longest number is read and whatever follows it is ignored.  The result is the nearest double; above [huge] and for inexact results below
    the smallest normal number the coercion throws.  (Between 2^-1022 - 2^-1075 and 2^-1022 the C library decides by a finer rule: no claim.) *)
Theorem C62_text_to_numeric : forall ws s neg r rest, Forall blank ws -> number s neg r -> longest s rest ->
  let x := if neg then (- r)%R else r in
  let result := coerce1 default_rules TNum (CStr (ws ++ s ++ rest)) in
  ((smallest_normal <= r < huge)%R -> exists f, result = Ok (CNum f) /\ is_double f /\ nearest_even f x) /\
  ((huge <= r)%R -> result = Throw OutOfRange) /\
  ((r < smallest_normal)%R -> forall f, is_double f -> finite f -> dval f = x -> minus_sign f = neg -> result = Ok (CNum f)) /\
  ((r < smallest_normal - powerRZ 2 (-1075))%R -> (forall f, is_double f -> finite f -> dval f <> x) -> result = Throw OutOfRange).
Proof.
  intros ws s neg r rest Hw L R x result. destruct (stod_number ws s neg r rest Hw L R) as (b & v & ex & Hb & Hv & Er & S).
  assert (E : result = (let* f := literal_value b neg v ex in Ok (CNum f))) by (rewrite <- S; reflexivity). clearbody result. subst result.
  destruct (finish_spec b Hb neg v ex Hv) as [A B]. rewrite <- Er in A, B.
  assert (Hr : (0 <= r)%R). { rewrite Er. apply Rmult_le_pos; [now apply IZR_le|]. left. apply powerRZ_lt. apply (IZR_lt 0). lia. }
  assert (SH : (smallest_normal < huge)%R).
  { rewrite normal_bpow, huge_bpow. assert (bpow radix2 (-1022) < bpow radix2 970)%R by (apply bpow_lt; lia).
    assert (bpow radix2 1024 = bpow radix2 970 * bpow radix2 54)%R by (rewrite <- bpow_plus; reflexivity).
    assert (bpow radix2 54 = 18014398509481984)%R by reflexivity. assert (0 < bpow radix2 970)%R by apply bpow_gt_0. nra. }
  split; [|split; [|split]].
  - intros [H1 H2]. destruct (B H2) as (f & Df & Ff & Ef & Sf & Of & _). exists f. rewrite Of by (left; now apply normal_rnd). split; [reflexivity|]. split; [exact Df|]. now apply nearest_even_rnd.
  - intros H. rewrite (A H). reflexivity.
  - intros H f Df Ff Ef Sf. destruct (B ltac:(lra)) as (g & Dg & Fg & Eg & Sg & Og & _).
    assert (X : rnd (value neg r) = value neg r). { change (value neg r) with x. rewrite <- Ef. apply round_generic; [typeclasses eauto|]. now apply format. }
    rewrite Og by (right; rewrite value_rnd in X; now apply value_inj in X). cbn [bindO]. do 2 f_equal. apply same_double; auto; [|congruence]. rewrite Eg, X, Ef. reflexivity.
  - intros H N. assert (T : (0 < powerRZ 2 (-1075))%R) by (apply powerRZ_lt; lra). destruct (B ltac:(lra)) as (g & Dg & Fg & Eg & Sg & _ & Og).
    rewrite Og; [reflexivity|now apply subnormal_rnd|]. intros X. apply (N g Dg Fg). rewrite Eg, value_rnd, X. reflexivity.
Qed.
Print Assumptions C62_text_to_numeric.

(** Zero keeps its sign. *)
Theorem C62_zero : forall ws s neg rest, Forall blank ws -> number s neg 0 -> longest s rest ->
  coerce1 default_rules TNum (CStr (ws ++ s ++ rest)) = Ok (CNum (S754_zero neg)).
Proof.
  intros ws s neg rest Hw L R. destruct (C62_text_to_numeric ws s neg 0 rest Hw L R) as [_ [_ [H _]]]. apply H; try reflexivity.
  - rewrite normal_bpow. apply bpow_gt_0.
  - cbn [dval]. destruct neg; lra.
Qed.
Print Assumptions C62_zero.

(** The words for infinity and NaN, in any mixture of cases, after blanks and a sign; what follows them is ignored ("infinity" is one such text).  In
    the model a NaN has no sign. *)
Theorem C62_text_words : forall ws sg neg w rest, Forall blank ws -> sign_text sg neg ->
  let result := coerce1 default_rules TNum (CStr (ws ++ sg ++ w ++ rest)) in
  (spells w inf_word -> result = Ok (CNum (S754_infinity neg))) /\ (spells w nan_word -> result = Ok (CNum S754_nan)).
Proof.
  intros ws sg neg w rest Hw Hs result. destruct (stod_word ws sg neg w rest Hw Hs) as [A B]. subst result. cbn. split; intros H; [rewrite (A H)|rewrite (B H)]; reflexivity.
Qed.
Print Assumptions C62_text_words.

(** A text that begins, after blanks, with no number and no word: invalid_argument. *)
Theorem C62_text_nothing : forall t,
  (forall ws s rest neg r, t = (ws ++ s ++ rest)%list -> Forall blank ws -> ~ number s neg r) ->
  (forall ws sg neg w rest, t = (ws ++ sg ++ w ++ rest)%list -> Forall blank ws -> sign_text sg neg -> ~ spells w inf_word /\ ~ spells w nan_word) ->
  coerce1 default_rules TNum (CStr t) = Throw InvalidArgument.
Proof. intros t A B. cbn. rewrite (stod_nothing t A B). reflexivity. Qed.
Print Assumptions C62_text_nothing.

(** The three theorems speak about every text. *)
Theorem C62_text_total : forall t,
  (exists ws s rest neg r, t = (ws ++ s ++ rest)%list /\ Forall blank ws /\ number s neg r /\ longest s rest) \/
  (exists ws sg neg w rest, t = (ws ++ sg ++ w ++ rest)%list /\ Forall blank ws /\ sign_text sg neg /\ (spells w inf_word \/ spells w nan_word)) \/
  coerce1 default_rules TNum (CStr t) = Throw InvalidArgument.
Proof.
  intros t. destruct (classic (exists ws s rest neg r, t = (ws ++ s ++ rest)%list /\ Forall blank ws /\ number s neg r)) as [(ws & s & rest & neg & r & E & Hw & N)|A].
  - left. destruct (longest_exists (s ++ rest) s rest neg r eq_refl N) as (p' & rest' & neg' & r' & E' & N' & L). exists ws, p', rest', neg', r'. rewrite E, E'. auto.
  - right. destruct (classic (exists ws sg neg w rest, t = (ws ++ sg ++ w ++ rest)%list /\ Forall blank ws /\ sign_text sg neg /\ (spells w inf_word \/ spells w nan_word))) as [H|B]; [now left|right].
    apply C62_text_nothing.
    + intros ws s rest neg r E Hw N. apply A. exists ws, s, rest, neg, r. auto.
    + intros ws sg neg w rest E Hw Hs. split; intros Sp; apply B; exists ws, sg, neg, w, rest; auto.
Qed.
Print Assumptions C62_text_total.

(** Printing a double and reading the text back: off by at most 10^-6, and exactly the same double when it is a multiple of 10^-6 (every integer is). *)
Theorem C62_print_and_read : forall f, is_double f -> finite f -> exists s f',
  coerce1 default_rules TStr (CNum f) = Ok (CStr s) /\ coerce1 default_rules TNum (CStr s) = Ok (CNum f') /\
  is_double f' /\ finite f' /\ minus_sign f' = minus_sign f /\ (Rabs (dval f' - dval f) <= / 1000000)%R /\
  ((exists q, dval f = IZR q / 1000000)%R -> f' = f).
Proof.
  intros f D F. destruct (ftos_six f F D) as (q & Hq & Ef & Bq).
  assert (Hh : (IZR q / 1000000 < huge)%R).
  { assert (T := top_double f D F). rewrite huge_bpow. assert (bpow radix2 971 = 2 * bpow radix2 970)%R by (change 971 with (970 + 1); rewrite bpow_plus; change (bpow radix2 1) with 2%R; ring).
    assert (1 <= bpow radix2 970)%R by (change 1%R with (bpow radix2 0); apply bpow_le; lia). apply Rabs_le_inv in Bq. lra. }
  destruct (read_six (minus_sign f) q Hq Hh) as (g & Sg & Dg & Fg & Mg & Eg).
  exists (six (minus_sign f) q), g. split; [cbn; now rewrite Ef|]. split; [cbn; rewrite Sg; reflexivity|]. split; [exact Dg|]. split; [exact Fg|]. split; [exact Mg|].
  assert (V := dval_value f F). set (y := (IZR q / 1000000)%R) in *. set (neg := minus_sign f) in *.
  assert (By : (Rabs (value neg y - dval f) <= / 2000000)%R). { rewrite V, value_dist, Rabs_minus_sym. exact Bq. }
  split.
  - assert (N : nearest g (value neg y)) by (now apply nearest_rnd). destruct N as [_ N]. specialize (N f D F).
    replace (dval g - dval f)%R with ((dval g - value neg y) + (value neg y - dval f))%R by lra. eapply Rle_trans; [apply Rabs_triang|].
    rewrite (Rabs_minus_sym (dval f)) in N. lra.
  - intros [z Hz]. assert (Y : value neg y = dval f).
    { assert (Q : IZR (if neg then - q else q) = (1000000 * value neg y)%R) by (unfold value, y; destruct neg; rewrite ?opp_IZR; field).
      assert (Z : IZR z = (1000000 * dval f)%R) by (rewrite Hz; field).
      assert (I : z = if neg then - q else q).
      { assert (Rabs (IZR z - IZR (if neg then - q else q)) < 1)%R.
        { rewrite Q, Z. replace (1000000 * dval f - 1000000 * value neg y)%R with (- (1000000 * (value neg y - dval f)))%R by ring. rewrite Rabs_Ropp, Rabs_mult, (Rabs_pos_eq 1000000) by lra. lra. }
        rewrite <- minus_IZR, <- abs_IZR in H. apply lt_IZR in H. lia. }
      rewrite I, Q in Z. lra. }
    apply same_double; auto. rewrite Eg, Y. apply round_generic; [typeclasses eauto|]. now apply format.
Qed.
Print Assumptions C62_print_and_read.

(** Reading a text with six decimals and printing the double gives the text back, below 2^33 = 8589934592. *)
Theorem C62_read_and_print : forall (neg : bool) ip fp n w, dec_nat ip n -> (ip = ["0"%char] \/ hd "0"%char ip <> "0"%char) -> dec_nat fp w -> List.length fp = 6%nat -> n < 2 ^ 33 ->
  let s := ((if neg then ["-"%char] else []) ++ ip ++ "."%char :: fp)%list in
  exists f, coerce1 default_rules TNum (CStr s) = Ok (CNum f) /\ coerce1 default_rules TStr (CNum f) = Ok (CStr s).
Proof.
  intros neg ip fp n w Hi Ci Hf Lf Hn s. set (q := n * 10 ^ 6 + w).
  assert (Hw := dec_nat_bound _ _ Hf). rewrite Lf in Hw. change (10 ^ Z.of_nat 6) with (10 ^ 6) in Hw. assert (W0 := dec_nat_nonneg _ _ Hf). assert (N0 := dec_nat_nonneg _ _ Hi).
  assert (Dq : q / 10 ^ 6 = n) by (unfold q; rewrite Z.add_comm, Z.div_add, Z.div_small; lia).
  assert (Mq : q mod 10 ^ 6 = w) by (unfold q; rewrite Z.add_comm, Z.mod_add, Z.mod_small; lia).
  assert (Es : s = six neg q).
  { unfold s, six. rewrite Dq, Mq. f_equal. f_equal.
    - apply (canonical_unique_digits _ _ n); auto; [now apply itos_nonneg| |now apply itos_canonical]. destruct Ci as [->|Ci]; [now left|right]. destruct ip; [now elim (dec_nat_nonempty _ _ Hi)|exact Ci].
    - f_equal. destruct (pad6_digits w ltac:(lia)) as [P1 P2]. apply (dec_nat_unique _ w); auto. }
  assert (Q0 : 0 <= q) by (unfold q; lia).
  assert (Bq : (0 <= IZR q / 1000000 < bpow radix2 33)%R).
  { assert (IZR q < IZR (2 ^ 33 * 10 ^ 6))%R by (apply IZR_lt; unfold q; lia). assert (0 <= IZR q)%R by (apply IZR_le; lia). rewrite mult_IZR in H. change (bpow radix2 33) with (IZR (2 ^ 33)). replace (IZR (10 ^ 6)) with 1000000%R in H by reflexivity. lra. }
  assert (Hh : (IZR q / 1000000 < huge)%R).
  { rewrite huge_bpow. assert (bpow radix2 33 <= bpow radix2 970)%R by (apply bpow_le; lia). assert (bpow radix2 1024 = bpow radix2 970 * bpow radix2 54)%R by (rewrite <- bpow_plus; reflexivity).
    assert (bpow radix2 54 = 18014398509481984)%R by reflexivity. assert (0 < bpow radix2 970)%R by apply bpow_gt_0. nra. }
  destruct (read_six neg q Q0 Hh) as (f & Sf & Df & Ff & Mf & Ef). exists f. rewrite Es. split; [cbn; rewrite Sf; reflexivity|].
  destruct (ftos_six f Ff Df) as (q' & Hq' & Ef' & Bq'). rewrite Mf in Ef'. cbn. rewrite Ef'. do 3 f_equal.
  assert (Er : (Rabs (Rabs (dval f) - IZR q / 1000000) <= bpow radix2 (-21))%R).
  { rewrite Ef, rnd_abs by apply Bq. set (y := (IZR q / 1000000)%R) in *. eapply Rle_trans; [apply error_le_half_ulp; typeclasses eauto|].
    destruct (Req_dec y 0) as [->|Ny].
    - rewrite ulp_FLT_small; [|typeclasses eauto|rewrite Rabs_R0; apply bpow_gt_0]. apply Rle_trans with (bpow radix2 (-1074)); [|apply bpow_le; lia]. assert (0 < bpow radix2 (-1074))%R by apply bpow_gt_0. lra.
    - rewrite ulp_neq_0 by exact Ny. unfold cexp, FLT_exp. assert (M : mag radix2 y <= 33) by (apply mag_le_bpow; [exact Ny|]; rewrite Rabs_pos_eq by apply Bq; apply Bq).
      apply Rle_trans with (/ 2 * bpow radix2 (-20))%R; [|right; exact (half_bpow (-21))].
      apply Rmult_le_compat_l; [lra|]. apply bpow_le. lia. }
  assert (C : bpow radix2 (-21) = (/ 2097152)%R) by reflexivity. rewrite C in Er.
  assert (Rabs (IZR q' - IZR q) < 1)%R.
  { apply Rabs_le_inv in Er, Bq'. apply Rabs_def1; lra. }
  rewrite <- minus_IZR, <- abs_IZR in H. apply lt_IZR in H. lia.
Qed.
Print Assumptions C62_read_and_print.

(** The words that printing infinities and NaN gives are read back. *)
Theorem C62_words : forall f, f = S754_nan \/ (exists s, f = S754_infinity s) -> exists s,
  coerce1 default_rules TStr (CNum f) = Ok (CStr s) /\ coerce1 default_rules TNum (CStr s) = Ok (CNum f).
Proof. intros f [->|[[] ->]]; eexists; split; reflexivity. Qed.
Print Assumptions C62_words.

(** The hypotheses are met by: "  -12.5e-1;" is -1.25; the largest finite literal, and the first one that is too large; a subnormal. *)
Example C62_ex : number (lit "-12.5e-1") true ((12 + 5 / 10 ^ 1) * powerRZ 10 (-1))%R /\ longest (lit "-12.5e-1") [] /\
  coerce1 default_rules TNum (CStr (lit "  -12.5e-1;")) = Ok (CNum (S754_finite true 5629499534213120 (-52))) /\
  coerce1 default_rules TNum (CStr (lit "1.7976931348623158e308")) = Ok (CNum (S754_finite false 9007199254740991 971)) /\
  coerce1 default_rules TNum (CStr (lit "1.7976931348623159e308")) = Throw OutOfRange /\
  coerce1 default_rules TNum (CStr (lit "1e-310")) = Throw OutOfRange /\
  coerce1 default_rules TNum (CStr (lit ".5")) = Ok (CNum (S754_finite false 4503599627370496 (-53))) /\
  coerce1 default_rules TNum (CStr (lit "2.2250738585072014e-308")) = Ok (CNum (S754_finite false 4503599627370496 (-1074))).
Proof.
  split.
  { left. change (lit "-12.5e-1") with (["-"] ++ ["1"; "2"] ++ "." :: ["5"] ++ ("e" :: ["-"] ++ ["1"]))%char%list.
    apply lit_point with (v := 12) (w := 5).
    - constructor.
    - apply ds_some. change 12 with (10 * 1 + 2). apply (dn_snoc ["1"]%char); [constructor|]; cbn; tauto.
    - apply ds_some. constructor. cbn. tauto.
    - left. discriminate.
    - apply (et_some "e" ["-"]%char true ["1"]%char 1); [now left|constructor|]. constructor. cbn. tauto. }
  split; [apply longest_all|].
  repeat split; vm_compute; reflexivity.
Qed.
(** Hexadecimal text: "0x1F" is 31 as a numeric, but 0 as an integer or an index; "0x" and "0xg" are 0, "0x1.8p1" is 3; "-InFinity", "+nAn", "--1". *)
Example C62_hex_ex : number (lit "0x1F") false (31 * powerRZ 2 0)%R /\ longest (lit "0x1F") (lit "g") /\
  coerce1 default_rules TNum (CStr (lit "0x1Fg")) = Ok (CNum (S754_finite false 8725724278030336 (-48))) /\
  coerce1 default_rules TInt (CStr (lit "0x1Fg")) = Ok (CInt 0) /\ coerce1 default_rules TIdx (CStr (lit "0x1Fg")) = Ok (CIdx 0) /\
  coerce1 default_rules TNum (CStr (lit "0x")) = Ok (CNum (S754_zero false)) /\
  coerce1 default_rules TNum (CStr (lit "-0xg")) = Ok (CNum (S754_zero true)) /\
  coerce1 default_rules TNum (CStr (lit "0x1.8p1")) = Ok (CNum (S754_finite false 6755399441055744 (-51))) /\
  coerce1 default_rules TNum (CStr (lit "0x1p1024")) = Throw OutOfRange /\
  coerce1 default_rules TNum (CStr (lit " -InFinity")) = Ok (CNum (S754_infinity true)) /\
  coerce1 default_rules TNum (CStr (lit "+nAnx")) = Ok (CNum S754_nan) /\
  coerce1 default_rules TNum (CStr (lit "--1")) = Throw InvalidArgument /\ coerce1 default_rules TNum (CStr (lit ".e5")) = Throw InvalidArgument.
Proof.
  split.
  { right. apply (hex_whole [] false "x" ["1"; "F"]%char 31 [] 0); [constructor|now left| |constructor]. change 31 with (16 * 1 + 15). apply (hn_snoc ["1"]%char 1); [constructor|]; cbn; tauto. }
  split.
  { intros s' rest' neg r E N. destruct rest' as [|c rest']; [exfalso|apply (f_equal (@List.length _)) in E; rewrite !app_length in E; cbn in E |- *; lia].
    rewrite app_nil_r in E. subst s'. apply no_g in N. apply N. cbn. tauto. }
  repeat split; vm_compute; reflexivity.
Qed.
Example C62_print_ex : is_double (S754_finite false 4503599627370497 (-52)) /\ finite (S754_finite false 4503599627370497 (-52)) /\
  coerce1 default_rules TStr (CNum (S754_finite false 4503599627370497 (-52))) = Ok (CStr (lit "1.000000")) /\
  coerce1 default_rules TNum (CStr (lit "0.100000")) = Ok (CNum (S754_finite false 7205759403792794 (-56))) /\
  coerce1 default_rules TStr (CNum (S754_finite false 7205759403792794 (-56))) = Ok (CStr (lit "0.100000")).
Proof. repeat split; vm_compute; reflexivity. Qed.
(** Above 2^33 the sixth decimal may change. *)
Theorem C62_read_and_print_refuted : exists s f s',
  coerce1 default_rules TNum (CStr s) = Ok (CNum f) /\ coerce1 default_rules TStr (CNum f) = Ok (CStr s') /\ s' <> s /\ s = lit "8589934592.000001".
Proof. exists (lit "8589934592.000001"). do 2 eexists. split; [vm_compute; reflexivity|]. split; [vm_compute; reflexivity|]. split; [vm_compute; discriminate|reflexivity]. Qed.
