(** * MathExp: a correctly rounded exp meets everything asked of std::exp. *)

From Coq Require Import ZArith List Bool Lia Floats.SpecFloat Reals Lra.
From Flocq Require Import Core Relative Plus_error Mult_error BinarySingleNaN.
From Verif Require Import Base Spec Coerce Reduce Random Stats ReduceSpec StatsSpec RandomProofs StatsProofs ReadNumSpec ReadNumProofs ProdProofs MathFn MathSpec MathProofs MathPdf MathPdf2.
Import ListNotations.
Open Scope Z_scope.

Local Notation fex := (FLT_exp (-1074) 53).
Local Notation rnd := (round radix2 fex ZnearestE).
Local Existing Instance Hprec.
Local Existing Instance Hmax.
Local Existing Instance Vfex.
Local Notation BF := (binary_float 53 1024).
Local Notation u := roundoff.
Open Scope R_scope.

(** The double nearest to a real number. *)
Definition of_real (r : R) : spec_float := SpecFloat.binary_normalize 53 1024 (ZnearestE (scaled_mantissa radix2 fex r)) (cexp radix2 fex r) false.

Lemma of_real_val r : Rabs r <= bpow radix2 1023 -> is_double (of_real r) /\ finite (of_real r) /\ dval (of_real r) = rnd r.
Proof.
  intros B. unfold of_real. rewrite normalize_equiv. pose proof (binary_normalize_correct 53 1024 Hprec Hmax mode_NE (ZnearestE (scaled_mantissa radix2 fex r)) (cexp radix2 fex r) false) as C.
  change (SpecFloat.fexp 53 1024) with fex in C. change (round_mode mode_NE) with ZnearestE in C. cbv zeta in C. change (F2R _) with (rnd r) in C.
  rewrite (round_generic radix2 fex ZnearestE (rnd r)) in C by (apply generic_format_round; [apply Vfex|apply valid_rnd_N]).
  rewrite Rlt_bool_true in C by now apply in_range. destruct C as (C1 & C2 & _). split; [apply lifted|]. rewrite finite_is, dval_B2R. auto.
Qed.
Lemma of_real_pos r : 0 < r -> is_double (of_real r) /\ nonneg (of_real r).
Proof.
  intros P. unfold of_real. rewrite normalize_equiv. split; [apply lifted|].
  pose proof (binary_normalize_correct 53 1024 Hprec Hmax mode_NE (ZnearestE (scaled_mantissa radix2 fex r)) (cexp radix2 fex r) false) as C.
  change (SpecFloat.fexp 53 1024) with fex in C. change (round_mode mode_NE) with ZnearestE in C. cbv zeta in C. change (F2R _) with (rnd r) in C.
  assert (N : 0 <= rnd r) by (apply rnd_nonneg; lra).
  destruct (Rlt_bool _ _).
  - destruct C as (_ & C2 & C3). apply nonneg_is. destruct (binary_normalize _ _ _ _ _ _ _ _) eqn:E; try discriminate C2; split; try reflexivity; cbn [Bsign] in *.
    + rewrite C3. destruct (Rcompare (rnd r) 0) eqn:Q; try reflexivity. apply Rcompare_Lt_inv in Q. lra.
    + rewrite C3. destruct (Rcompare (rnd r) 0) eqn:Q; try reflexivity. apply Rcompare_Lt_inv in Q. lra.
  - apply overflow_nonneg. rewrite C. f_equal. apply Rlt_bool_false. exact N.
Qed.

(** exp rounded to the nearest double. *)
Definition exact_exp (y : spec_float) : spec_float :=
  match y with
  | S754_nan => S754_nan
  | S754_infinity true => S754_zero false
  | S754_infinity false => S754_infinity false
  | _ => of_real (exp (dval y))
  end.

Lemma exact_exp_finite y : finite y -> exact_exp y = of_real (exp (dval y)).
Proof. destruct y as [s|s| |s m e]; try reflexivity; intros []. Qed.

Lemma exp_le1 y : y <= 0 -> exp y <= 1.
Proof. intros H. rewrite <- exp_0. destruct (Rle_lt_or_eq_dec _ _ H) as [L| ->]; [left; now apply exp_increasing|lra]. Qed.

Lemma exact_exp_val y : finite y -> dval y <= 0 -> is_double (exact_exp y) /\ finite (exact_exp y) /\ dval (exact_exp y) = rnd (exp (dval y)).
Proof.
  intros F H. rewrite exact_exp_finite by exact F. apply of_real_val. rewrite Rabs_pos_eq by (left; apply exp_pos). apply Rle_trans with 1; [now apply exp_le1|].
  change 1 with (bpow radix2 0). apply bpow_le. lia.
Qed.

Theorem exact_exp_ok : exp_accurate roundoff exact_exp /\ exp_nonneg exact_exp /\ exp_special exact_exp /\ exp_monotone exact_exp.
Proof.
  split; [|split; [|split]].
  - intros y D F [L H]. destruct (exact_exp_val y F H) as (De & Fe & Ve). split; [exact De|]. split; [exact Fe|]. rewrite Ve.
    pose proof (exp_low _ L) as XL. pose proof (exp_pos (dval y)).
    destruct (mult_err (exp (dval y))) as (e & He & ->). { rewrite Rabs_pos_eq by lra. apply Rle_trans with (2 := XL). rewrite normal_bpow. apply bpow_le. lia. }
    replace (exp (dval y) * (1 + e) - exp (dval y)) with (e * exp (dval y)) by ring. rewrite Rabs_mult, (Rabs_pos_eq (exp _)) by lra. apply Rmult_le_compat_r; lra.
  - intros y D. destruct y as [s|s| |s m e].
    + destruct (of_real_pos (exp (dval (S754_zero s))) (exp_pos _)). auto.
    + destruct s; (split; [reflexivity|]); right; reflexivity.
    + split; [reflexivity|]. now left.
    + destruct (of_real_pos (exp (dval (S754_finite s m e))) (exp_pos _)). auto.
  - repeat split. intros s. cbn [exact_exp dval]. rewrite exp_0.
    assert (V : rnd 1 = 1). { apply round_generic; [apply valid_rnd_N|]. change 1 with (bpow radix2 0). apply generic_format_bpow. unfold FLT_exp. lia. }
    unfold of_real. assert (M : mag_val _ _ (mag radix2 1) = 1%Z) by (change 1 with (bpow radix2 0); rewrite mag_bpow; reflexivity).
    unfold scaled_mantissa, cexp. rewrite M. change (FLT_exp (-1074) 53 1) with (-52)%Z. change (- -52)%Z with 52%Z. rewrite Rmult_1_l. rewrite <- IZR_Zpower by lia. rewrite (Zrnd_IZR ZnearestE).
    vm_compute. reflexivity.
  - split.
    + intros y D F H. destruct (exact_exp_val y F H) as (De & Fe & Ve). split; [exact De|]. split; [exact Fe|]. rewrite Ve. split; [apply rnd_nonneg; left; apply exp_pos|].
      apply round_le_generic; [apply Vfex|apply valid_rnd_N| |now apply exp_le1]. change 1 with (bpow radix2 0). apply generic_format_bpow. unfold FLT_exp. lia.
    + intros y z Dy Dz Fy Fz [L H]. destruct (exact_exp_val y Fy ltac:(lra)) as (_ & _ & ->). destruct (exact_exp_val z Fz H) as (_ & _ & ->). apply rnd_le.
      destruct (Rle_lt_or_eq_dec _ _ L) as [L'| ->]; [left; now apply exp_increasing|lra].
Qed.
