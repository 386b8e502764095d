(** * PropRandomUni: C51 — sampling without replacement gives every set of indices with (nearly) the same probability. *)

From Coq Require Import ZArith List Bool Lia Floats.SpecFloat Reals Lra.
From Flocq Require Import Core Relative BinarySingleNaN.
From Verif Require Import Base Coerce Random RandomSpec RandomProofs StatsSpec RandomUniSpec RandomUniProofs.
From Verif Require StatsProofs.
Import ListNotations.
Open Scope R_scope.

(** Every increasing list of n indices below end is returned with a probability that differs from 1 / (end choose n) by at most
    end * (delta + 2^-53), where delta is the error of the draws.  [C] is the binomial coefficient of the standard library. *)
Theorem C51_uniform : forall K d delta n end_ l, even_draws K d delta ->
  (0 <= n <= end_)%Z -> (end_ <= 2 ^ 53)%Z ->
  increasing l -> Z.of_nat (length l) = n -> (forall x, In x l -> (0 <= x < end_)%Z) ->
  Rabs (probability K d n end_ l - 1 / C (Z.to_nat end_) (Z.to_nat n)) <= IZR end_ * (delta + powerRZ 2 (-53)).
Proof. intros. unfold Rdiv. rewrite Rmult_1_l. apply uniform_close; auto; lia. Qed.

(** Every index is among the n returned with a probability that differs from n / end by at most end * (delta + 2^-53). *)
Theorem C51_each_index : forall K d delta n end_ x, even_draws K d delta -> (0 <= n <= end_)%Z -> (end_ <= 2 ^ 53)%Z -> (0 <= x < end_)%Z ->
  Rabs (inclusion K d n end_ x - IZR n / IZR end_) <= IZR end_ * (delta + powerRZ 2 (-53)).
Proof. exact index_uniform. Qed.

(** Draws with 53 bits. *)
Definition bits53 (j : nat) : spec_float := SpecFloat.binary_normalize 53 1024 (Z.of_nat j) (-53) false.
(** std::generate_canonical<double, 53> of a generator of 32-bit numbers such as std::mt19937: two numbers give 64 bits, the quotient by
    2^64 is rounded to double, and the double below 1 is used when that gives 1. *)
Definition bits64 (j : nat) : spec_float :=
  let x := SpecFloat.binary_normalize 53 1024 (Z.of_nat j) (-64) false in if SFltb x one then x else top_draw.

Local Notation rnd := (round radix2 (FLT_exp (-1074) 53) ZnearestE).
Local Instance Hp : Prec_gt_0 53 := eq_refl.
Local Instance Hm : Prec_lt_emax 53 1024 := eq_refl.
Local Instance Vf : Valid_exp (FLT_exp (-1074) 53).
Proof. apply FLT_exp_valid. reflexivity. Qed.

Lemma normalize_real z e : (0 <= z)%Z -> IZR z * bpow radix2 e <= 1 ->
  exists b : binary_float 53 1024, B2SF b = SpecFloat.binary_normalize 53 1024 z e false /\ is_finite b = true /\ B2R b = rnd (IZR z * bpow radix2 e).
Proof.
  intros Hz H1. exists (binary_normalize 53 1024 Hp Hm mode_NE z e false).
  pose proof (binary_normalize_correct 53 1024 Hp Hm mode_NE z e false) as H. cbv zeta in H.
  assert (Hr : Rabs (rnd (F2R (Float radix2 z e))) < bpow radix2 1024).
  { assert (0 <= F2R (Float radix2 z e) <= 1).
    { unfold F2R. cbn [Fnum Fexp]. split; [|exact H1]. apply Rmult_le_pos; [apply IZR_le; lia|apply bpow_ge_0]. }
    assert (0 <= rnd (F2R (Float radix2 z e)) <= 1).
    { split; [rewrite <- (round_0 radix2 (FLT_exp (-1074) 53) ZnearestE); apply rnd_le; lra|].
      rewrite <- (rnd_int 1) by lia. apply rnd_le. lra. }
    rewrite Rabs_pos_eq by lra. apply Rle_lt_trans with 1; [lra|]. change 1 with (bpow radix2 0). apply bpow_lt. lia. }
  change (round radix2 (SpecFloat.fexp 53 1024) (round_mode mode_NE) (F2R (Float radix2 z e))) with (rnd (F2R (Float radix2 z e))) in H.
  rewrite Rlt_bool_true in H by exact Hr. destruct H as (H2 & H3 & _).
  split; [symmetry; apply StatsProofs.normalize_equiv|split; [exact H3|exact H2]].
Qed.

Lemma unit_of_real (b : binary_float 53 1024) : is_finite b = true -> 0 <= B2R b -> (SFltb (B2SF b) one = true <-> B2R b < 1) /\ (B2R b < 1 -> unit_double (B2SF b)).
Proof.
  intros Hf H0.
  assert (E1 : SFltb (B2SF b) one = true <-> B2R b < 1).
  { change one with (B2SF (Bone (prec_gt_0_ := Hp) (prec_lt_emax_ := Hm))). change (SFltb (B2SF b) (B2SF Bone)) with (Bltb b Bone).
    rewrite Bltb_correct by (auto; apply is_finite_Bone). rewrite Bone_correct. destruct (Rlt_bool_spec (B2R b) 1); split; intros; try lra; try discriminate; auto. }
  split; [exact E1|]. intros H1. split; [apply valid_binary_B2SF|]. split; [|now apply E1].
  change (S754_zero false) with (B2SF (B754_zero false : binary_float 53 1024)).
  change (SFleb (B2SF (B754_zero false : binary_float 53 1024)) (B2SF b)) with (Bleb (B754_zero false) b).
  rewrite Bleb_correct by auto. apply Rle_bool_true. exact H0.
Qed.

Lemma pow_nat p : INR (Z.to_nat (2 ^ Zpos p)) = bpow radix2 (Zpos p).
Proof. rewrite INR_IZR_INZ, Z2Nat.id by (apply Z.pow_nonneg; lia). now rewrite (IZR_Zpower radix2) by lia. Qed.

Theorem C51_bits53 : even_draws (Z.to_nat (2 ^ 53)) bits53 0.
Proof.
  split. { rewrite pow_nat. right. rewrite bpow_powerRZ. reflexivity. }
  intros j Hj. rewrite pow_nat. assert (Hz : (0 <= Z.of_nat j < 2 ^ 53)%Z) by lia. clear Hj.
  assert (Hx : 0 <= IZR (Z.of_nat j) * bpow radix2 (-53) < 1).
  { split; [apply Rmult_le_pos; [apply IZR_le; lia|apply bpow_ge_0]|].
    apply Rmult_lt_reg_r with (bpow radix2 53); [apply bpow_gt_0|]. rewrite Rmult_assoc, <- bpow_plus. change (bpow radix2 (-53 + 53)) with 1. rewrite Rmult_1_r, Rmult_1_l.
    rewrite <- (IZR_Zpower radix2) by lia. apply IZR_lt. apply Hz. }
  destruct (normalize_real (Z.of_nat j) (-53)) as (b & Hb & Hf & Hv); [lia|lra|].
  assert (Ev : B2R b = IZR (Z.of_nat j) * bpow radix2 (-53)).
  { rewrite Hv. apply round_generic; [typeclasses eauto|]. apply generic_format_FLT.
    exists (Float radix2 (Z.of_nat j) (-53)); [reflexivity| |simpl; lia]. cbn [Fnum]. rewrite Z.abs_eq by lia. apply Hz. }
  unfold bits53. rewrite <- Hb. destruct (unit_of_real b Hf ltac:(lra)) as (_ & HU). split; [apply HU; lra|].
  rewrite StatsProofs.dval_B2R, Ev, INR_IZR_INZ. unfold Rdiv. rewrite <- bpow_opp. rewrite Rminus_diag_eq by reflexivity. rewrite Rabs_R0. lra.
Qed.

Theorem C51_bits64 : even_draws (Z.to_nat (2 ^ 64)) bits64 (powerRZ 2 (-53)).
Proof.
  assert (Hp53 : powerRZ 2 (-53) = bpow radix2 (-53)) by (now rewrite bpow_powerRZ). rewrite Hp53. clear Hp53.
  split. { rewrite pow_nat. apply Rle_trans with (bpow radix2 53); [right; rewrite bpow_powerRZ; reflexivity|apply bpow_le; lia]. }
  intros j Hj. rewrite pow_nat. assert (Hz : (0 <= Z.of_nat j < 2 ^ 64)%Z) by lia. clear Hj.
  set (x := IZR (Z.of_nat j) * bpow radix2 (-64)).
  assert (Hx : 0 <= x < 1).
  { unfold x. split; [apply Rmult_le_pos; [apply IZR_le; lia|apply bpow_ge_0]|].
    apply Rmult_lt_reg_r with (bpow radix2 64); [apply bpow_gt_0|]. rewrite Rmult_assoc, <- bpow_plus. change (bpow radix2 (-64 + 64)) with 1. rewrite Rmult_1_r, Rmult_1_l.
    rewrite <- (IZR_Zpower radix2) by lia. apply IZR_lt. apply Hz. }
  assert (Ej : INR j / bpow radix2 64 = x) by (unfold x, Rdiv; rewrite <- bpow_opp, INR_IZR_INZ; reflexivity). rewrite Ej.
  destruct (normalize_real (Z.of_nat j) (-64)) as (b & Hb & Hf & Hv); [lia|fold x; lra|]. fold x in Hv.
  assert (Hr : 0 <= rnd x <= 1).
  { split; [rewrite <- (round_0 radix2 (FLT_exp (-1074) 53) ZnearestE); apply rnd_le; lra|]. rewrite <- (rnd_int 1) by lia. apply rnd_le. lra. }
  assert (Herr : Rabs (rnd x - x) <= bpow radix2 (-53)).
  { destruct (Z.eq_dec (Z.of_nat j) 0) as [E|E].
    { unfold x. rewrite E, Rmult_0_l, round_0 by typeclasses eauto. rewrite Rminus_diag_eq, Rabs_R0 by reflexivity. apply bpow_ge_0. }
    eapply Rle_trans; [apply (relative_error_N_FLT radix2 (-1074) 53 eq_refl (fun n => negb (Z.even n)) x)|].
    - rewrite Rabs_pos_eq by lra. apply Rle_trans with (bpow radix2 (-64)); [apply bpow_le; lia|].
      unfold x. rewrite <- (Rmult_1_l (bpow radix2 (-64))) at 1. apply Rmult_le_compat_r; [apply bpow_ge_0|apply IZR_le; lia].
    - rewrite Rabs_pos_eq by lra. change (/ 2) with (bpow radix2 (-1)). rewrite <- bpow_plus.
      rewrite <- (Rmult_1_r (bpow radix2 (-53))). apply Rmult_le_compat; [apply bpow_ge_0|lra|right; reflexivity|lra]. }
  unfold bits64. rewrite <- Hb. destruct (unit_of_real b Hf ltac:(lra)) as (HL & HU). cbv zeta.
  destruct (SFltb (B2SF b) one) eqn:EL.
  - split; [apply HU; now apply HL|]. rewrite StatsProofs.dval_B2R, Hv. exact Herr.
  - split; [apply top_unit|]. assert (E1 : rnd x = 1).
    { destruct (Rlt_le_dec (B2R b) 1) as [E|E]; [apply HL in E; discriminate|]. rewrite Hv in E. lra. }
    rewrite E1 in Herr. apply Rabs_le_inv in Herr.
    assert (Et : dval top_draw = 1 - bpow radix2 (-53)).
    { unfold dval, top_draw. rewrite bpow_powerRZ. change (IZR radix2) with 2.
      assert (powerRZ 2 53 * powerRZ 2 (-53) = 1) by (rewrite <- powerRZ_add by lra; reflexivity).
      assert (powerRZ 2 53 = 9007199254740992) by (change (powerRZ 2 53) with (2 ^ Pos.to_nat 53); rewrite pow_IZR; reflexivity). rewrite H0 in H. lra. }
    rewrite Et. pose proof (bpow_gt_0 radix2 (-53)). apply Rabs_le. lra.
Qed.

(** With std::mt19937: within end * 2^-52 of the uniform distribution. *)
Theorem C51_mt19937 : forall n end_ l,
  (0 <= n <= end_)%Z -> (end_ <= 2 ^ 53)%Z ->
  increasing l -> Z.of_nat (length l) = n -> (forall x, In x l -> (0 <= x < end_)%Z) ->
  Rabs (probability (Z.to_nat (2 ^ 64)) bits64 n end_ l - 1 / C (Z.to_nat end_) (Z.to_nat n)) <= IZR end_ * powerRZ 2 (-52).
Proof.
  intros. eapply Rle_trans; [apply C51_uniform; eauto; apply C51_bits64|]. right. f_equal.
  change (powerRZ 2 (-52)) with (powerRZ 2 (1 + -53)). rewrite (powerRZ_add 2 1 (-53)) by lra. rewrite powerRZ_1. ring.
Qed.

(** 2 of 4 indices: each of the 6 pairs has probability 1/6 up to 2^-50. *)
Example C51_ex : Rabs (probability (Z.to_nat (2 ^ 64)) bits64 2 4 [1; 3]%Z - 1 / 6) <= 4 * powerRZ 2 (-52).
Proof.
  replace 6 with (C (Z.to_nat 4) (Z.to_nat 2)).
  - apply C51_mt19937; try lia; try reflexivity; simpl; intuition lia.
  - unfold C. change (Z.to_nat 4) with 4%nat. change (Z.to_nat 2) with 2%nat. simpl. field.
Qed.

Print Assumptions C51_uniform.
Print Assumptions C51_bits53.
Print Assumptions C51_bits64.
Print Assumptions C51_mt19937.
Print Assumptions C51_each_index.
