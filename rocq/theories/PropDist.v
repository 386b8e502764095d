(** * PropDist: property C79 (samples from the Bernoulli and the discrete distribution, canonical draws).

    Vocabulary (DistSpec.v): an engine is the list of its next outputs, each in [0, 2^32); [Ok (v, l)]: the value is v and the outputs l are left;
    [chance n P]: share of the sequences of n outputs that satisfy P; [yields eqb v r]: r is v, with all outputs used;
    [pair_number a b] = a + 2^32 b; [weight_share w i]: exact w(i) / sum of w; [good_weight]: finite double, not negative;
    [roundoff] = 2^-53; [dval]: exact value of a double; [unit_double]: a double in [0, 1) (RandomSpec.v). *)

From Coq Require Import ZArith List Bool Lia Floats.SpecFloat Reals Lra.
From Flocq Require Import Core Relative BinarySingleNaN.
From Verif Require Import Base Spec Coerce Random RandomSpec RandomProofs Stats StatsSpec StatsProofs RandomUniSpec RandomUniProofs PropRandom PropRandomUni Dist DistSpec DistCount DistProofs DistDiscrete DistChance.
Import ListNotations.
Open Scope Z_scope.

(** ** canonical draws *)

(** A draw uses two outputs a and b; it is in [0, 1) and within 2^-53 of (a + 2^32 b) / 2^64. *)
Theorem C79_canonical : forall a b l, 0 <= a < 2 ^ 32 -> 0 <= b < 2 ^ 32 ->
  exists c, Dist.canonical (a :: b :: l) = Ok (c, l) /\ unit_double c /\ (Rabs (dval c - IZR (pair_number a b) / IZR (2 ^ 64)) < roundoff)%R.
Proof.
  intros a b l Ha Hb. destruct (canonical_unit a b l Ha Hb) as (c & E & U). destruct (canonical_val a b l Ha Hb) as (c' & E' & _ & _ & V).
  rewrite E in E'. injection E' as <-. exists c. split; [exact E|]. split; [exact U|]. rewrite V.
  assert (HN : 0 <= pair_number a b < 2 ^ 64) by (unfold pair_number; lia). pose proof (cval_err _ HN) as R1. set (N := pair_number a b) in *. clearbody N.
  assert (P : (0 < IZR (2 ^ 64))%R) by (apply IZR_lt; lia).
  replace (cval N - IZR N / IZR (2 ^ 64))%R with ((- (IZR N - cval N * IZR (2 ^ 64))) * / IZR (2 ^ 64))%R by (field; lra).
  rewrite Rabs_mult, Rabs_Ropp, (Rabs_pos_eq (/ _)) by (left; now apply Rinv_0_lt_compat).
  apply (Rmult_lt_reg_r (IZR (2 ^ 64))); [exact P|]. rewrite Rmult_assoc, Rinv_l, Rmult_1_r by lra. rewrite u64, Rmult_assoc, (Rmult_comm (bpow _ _)), pow64.
  apply Rabs_def1; lra.
Qed.
Print Assumptions C79_canonical.

(** A larger pair gives a draw that is not smaller. *)
Theorem C79_canonical_monotone : forall a b a' b' l c c', 0 <= a < 2 ^ 32 -> 0 <= b < 2 ^ 32 -> 0 <= a' < 2 ^ 32 -> 0 <= b' < 2 ^ 32 ->
  pair_number a b <= pair_number a' b' -> Dist.canonical (a :: b :: l) = Ok (c, l) -> Dist.canonical (a' :: b' :: l) = Ok (c', l) -> (dval c <= dval c')%R.
Proof.
  intros a b a' b' l c c' Ha Hb Ha' Hb' H E E'. destruct (canonical_val a b l Ha Hb) as (d & Ed & _ & _ & V). destruct (canonical_val a' b' l Ha' Hb') as (d' & Ed' & _ & _ & V').
  rewrite E in Ed. injection Ed as <-. rewrite E' in Ed'. injection Ed' as <-. rewrite V, V'. apply cval_mono; unfold pair_number in *; lia.
Qed.
Print Assumptions C79_canonical_monotone.

(** The draws of an engine: draw k uses the outputs 2k and 2k + 1. *)
Definition draw_of (o : nat -> Z) (k : nat) : spec_float := match Dist.canonical [o (2 * k)%nat; o (2 * k + 1)%nat] with Ok (c, _) => c | _ => S754_nan end.
(** So the hypothesis of C40 holds for every engine: sampling without replacement, whatever the outputs. *)
Theorem C79_without_replacement : forall o n end_, (forall k, 0 <= o k < 2 ^ 32) -> 0 <= n <= end_ -> end_ < 2 ^ 64 -> n < 2 ^ 60 ->
  exists r k, sample_without_replacement (Z.to_nat end_) (draw_of o) n end_ = Ok (r, k)
    /\ Z.of_nat (length r) = n /\ increasing r /\ (forall x, In x r -> 0 <= x < end_) /\ Z.of_nat k <= end_.
Proof.
  intros o n end_ Ho Hn He Hn'. apply C40_sample_without_replacement; auto. intros k. unfold draw_of.
  destruct (canonical_unit (o (2 * k)%nat) (o (2 * k + 1)%nat) [] (Ho _) (Ho _)) as (c & -> & U). exact U.
Qed.
Print Assumptions C79_without_replacement.

(** ** Bernoulli samples *)

(** The chance of true is within 2^-53 of p; each sample uses two outputs. *)
Theorem C79_bernoulli : forall p, is_double p -> finite p -> (0 <= dval p <= 1)%R ->
  (Rabs (chance 2 (fun s => yields Bool.eqb true (bernoulli_sample p s)) - dval p) < roundoff)%R
  /\ forall a b l, 0 <= a < 2 ^ 32 -> 0 <= b < 2 ^ 32 -> exists v, bernoulli_sample p (a :: b :: l) = Ok (v, l).
Proof.
  intros p Dp Fp Hp. split; [now apply bernoulli_chance|]. intros a b l Ha Hb. eexists. now apply bernoulli_val.
Qed.
Print Assumptions C79_bernoulli.

(** p = 0: never true; p = 1: always true. *)
Theorem C79_bernoulli_certain : forall p a b l, is_double p -> finite p -> 0 <= a < 2 ^ 32 -> 0 <= b < 2 ^ 32 ->
  (dval p = 0%R -> bernoulli_sample p (a :: b :: l) = Ok (false, l)) /\ (dval p = 1%R -> bernoulli_sample p (a :: b :: l) = Ok (true, l)).
Proof.
  intros p a b l Dp Fp Ha Hb. assert (HN : 0 <= pair_number a b < 2 ^ 64) by (unfold pair_number; lia). pose proof (cval_range _ HN) as R1. pose proof roundoff_pos.
  split; intros E; unfold bernoulli_sample; rewrite bernoulli_val by (auto; lra); rewrite E; do 2 f_equal; [apply Rlt_bool_false|apply Rlt_bool_true]; lra.
Qed.
Print Assumptions C79_bernoulli_certain.

(** n samples are independent: the chance of a list of results is the product of the chances of its elements. *)
Theorem C79_bernoulli_independent : forall p bs,
  chance (2 * length bs) (fun s => yields (list_eqb Bool.eqb) bs (bernoulli_samples (Z.of_nat (length bs)) p s))
  = fold_right Rmult 1%R (map (fun b => chance 2 (fun s => yields Bool.eqb b (bernoulli_sample p s))) bs).
Proof. intros p bs. unfold bernoulli_samples, bernoulli_sample. rewrite Nat2Z.id. apply two_draws, bernoulli_two. Qed.
Print Assumptions C79_bernoulli_independent.

(** ** discrete samples *)

(** Whatever the weights (even negative, infinite or NaN), the index is in range; one weight: index 0 and no output is used. *)
Theorem C79_discrete_in_range : forall w a b l, w <> [] -> 0 <= a < 2 ^ 32 -> 0 <= b < 2 ^ 32 ->
  exists i l', discrete_index_sample w (a :: b :: l) = Ok (i, l') /\ 0 <= i < Z.of_nat (length w) /\ l' = (if (length w =? 1)%nat then a :: b :: l else l).
Proof.
  intros w a b l Hw Ha Hb. destruct w as [|x [|y w]]; [congruence| |].
  - exists 0, (a :: b :: l). split; [reflexivity|]. split; [cbn; lia|reflexivity].
  - set (w' := x :: y :: w). assert (L : (2 <= length w')%nat) by (cbn; lia). destruct (discrete_search w' a b l L Ha Hb) as (c & k & _ & _ & _ & E & Hk & _).
    exists (Z.of_nat k), l. split; [exact E|]. split; [lia|reflexivity].
Qed.
Print Assumptions C79_discrete_in_range.

(** Each index is drawn with the share of its weight, up to 8 n 2^-53 for n weights. *)
Theorem C79_discrete : forall w i, (2 <= length w)%nat -> Z.of_nat (length w) <= 2 ^ 50 -> Forall good_weight w -> finite (fold_left fadd w (dbl 0)) ->
  (0 < rsum (map dval w))%R -> (i < length w)%nat ->
  (Rabs (chance 2 (fun s => yields Z.eqb (Z.of_nat i) (discrete_index_sample w s)) - weight_share (map dval w) i) <= 8 * INR (length w) * roundoff)%R.
Proof.
  intros w i Hn Hx G F Pos Hi. rewrite Rmult_assoc. apply discrete_chance; auto. rewrite INR_IZR_INZ. apply IZR_le in Hx.
  replace (/ 8)%R with (IZR (2 ^ 50) * roundoff)%R; [apply Rmult_le_compat_r; [pose proof roundoff_pos; lra|exact Hx]|].
  rewrite uval, <- (bpowZ 50) by lia. rewrite <- bpow_plus. reflexivity.
Qed.
Print Assumptions C79_discrete.

(** A weight that is 0 is never drawn, unless it is the first or the last. *)
Theorem C79_zero_weight : forall w i a b l, Z.of_nat (length w) <= 2 ^ 50 -> Forall good_weight w -> finite (fold_left fadd w (dbl 0)) ->
  (0 < rsum (map dval w))%R -> (0 < i < length w - 1)%nat -> dval (nth i w (dbl 0)) = 0%R -> 0 <= a < 2 ^ 32 -> 0 <= b < 2 ^ 32 ->
  exists k, discrete_index_sample w (a :: b :: l) = Ok (k, l) /\ 0 <= k < Z.of_nat (length w) /\ k <> Z.of_nat i.
Proof.
  intros w i a b l Hx G F Pos Hi Z0 Ha Hb. destruct (discrete_skips_zero w ltac:(lia) G F Pos) with (i := i) (a := a) (b := b) (l := l) as (k & E & Hk & N); auto; try lia.
  - rewrite INR_IZR_INZ. apply IZR_le in Hx. replace (/ 8)%R with (IZR (2 ^ 50) * roundoff)%R; [apply Rmult_le_compat_r; [pose proof roundoff_pos; lra|exact Hx]|].
    rewrite uval, <- (bpowZ 50) by lia. rewrite <- bpow_plus. reflexivity.
  - exists (Z.of_nat k). split; [exact E|]. split; [lia|]. lia.
Qed.
Print Assumptions C79_zero_weight.

(** n samples are independent. *)
Theorem C79_discrete_independent : forall w is, (2 <= length w)%nat ->
  chance (2 * length is) (fun s => yields (list_eqb Z.eqb) is (discrete_index_samples (Z.of_nat (length is)) w s))
  = fold_right Rmult 1%R (map (fun i => chance 2 (fun s => yields Z.eqb i (discrete_index_sample w s))) is).
Proof. intros w is Hw. unfold discrete_index_samples, discrete_index_sample. rewrite Nat2Z.id. apply two_draws. now apply discrete_two. Qed.
Print Assumptions C79_discrete_independent.

(** An index whose weight is 0 can be drawn: the first one (outputs 0, 0), and the last one because the sums round below 1. *)
Theorem C79_zero_weight_refuted : exists w a b k, 0 <= a < 2 ^ 32 /\ 0 <= b < 2 ^ 32 /\ Forall good_weight w /\ (0 < rsum (map dval w))%R /\
  discrete_index_sample w [a; b] = Ok (k, []) /\ dval (nth (Z.to_nat k) w (dbl 1)) = 0%R.
Proof.
  exists (map dbl [0; 1]), 0, 0, 0. split; [lia|]. split; [lia|]. split.
  { apply good_dbl. repeat constructor; lia. }
  split. { cbn [map]. rewrite !dbl_val by lia. cbn. lra. } split; [vm_compute; reflexivity|]. cbn. reflexivity.
Qed.
Print Assumptions C79_zero_weight_refuted.
Theorem C79_zero_last_weight_refuted : exists w a b k, 0 <= a < 2 ^ 32 /\ 0 <= b < 2 ^ 32 /\ Forall good_weight w /\ (0 < dval (hd (dbl 0) w))%R /\
  discrete_index_sample w [a; b] = Ok (k, []) /\ k = Z.of_nat (length w) - 1 /\ dval (nth (Z.to_nat k) w (dbl 1)) = 0%R.
Proof.
  exists (map dbl [1; 4; 1; 1; 0]), (2 ^ 32 - 1), (2 ^ 32 - 1), 4. split; [lia|]. split; [lia|]. split.
  { apply good_dbl. repeat constructor; lia. }
  split. { cbn [map hd]. rewrite dbl_val by lia. lra. } split; [vm_compute; reflexivity|]. split; [reflexivity|]. cbn. reflexivity.
Qed.
Print Assumptions C79_zero_last_weight_refuted.
(** Without weights the index is 0, which no weight has. *)
Theorem C79_no_weights_refuted : exists w, forall l, discrete_index_sample w l = Ok (0, l) /\ ~ 0 < Z.of_nat (length w).
Proof. exists []. intros l. split; [reflexivity|cbn; lia]. Qed.
Print Assumptions C79_no_weights_refuted.

(** The hypotheses are met: weights 1, 2, 0, 5, and draws that give each index with a positive weight. *)
Example C79_ex : let w := map dbl [1; 2; 0; 5] in
  Forall good_weight w /\ finite (fold_left fadd w (dbl 0)) /\ (0 < rsum (map dval w))%R /\
  map (fun b => discrete_index_sample w [7; b]) [0; 2 ^ 29 + 1; 2 ^ 31; 2 ^ 32 - 1] = map (fun i => Ok (i, [])) [0; 1; 3; 3] /\
  discrete_index_samples 2 w [1; 2; 3; 2 ^ 30; 8] = Ok ([0; 1], [8]).
Proof.
  cbv zeta. split. { apply good_dbl. repeat constructor; lia. }
  split; [vm_compute; exact Logic.I|]. split. { cbn [map]. rewrite !dbl_val by lia. cbn. lra. } split; vm_compute; reflexivity.
Qed.
Example C79_bernoulli_ex : let half := S754_finite false 4503599627370496 (-53) in
  is_double half /\ finite half /\ dval half = (/ 2)%R /\ bernoulli_sample half [5; 2 ^ 31 - 1] = Ok (true, []) /\ bernoulli_sample half [5; 2 ^ 31] = Ok (false, []) /\
  bernoulli_samples 3 half [5; 2 ^ 31 - 1; 0; 2 ^ 31; 0; 0; 9] = Ok ([true; false; true], [9]).
Proof.
  cbv zeta. split; [reflexivity|]. split; [exact Logic.I|]. split.
  { cbn [dval]. change 4503599627370496%positive with (2 ^ 52)%positive. rewrite Pos2Z.inj_pow. assert (P : IZR (2 ^ 52) = powerRZ 2 52) by (change (powerRZ 2 52) with (2 ^ Pos.to_nat 52)%R; rewrite pow_IZR; reflexivity).
    rewrite P, <- !powerRZ_add by lra. change (powerRZ 2 (52 + -53)) with (/ 2 ^ 1)%R. rewrite pow_1. reflexivity. }
  repeat split; vm_compute; reflexivity.
Qed.
