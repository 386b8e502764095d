(** * MathProofs: accuracy of normal_pdf. *)

From Coq Require Import ZArith List Bool Lia Floats.SpecFloat Reals Lra Machin Ratan.
From Flocq Require Import Core Relative Plus_error Mult_error BinarySingleNaN.
From Verif Require Import Base Spec Coerce Reduce Random Stats ReduceSpec StatsSpec RandomProofs StatsProofs ReadNumSpec ReadNumProofs ProdProofs MathFn MathSpec.
Import ListNotations.
Open Scope Z_scope.

Local Notation fex := (FLT_exp (-1074) 53).
Local Notation rnd := (round radix2 fex ZnearestE).
Local Existing Instance Hprec.
Local Existing Instance Hmax.
Local Existing Instance Vfex.
Local Notation BF := (binary_float 53 1024).
Local Notation u := roundoff.
Open Scope R_scope.

(** ** The constant *)
(** Partial sums of the series for PI/4, as fractions. *)
Definition pterm (n : nat) : Z * Z := let m := (2 * Z.of_nat n + 1)%Z in (2 * 7 ^ m + 3 ^ m, m * 21 ^ m)%Z.
Fixpoint psum (n : nat) : Z * Z :=
  let '(a, b) := pterm n in let a := if Nat.even n then a else (- a)%Z in
  match n with O => (a, b) | S n' => let '(p, q) := psum n' in (p * b + a * q, q * b)%Z end.
Lemma pterm_pos n : (0 < snd (pterm n))%Z.
Proof. unfold pterm; cbn [snd]. apply Z.mul_pos_pos; [lia|]. apply Z.pow_pos_nonneg; lia. Qed.
Lemma psum_pos n : (0 < snd (psum n))%Z.
Proof.
  induction n as [|n IH]; cbn [psum].
  - pose proof (pterm_pos 0) as H. destruct (pterm 0). exact H.
  - pose proof (pterm_pos (S n)) as H. destruct (pterm (S n)) as [a b]. destruct (psum n) as [p q]. cbn [snd] in *. nia.
Qed.
Lemma pterm_val n : PI_2_3_7_tg n = IZR (fst (pterm n)) / IZR (snd (pterm n)).
Proof.
  unfold PI_2_3_7_tg, Ratan_seq, pterm; cbn [fst snd].
  replace (2 * Z.of_nat n + 1)%Z with (Z.of_nat (2 * n + 1)) by lia.
  rewrite plus_IZR, !mult_IZR, <- !pow_IZR, <- INR_IZR_INZ.
  replace 21 with (3 * 7) by lra. rewrite Rpow_mult_distr, !pow_inv.
  assert (INR (2 * n + 1) <> 0) by (apply not_0_INR; lia).
  assert (3 ^ (2 * n + 1) <> 0) by (apply pow_nonzero; lra). assert (7 ^ (2 * n + 1) <> 0) by (apply pow_nonzero; lra).
  field. auto.
Qed.
Lemma alt_sign n : (-1) ^ n = if Nat.even n then 1 else -1.
Proof. induction n as [|n IH]; [reflexivity|]. rewrite Nat.even_succ, <- Nat.negb_even. cbn [pow]. rewrite IH. destruct (Nat.even n); cbn [negb]; lra. Qed.
Lemma tg_val n : tg_alt PI_2_3_7_tg n = IZR (if Nat.even n then fst (pterm n) else - fst (pterm n)) / IZR (snd (pterm n)).
Proof. unfold tg_alt. rewrite alt_sign, pterm_val. pose proof (pterm_pos n) as H. apply IZR_lt in H. destruct (Nat.even n); [|rewrite opp_IZR]; field; lra. Qed.
Lemma psum_val n : sum_f_R0 (tg_alt PI_2_3_7_tg) n = IZR (fst (psum n)) / IZR (snd (psum n)).
Proof.
  induction n as [|n IH].
  - cbn [sum_f_R0]. rewrite tg_val. reflexivity.
  - cbn [sum_f_R0]. rewrite IH, tg_val. cbn [psum]. pose proof (psum_pos n) as H1. pose proof (pterm_pos (S n)) as H2.
    destruct (pterm (S n)) as [a b]. destruct (psum n) as [p q]. cbn [fst snd] in *. apply IZR_lt in H1, H2.
    rewrite plus_IZR, !mult_IZR. field. split; lra.
Qed.
Lemma below p q (x : R) : (0 < q)%Z -> IZR p / IZR q <= x -> IZR p <= x * IZR q.
Proof. intros H K. apply IZR_lt in H. apply (Rmult_le_compat_r (IZR q)) in K; [|lra]. unfold Rdiv in K. rewrite Rmult_assoc, Rinv_l in K by lra. lra. Qed.
Lemma above p q (x : R) : (0 < q)%Z -> x <= IZR p / IZR q -> x * IZR q <= IZR p.
Proof. intros H K. apply IZR_lt in H. apply (Rmult_le_compat_r (IZR q)) in K; [|lra]. unfold Rdiv in K. rewrite Rmult_assoc, Rinv_l in K by lra. lra. Qed.
(** PI * 2^60 between two integers (their difference: 2^-3 of an ulp). *)
Lemma PI_bounds : IZR (7074237752028440 * 2 ^ 51) <= PI * IZR (2 ^ 102) <= IZR (7074237752028440 * 2 ^ 51 + 2 ^ 50).
Proof.
  pose proof (PI_2_3_7_ineq 9) as [L U]. rewrite psum_val in L, U.
  apply below in L; [|apply psum_pos]. apply above in U; [|apply psum_pos].
  assert (A : (7074237752028440 * 2 ^ 51 * snd (psum (S (2 * 9))) <= fst (psum (S (2 * 9))) * (4 * 2 ^ 102))%Z) by (apply Z.leb_le; vm_compute; reflexivity).
  assert (B : (fst (psum (2 * 9)) * (4 * 2 ^ 102) <= (7074237752028440 * 2 ^ 51 + 2 ^ 50) * snd (psum (2 * 9)))%Z) by (apply Z.leb_le; vm_compute; reflexivity).
  pose proof (psum_pos (S (2 * 9))) as P1. pose proof (psum_pos (2 * 9)) as P2. apply IZR_lt in P1, P2. apply IZR_le in A, B.
  rewrite (mult_IZR (fst _)), (mult_IZR 4), (mult_IZR (_ * _)) in A. rewrite (mult_IZR (fst _)), (mult_IZR 4), (mult_IZR (_ + _)) in B.
  set (q1 := IZR (snd (psum (S (2 * 9))))) in *. set (q2 := IZR (snd (psum (2 * 9)))) in *. set (t := IZR (2 ^ 102)) in *.
  assert (T : 0 < t) by (apply IZR_lt; reflexivity).
  set (c1 := IZR (_ * _)) in *. set (c2 := IZR (_ + _)) in *.
  split.
  - apply (Rmult_le_reg_r q1); [lra|]. nra.
  - apply (Rmult_le_reg_r q2); [lra|]. nra.
Qed.

(** ** Operations that stay in range *)
Lemma in_range x : Rabs x <= bpow radix2 1023 -> Rabs (rnd x) < bpow radix2 1024.
Proof.
  intros H. apply Rle_lt_trans with (bpow radix2 1023); [|apply bpow_lt; lia].
  apply abs_round_le_generic; [apply Vfex|apply valid_rnd_N| |exact H]. apply generic_format_bpow. unfold FLT_exp. lia.
Qed.
Lemma fmul_ok x y : is_double x -> is_double y -> finite x -> finite y -> Rabs (dval x * dval y) <= bpow radix2 1023 -> finite (fmul x y).
Proof.
  intros Hx Hy Fx Fy B. lifts. rewrite fmul_equiv. rewrite !finite_is in *. rewrite !dval_B2R in B.
  pose proof (Bmult_correct 53 1024 Hprec Hmax mode_NE b0 b) as C. change (SpecFloat.fexp 53 1024) with fex in C. change (round_mode mode_NE) with ZnearestE in C.
  rewrite Rlt_bool_true in C by now apply in_range. destruct C as (_ & C & _). now rewrite C, Fx, Fy.
Qed.
Lemma fsub_ok x y : is_double x -> is_double y -> finite x -> finite y -> Rabs (dval x - dval y) <= bpow radix2 1023 -> finite (fsub x y).
Proof.
  intros Hx Hy Fx Fy B. lifts. rewrite fsub_equiv. rewrite !finite_is in *. rewrite !dval_B2R in B.
  pose proof (Bminus_correct 53 1024 Hprec Hmax mode_NE b0 b Fx Fy) as C. change (SpecFloat.fexp 53 1024) with fex in C. change (round_mode mode_NE) with ZnearestE in C.
  rewrite Rlt_bool_true in C by now apply in_range. destruct C as (_ & C & _). now rewrite C.
Qed.
Lemma fdiv_ok x y : is_double x -> is_double y -> finite x -> dval y <> 0 -> Rabs (dval x / dval y) <= bpow radix2 1023 -> finite (fdiv x y).
Proof.
  intros Hx Hy Fx N B. lifts. rewrite fdiv_equiv. rewrite !finite_is in *. rewrite !dval_B2R in *.
  pose proof (Bdiv_correct 53 1024 Hprec Hmax mode_NE b0 b N) as C. change (SpecFloat.fexp 53 1024) with fex in C. change (round_mode mode_NE) with ZnearestE in C.
  rewrite Rlt_bool_true in C by now apply in_range. destruct C as (_ & C & _). now rewrite C.
Qed.
Lemma opp_double x : is_double x -> is_double (SFopp x).
Proof. destruct x; auto. Qed.
Lemma opp_finite x : finite x -> finite (SFopp x).
Proof. destruct x; auto. Qed.
Lemma opp_val x : dval (SFopp x) = - dval x.
Proof. destruct x as [s|s| |s m e]; cbn; try lra. destruct s; cbn; lra. Qed.
Lemma pos_nonneg x : finite x -> 0 < dval x -> nonneg x.
Proof.
  destruct x as [s|s| |s m e]; cbn; try lra; try tauto. intros _ H. destruct s; [|reflexivity]. exfalso.
  assert (0 < powerRZ 2 e) by (apply powerRZ_lt; lra). assert (0 < IZR (Z.pos m)) by (apply IZR_lt; lia). nra.
Qed.

(** ** Relative closeness *)
Definition within (k a b : R) : Prop := b * exp (- k) <= a <= b * exp k.
Definition w : R := u + 2 * u * u.

Lemma u_small : 0 < u <= / 1000000.
Proof.
  split; [apply roundoff_pos|]. unfold roundoff. change (powerRZ 2 (-53)) with (/ 2 ^ 53)%R. apply Rinv_le; [lra|].
  change 53%nat with (20 + 33)%nat. rewrite pow_add. assert (1 <= 2 ^ 33) by (apply pow_R1_Rle; lra). assert (1000000 <= 2 ^ 20) by (cbn; lra). nra.
Qed.
Lemma exp_ge x : 1 + x <= exp x.
Proof. destruct (Req_dec x 0) as [->|N]; [rewrite exp_0; lra|left; now apply exp_ineq1]. Qed.
Lemma exp_le x : x < 1 -> exp x <= / (1 - x).
Proof.
  intros H. pose proof (exp_ge (- x)) as G. rewrite exp_Ropp in G. apply Rinv_le in G; [|lra]. rewrite Rinv_inv in G. replace (1 - x) with (1 + - x) by lra. exact G.
Qed.
Lemma exp_0_1 x : 0 <= x -> 1 <= exp x.
Proof. intros H. pose proof (exp_ge x). lra. Qed.
Lemma err_within e : Rabs e <= u -> within w (1 + e) 1.
Proof.
  intros H. pose proof u_small as U. apply Rabs_le_inv in H. unfold within. split.
  - rewrite Rmult_1_l. pose proof (exp_le (- w)) as L. assert (B : exp (- w) <= / (1 - - w)) by (apply L; unfold w; nra).
    apply Rle_trans with (1 := B). apply Rmult_le_reg_l with (1 - - w); [unfold w; nra|]. rewrite Rinv_r by (unfold w; nra). unfold w. nra.
  - rewrite Rmult_1_l. pose proof (exp_ge w). unfold w in *. nra.
Qed.
Lemma within_mul k k' a b a' b' : 0 <= b -> 0 <= b' -> within k a b -> within k' a' b' -> within (k + k') (a * a') (b * b').
Proof.
  intros B B' [L U] [L' U']. unfold within. rewrite Ropp_plus_distr, !exp_plus.
  pose proof (exp_pos k). pose proof (exp_pos (-k)). pose proof (exp_pos k'). pose proof (exp_pos (-k')).
  assert (0 <= b * exp (- k)) by nra. assert (0 <= b' * exp (- k')) by nra. split.
  - replace (b * b' * (exp (- k) * exp (- k'))) with ((b * exp (- k)) * (b' * exp (- k'))) by ring. apply Rmult_le_compat; lra.
  - replace (b * b' * (exp k * exp k')) with ((b * exp k) * (b' * exp k')) by ring. apply Rmult_le_compat; lra.
Qed.
Lemma within_pos k a b : 0 < b -> within k a b -> 0 < a.
Proof. intros B [L _]. pose proof (exp_pos (- k)). nra. Qed.
Lemma within_inv k a b : 0 < b -> within k a b -> within k (/ a) (/ b).
Proof.
  intros B W. pose proof (within_pos _ _ _ B W) as A. destruct W as [L U]. pose proof (exp_pos k). unfold within. rewrite exp_Ropp in *.
  assert (0 < / exp k) by (now apply Rinv_0_lt_compat). split.
  - rewrite <- Rinv_mult. apply Rinv_le; [exact A|exact U].
  - apply Rinv_le in L; [|nra]. rewrite Rinv_mult, Rinv_inv in L. exact L.
Qed.
Lemma within_div k k' a b a' b' : 0 <= b -> 0 < b' -> within k a b -> within k' a' b' -> within (k + k') (a / a') (b / b').
Proof. intros B B' H H'. apply within_mul; [exact B|left; now apply Rinv_0_lt_compat|exact H|now apply within_inv]. Qed.
Lemma within_sqrt k a b : 0 <= b -> within k a b -> within (k / 2) (sqrt a) (sqrt b).
Proof.
  intros B [L U]. unfold within.
  assert (Sq : forall x, sqrt (exp x) = exp (x / 2)).
  { intros x. replace (exp x) with (exp (x / 2) * exp (x / 2)) by (rewrite <- exp_plus; f_equal; lra). apply sqrt_square. left; apply exp_pos. }
  replace (- (k / 2)) with (- k / 2) by lra. rewrite <- !Sq, <- !sqrt_mult by (try exact B; left; apply exp_pos). split; now apply sqrt_le_1_alt.
Qed.
Lemma within_weak k k' a b : 0 <= b -> k <= k' -> within k a b -> within k' a b.
Proof.
  intros B K [L U]. unfold within. assert (exp k <= exp k') by (destruct (Req_dec k k') as [->|N]; [lra|left; apply exp_increasing; lra]).
  assert (exp (- k') <= exp (- k)) by (destruct (Req_dec k k') as [->|N]; [lra|left; apply exp_increasing; lra]). nra.
Qed.
Lemma within_trans k k' a b c : 0 <= c -> within k a b -> within k' b c -> within (k + k') a c.
Proof.
  intros C [L U] [L' U']. unfold within. rewrite Ropp_plus_distr, !exp_plus. pose proof (exp_pos k). pose proof (exp_pos (-k)). split; nra.
Qed.
Lemma rnd_within x : smallest_normal <= x -> within w (rnd x) x.
Proof.
  intros H. assert (0 < x). { apply Rlt_le_trans with (2 := H). rewrite normal_bpow. apply bpow_gt_0. }
  destruct (mult_err x) as (e & He & ->); [now rewrite Rabs_pos_eq by lra|]. pose proof (err_within e He) as [L U]. unfold within. nra.
Qed.

Lemma fpi_double : is_double fpi. Proof. reflexivity. Qed.
Lemma fpi_within : within w (dval fpi) PI.
Proof.
  pose proof PI_bounds as [L U]. cbn [fpi dval].
  assert (P2 : IZR (2 ^ 102) = IZR (2 ^ 51) * IZR (2 ^ 51)) by (rewrite <- mult_IZR; reflexivity).
  assert (E51 : powerRZ 2 (-51) = / IZR (2 ^ 51)) by (change (powerRZ 2 (-51)) with (/ 2 ^ 51); f_equal; rewrite (pow_IZR 2 51); reflexivity).
  rewrite E51. rewrite P2 in L, U. rewrite mult_IZR in L. rewrite plus_IZR, mult_IZR in U.
  assert (Q : IZR (2 ^ 51) = 2 * IZR (2 ^ 50)) by (rewrite <- mult_IZR; reflexivity).
  assert (T : 0 < IZR (2 ^ 50)) by (apply IZR_lt; reflexivity). set (T0 := IZR (2 ^ 50)) in *. rewrite Q in *. set (c := IZR 7074237752028440) in *.
  set (v := c * / (2 * T0)). assert (Ev : c = v * (2 * T0)) by (unfold v; field; lra).
  assert (H1 : v <= PI). { apply Rmult_le_reg_r with (2 * T0 * (2 * T0)); [nra|]. rewrite Ev in L. nra. }
  assert (Er : exists d, d = / (4 * T0)) by eauto. destruct Er as [d Ed].
  assert (H2 : PI <= v + d). { apply Rmult_le_reg_r with (2 * T0 * (2 * T0)); [nra|]. rewrite Ev in U.
    replace ((v + d) * (2 * T0 * (2 * T0))) with (v * (2 * T0) * (2 * T0) + T0) by (rewrite Ed; field; lra). exact U. }
  assert (H3 : d <= u * PI).
  { assert (u * 2 <= u * PI) by (pose proof roundoff_pos; pose proof PI2_3_2; unfold PI2 in *; apply Rmult_le_compat_l; lra).
    assert (d = u * 2); [|lra]. rewrite Ed. unfold roundoff. change (powerRZ 2 (-53)) with (/ 2 ^ 53). unfold T0. rewrite (pow_IZR 2 53).
    change (Z.pow 2 (Z.of_nat 53)) with (2 ^ 50 * 8)%Z. rewrite mult_IZR. fold T0. field. lra. }
  pose proof PI_RGT_0 as P. pose proof (err_within (v / PI - 1)) as W.
  assert (A : Rabs (v / PI - 1) <= u).
  { apply Rabs_le. assert (v / PI * PI = v) by (field; lra). set (r := v / PI) in *. split; [|pose proof roundoff_pos]; apply Rmult_le_reg_r with PI; nra. }
  specialize (W A). replace (1 + (v / PI - 1)) with (v / PI) in W by ring.
  replace v with (v / PI * PI) by (field; lra). destruct W as [W1 W2]. unfold within. nra.
Qed.

Lemma double_exact x : is_double x -> finite x -> Rabs (dval x) <= bpow radix2 1000 -> finite (fmul (dbl 2) x) /\ dval (fmul (dbl 2) x) = 2 * dval x.
Proof.
  intros D F B. assert (D2 : is_double (dbl 2)) by apply dbl_double. assert (V2 : dval (dbl 2) = 2) by (apply dbl_val; cbn; lia).
  assert (Fm : finite (fmul (dbl 2) x)).
  { apply fmul_ok; try assumption; [apply dbl_finite; cbn; lia|]. rewrite V2, Rabs_mult, (Rabs_pos_eq 2) by lra.
    apply Rle_trans with (2 * bpow radix2 1000); [lra|]. change 2 with (bpow radix2 1). rewrite <- bpow_plus. apply bpow_le. lia. }
  split; [exact Fm|]. rewrite fmul_val by assumption. rewrite V2. apply round_generic; [apply valid_rnd_N|].
  rewrite Rmult_comm. change 2 with (bpow radix2 1). apply (mult_bpow_pos_exact_FLT radix2 (-1074) 53); [now apply format|lia].
Qed.

(** The denominators. *)
Lemma variance_part sigma : is_double sigma -> finite sigma -> bpow radix2 (-450) <= Rabs (dval sigma) <= bpow radix2 450 ->
  let s2 := fmul (dbl 2) (fsquare sigma) in let c := fsqrt (fmul s2 fpi) in
  is_double s2 /\ finite s2 /\ within w (dval s2) (2 * dval sigma ^ 2) /\ is_double c /\ finite c /\
  within (5 / 2 * w) (dval c) (sqrt (2 * PI * dval sigma ^ 2)).
Proof.
  intros D F [B1 B2]. set (s := dval sigma) in *.
  assert (S2 : dval sigma * dval sigma = Rabs s * Rabs s) by (rewrite <- Rabs_mult, Rabs_pos_eq; [reflexivity|apply Rle_0_sqr]).
  assert (L2 : bpow radix2 (-900) <= s * s). { fold s in S2. rewrite S2. change (-900)%Z with (-450 + -450)%Z. rewrite bpow_plus. pose proof (bpow_gt_0 radix2 (-450)). nra. }
  assert (U2 : s * s <= bpow radix2 900). { fold s in S2. rewrite S2. change (900)%Z with (450 + 450)%Z. rewrite bpow_plus. pose proof (Rabs_pos s). nra. }
  pose proof (bpow_gt_0 radix2 (-900)) as P0.
  assert (N1 : smallest_normal <= s * s). { apply Rle_trans with (2 := L2). rewrite normal_bpow. apply bpow_le. lia. }
  assert (D1 : is_double (fsquare sigma)) by now apply fmul_double.
  assert (F1 : finite (fsquare sigma)). { apply fmul_ok; try assumption. fold s. rewrite Rabs_pos_eq by lra. apply Rle_trans with (1 := U2). apply bpow_le. lia. }
  assert (V1 : dval (fsquare sigma) = rnd (s * s)) by (apply fmul_val; assumption).
  pose proof (rnd_within _ N1) as W1. rewrite <- V1 in W1.
  assert (R1 : bpow radix2 (-900) <= dval (fsquare sigma) <= bpow radix2 900).
  { rewrite V1. split; [apply round_ge_generic|apply round_le_generic]; try (apply Vfex || apply valid_rnd_N); try assumption; apply generic_format_bpow; unfold FLT_exp; lia. }
  destruct (double_exact (fsquare sigma) D1 F1) as [F2 V2]. { rewrite Rabs_pos_eq by lra. apply Rle_trans with (1 := proj2 R1). apply bpow_le. lia. }
  set (s2 := fmul (dbl 2) (fsquare sigma)) in *. assert (D2 : is_double s2) by (apply fmul_double; [apply dbl_double|exact D1]).
  assert (W2 : within w (dval s2) (2 * s ^ 2)). { rewrite V2. destruct W1 as [A B]. unfold within. replace (s ^ 2) with (s * s) by ring. split; lra. }
  pose proof fpi_within as Wp. pose proof PI_RGT_0 as P. pose proof (within_pos _ _ _ P Wp) as Pp.
  assert (Bp : 2 <= dval fpi <= 4). { cbn [fpi dval]. change (powerRZ 2 (-51)) with (/ 2 ^ 51). rewrite (pow_IZR 2 51). change (2 ^ Z.of_nat 51)%Z with 2251799813685248%Z. split; apply Rmult_le_reg_r with (IZR 2251799813685248); try (apply IZR_lt; lia); rewrite Rmult_assoc, Rinv_l by (apply not_0_IZR; lia); rewrite Rmult_1_r, <- mult_IZR; apply IZR_le; lia. }
  assert (Bm : bpow radix2 (-899) <= dval s2 * dval fpi <= bpow radix2 903).
  { rewrite V2. change (-899)%Z with (-900 + 1)%Z. change 903%Z with (900 + 3)%Z. rewrite !bpow_plus. change (bpow radix2 1) with 2. change (bpow radix2 3) with 8.
    set (q := dval (fsquare sigma)) in *. split; nra. }
  assert (Fm : finite (fmul s2 fpi)). { apply fmul_ok; try assumption; try apply fpi_double; [exact Logic.I|]. rewrite Rabs_pos_eq by (pose proof (bpow_gt_0 radix2 (-899)); lra). apply Rle_trans with (1 := proj2 Bm). apply bpow_le. lia. }
  assert (Dm : is_double (fmul s2 fpi)) by (apply fmul_double; [exact D2|apply fpi_double]).
  assert (Vm : dval (fmul s2 fpi) = rnd (dval s2 * dval fpi)) by (apply fmul_val; try assumption; apply fpi_double).
  assert (Wm : within (w + (w + w)) (dval (fmul s2 fpi)) (2 * s ^ 2 * PI)).
  { rewrite Vm. apply within_trans with (dval s2 * dval fpi); [nra| |].
    - apply rnd_within. apply Rle_trans with (2 := proj1 Bm). rewrite normal_bpow. apply bpow_le. lia.
    - apply within_mul; try assumption; nra. }
  assert (Rm : bpow radix2 (-899) <= dval (fmul s2 fpi)). { rewrite Vm. apply round_ge_generic; try (apply Vfex || apply valid_rnd_N); [apply generic_format_bpow; unfold FLT_exp; lia|apply Bm]. }
  pose proof (bpow_gt_0 radix2 (-899)) as P1.
  assert (Fc : finite (fsqrt (fmul s2 fpi))). { apply fsqrt_finite; try assumption. apply pos_nonneg; [exact Fm|lra]. }
  assert (Dc : is_double (fsqrt (fmul s2 fpi))) by now apply fsqrt_double.
  cbv zeta. repeat (split; [assumption|]).
  rewrite fsqrt_val by exact Dm. replace (2 * PI * s ^ 2) with (2 * s ^ 2 * PI) by ring.
  apply within_weak with (w + (w + (w + w)) / 2); [apply sqrt_pos|lra|].
  apply within_trans with (sqrt (dval (fmul s2 fpi))); [apply sqrt_pos| |apply within_sqrt; [nra|exact Wm]].
  apply rnd_within. apply Rle_trans with (sqrt (bpow radix2 (-900))).
  - change (-900)%Z with (-450 + -450)%Z. rewrite bpow_plus, sqrt_square by apply bpow_ge_0. rewrite normal_bpow. apply bpow_le. lia.
  - apply sqrt_le_1_alt. apply Rle_trans with (2 := Rm). apply bpow_le. lia.
Qed.

Lemma small_product a b p q : Rabs a <= p -> Rabs b <= q -> - (p * q) <= a * b <= p * q.
Proof. intros A B. apply Rabs_le_inv. rewrite Rabs_mult. apply Rmult_le_compat; try apply Rabs_pos; assumption. Qed.

(** The argument of exp: the exact one up to 5.5 roundings, and a term from underflow. *)
Lemma exponent_part x mu sigma : is_double x -> is_double mu -> is_double sigma -> finite x -> finite mu -> finite sigma ->
  bpow radix2 (-450) <= Rabs (dval sigma) <= bpow radix2 450 -> Rabs (dval x - dval mu) <= 26 * Rabs (dval sigma) ->
  let t := exponent (dval x) (dval mu) (dval sigma) in
  let y := fdiv (SFopp (fsquare (fsub x mu))) (fmul (dbl 2) (fsquare sigma)) in
  is_double y /\ finite y /\ 0 <= t <= 338 /\ dval y <= 0 /\ Rabs (- dval y - t) <= 11 / 2 * u * t + u / 100.
Proof.
  intros Dx Dm Ds Fx Fm Fs B A. destruct (variance_part sigma Ds Fs B) as (D2 & F2 & W2 & _).
  set (s2 := fmul (dbl 2) (fsquare sigma)) in *. set (s := dval sigma) in *. set (X := dval x - dval mu) in *.
  pose proof u_small as Us. pose proof (Rabs_pos s) as As. destruct B as [B1 B2]. pose proof (bpow_gt_0 radix2 (-450)) as P0.
  assert (Dd : is_double (fsub x mu)) by now apply fsub_double.
  assert (X2 : X * X <= 676 * (s * s)). { assert (Ex : X * X = Rabs X * Rabs X) by (rewrite <- Rabs_mult, Rabs_pos_eq; [reflexivity|apply Rle_0_sqr]).
    assert (Es : s * s = Rabs s * Rabs s) by (rewrite <- Rabs_mult, Rabs_pos_eq; [reflexivity|apply Rle_0_sqr]). rewrite Ex, Es. pose proof (Rabs_pos X). nra. }
  assert (Bd : Rabs X <= bpow radix2 455). { apply Rle_trans with (1 := A). change 455%Z with (5 + 450)%Z. rewrite bpow_plus. change (bpow radix2 5) with 32. nra. }
  assert (Fd : finite (fsub x mu)) by (apply fsub_ok; try assumption; apply Rle_trans with (1 := Bd); apply bpow_le; lia).
  assert (Vd : dval (fsub x mu) = rnd X) by now apply fsub_val.
  destruct (plus_err (dval x) (- dval mu)) as (e1 & H1 & E1); [now apply format|apply generic_format_opp; now apply format|].
  change (dval x + - dval mu) with X in E1. rewrite <- Vd in E1. set (a1 := dval (fsub x mu)) in *.
  assert (Ba : Rabs a1 <= bpow radix2 455). { rewrite Vd. apply abs_round_le_generic; try (apply Vfex || apply valid_rnd_N); [apply generic_format_bpow; unfold FLT_exp; lia|exact Bd]. }
  assert (Dq : is_double (fsquare (fsub x mu))) by now apply fmul_double.
  assert (Bq : Rabs (a1 * a1) <= bpow radix2 910). { rewrite Rabs_mult. change 910%Z with (455 + 455)%Z. rewrite bpow_plus. pose proof (Rabs_pos a1). nra. }
  assert (Fq : finite (fsquare (fsub x mu))). { apply fmul_ok; try assumption. fold a1. apply Rle_trans with (1 := Bq). apply bpow_le. lia. }
  assert (Vq : dval (fsquare (fsub x mu)) = rnd (a1 * a1)) by (apply fmul_val; assumption).
  destruct (any_err (a1 * a1)) as (e2 & d2 & H2 & K2 & E2). rewrite <- Vq in E2.
  assert (Nq : 0 <= dval (fsquare (fsub x mu))). { rewrite Vq. apply rnd_nonneg. apply Rle_0_sqr. }
  set (a2 := dval (fsquare (fsub x mu))) in *.
  assert (S2 : bpow radix2 (-900) <= s * s). { assert (Es : s * s = Rabs s * Rabs s) by (rewrite <- Rabs_mult, Rabs_pos_eq; [reflexivity|apply Rle_0_sqr]). rewrite Es. change (-900)%Z with (-450 + -450)%Z. rewrite bpow_plus. nra. }
  pose proof (bpow_gt_0 radix2 (-900)) as P1.
  assert (Q2 : 0 < dval s2) by (eapply within_pos; [|exact W2]; nra). set (q := dval s2) in *.
  set (Y := fdiv (SFopp (fsquare (fsub x mu))) s2). assert (Dy : is_double Y) by (apply fdiv_double; [now apply opp_double|exact D2]).
  (* the quotient *)
  assert (T0 : exponent (dval x) (dval mu) s = X * X / (2 * (s * s))) by (unfold exponent; fold X; f_equal; ring).
  cbv zeta. rewrite T0. set (t := X * X / (2 * (s * s))). assert (T1 : 0 <= t <= 338).
  { unfold t. split; [apply Rmult_le_pos; [apply Rle_0_sqr|left; apply Rinv_0_lt_compat; nra]|]. apply Rmult_le_reg_r with (2 * (s * s)); [nra|].
    unfold Rdiv. rewrite Rmult_assoc, Rinv_l by nra. lra. }
  set (G := d2 / q).
  assert (TG : tiny * bpow radix2 900 <= u / 1000). { rewrite tiny_bpow, <- bpow_plus. apply Rle_trans with (u * bpow radix2 (-10)).
      - rewrite roundoff_bpow, <- bpow_plus. apply bpow_le. lia.
      - change (bpow radix2 (-10)) with (/ 1024). lra. }
  assert (BG : Rabs G <= u / 1000).
  { unfold G, Rdiv. rewrite Rabs_mult, (Rabs_pos_eq (/ q)) by (left; now apply Rinv_0_lt_compat).
    assert (Qb : bpow radix2 (-900) <= q). { destruct W2 as [W2 _]. pose proof (exp_ge (- w)) as Ew. assert (1 / 2 <= exp (- w)) by (unfold w in *; nra). replace (s ^ 2) with (s * s) in W2 by ring. nra. }
    apply Rinv_le in Qb; [|exact P1]. rewrite <- bpow_opp in Qb. change (- -900)%Z with 900%Z in Qb.
    apply Rle_trans with (2 := TG). apply Rmult_le_compat; try apply Rabs_pos; try assumption. left; now apply Rinv_0_lt_compat. }
  assert (F : within (4 * w) ((1 + e1) * (1 + e1) * (1 + e2) / (q / (2 * (s * s)))) 1).
  { assert (Wq : within w (q / (2 * (s * s))) 1). { destruct W2 as [Wa Wb]. replace (s ^ 2) with (s * s) in * by ring. unfold within. split; apply Rmult_le_reg_r with (2 * (s * s)); try nra; unfold Rdiv; rewrite (Rmult_assoc q), Rinv_l by nra; nra. }
    replace 1 with (1 * 1 * 1 / 1) at 4 by field. replace (4 * w) with (w + w + w + w) by ring.
    apply within_div; try lra; [|exact Wq]. apply within_mul; try lra; [|now apply err_within]. apply within_mul; try lra; now apply err_within. }
  set (F0 := (1 + e1) * (1 + e1) * (1 + e2) / (q / (2 * (s * s)))) in *.
  assert (Qv : a2 / q = t * F0 + G). { unfold F0, t, G. rewrite E2, E1. field. split; nra. }
  assert (F0b : exp (- (4 * w)) <= F0 <= exp (4 * w)) by (destruct F as [Fa Fb]; lra).
  assert (Fu : exp (4 * w) <= 1 + 21 / 5 * u). { apply Rle_trans with (/ (1 - 4 * w)); [apply exp_le; unfold w; nra|]. apply Rmult_le_reg_l with (1 - 4 * w); [unfold w; nra|]. rewrite Rinv_r by (unfold w; nra). unfold w. nra. }
  assert (Fl : 1 - 21 / 5 * u <= exp (- (4 * w))). { apply Rle_trans with (2 := exp_ge _). unfold w. nra. }
  assert (Rq : - (1) <= a2 / q <= 400). { rewrite Qv. apply Rabs_le_inv in BG. pose proof (small_product t (F0 - 1) 338 (21 / 5 * u) ltac:(apply Rabs_le; lra) ltac:(apply Rabs_le; lra)). lra. }
  assert (Ny : dval (SFopp (fsquare (fsub x mu))) = - a2) by apply opp_val.
  assert (Fy : finite Y). { apply fdiv_ok; try assumption; [now apply opp_double|now apply opp_finite|apply Rgt_not_eq; exact Q2|]. fold q. rewrite Ny. unfold Rdiv. rewrite <- Ropp_mult_distr_l, Rabs_Ropp. fold (a2 / q).
    apply Rle_trans with 512; [apply Rabs_le; lra|]. change 512 with (bpow radix2 9). apply bpow_le. lia. }
  assert (Vy : dval Y = rnd (- (a2 / q))). { unfold Y. rewrite fdiv_val; try assumption; [|now apply opp_double|apply Rgt_not_eq; exact Q2]. fold q. rewrite Ny. f_equal. unfold Rdiv. ring. }
  destruct (any_err (- (a2 / q))) as (e4 & d4 & H4 & K4 & E4). rewrite <- Vy in E4.
  assert (Nd : 0 <= a2 / q) by (apply Rmult_le_pos; [exact Nq|left; now apply Rinv_0_lt_compat]).
  split; [exact Dy|]. split; [exact Fy|]. split; [exact T1|]. split.
  { rewrite Vy. rewrite round_NE_opp. pose proof (rnd_nonneg _ Nd). lra. }
  rewrite E4. rewrite Qv. assert (K4' : Rabs d4 <= u / 1000). { apply Rle_trans with (1 := K4). apply Rle_trans with (2 := TG). pose proof tiny_pos. assert (1 <= bpow radix2 900) by (change 1 with (bpow radix2 0); apply bpow_le; lia). nra. }
  apply Rabs_le_inv in H4, K4', BG. destruct T1 as [T1a T1b].
  assert (F1 : - (21 / 5 * u) <= F0 - 1 <= 21 / 5 * u) by lra.
  replace (- (- (t * F0 + G) * (1 + e4) + d4) - t) with (t * ((F0 - 1) * (1 + e4) + e4) + (G * (1 + e4) - d4)) by ring.
  set (f := F0 - 1) in *.
  assert (Uu : u * u <= u / 1000000) by (unfold Rdiv; apply Rmult_le_compat_l; lra).
  assert (Bf : Rabs (f * (1 + e4) + e4) <= 11 / 2 * u). { pose proof (small_product f e4 (21 / 5 * u) u ltac:(apply Rabs_le; lra) ltac:(apply Rabs_le; lra)). apply Rabs_le. lra. }
  assert (Bg : Rabs (G * (1 + e4) - d4) <= u / 100). { pose proof (small_product G e4 (u / 1000) u ltac:(apply Rabs_le; lra) ltac:(apply Rabs_le; lra)). apply Rabs_le. lra. }
  apply Rle_trans with (1 := Rabs_triang _ _). rewrite Rabs_mult, (Rabs_pos_eq t) by exact T1a. apply Rplus_le_compat; [|exact Bg]. rewrite Rmult_comm. apply Rmult_le_compat_r; [exact T1a|exact Bf].
Qed.
