(** * PropMath: property C77 (the density of the normal distribution and the other element-wise functions).

    Vocabulary (MathSpec.v, StatsSpec.v): [dval f], the real number a finite double stands for; [density], the density over the reals; [exponent], the
    squared distance from the mean over twice the variance; [roundoff] = 2^-53.  The library calls std::exp: what is asked of it is a hypothesis
    ([exp_accurate], [exp_nonneg], [exp_special], [exp_monotone]), met for instance by the correctly rounded function ([C77_exp_exists]). *)

From Coq Require Import ZArith List Bool Lia Floats.SpecFloat Reals Lra.
From Flocq Require Import Core.
From Verif Require Import Base Spec Slice SliceSpec Expr ExprSpec Coerce Reduce Random Stats RangeLoop RangeLoopSpec RangeLoopProofs ReduceSpec StatsSpec StatsProofs
  ReadNumSpec MathFn MathSpec MathProofs MathPdf MathPdf2 MathExp MathInt.
From Verif Require PropExpr LifeProofs.
Import ListNotations.
Open Scope Z_scope.

Lemma scale_range r : (powerRZ 2 (-450) <= r <= powerRZ 2 450)%R -> (bpow radix2 (-450) <= r <= bpow radix2 450)%R.
Proof. now rewrite !bpow_powerRZ. Qed.

(** ** normal_pdf of doubles *)

(** Within 26 standard deviations of the mean, for every scale between 2^-450 and 2^450: the result is finite and its error is that of exp and a factor
    exp((6t+4) 2^-53), t at most 338. *)
Theorem C77_pdf_accurate : forall fexp eps x mu sigma, (eps <= 1 / 2)%R -> exp_accurate eps fexp ->
  is_double x -> is_double mu -> is_double sigma -> finite x -> finite mu -> finite sigma ->
  (powerRZ 2 (-450) <= Rabs (dval sigma) <= powerRZ 2 450)%R -> (Rabs (dval x - dval mu) <= 26 * Rabs (dval sigma))%R ->
  let K := ((6 * exponent (dval x) (dval mu) (dval sigma) + 4) * roundoff)%R in
  let d := density (dval x) (dval mu) (dval sigma) in
  is_double (fpdf fexp x mu sigma) /\ finite (fpdf fexp x mu sigma) /\
  ((1 - eps) * exp (- K) * d <= dval (fpdf fexp x mu sigma) <= (1 + eps) * exp K * d)%R /\ (0 <= exponent (dval x) (dval mu) (dval sigma) <= 338)%R.
Proof.
  intros fexp eps x mu sigma He Hx Dx Dm Ds Fx Fm Fs B A. apply scale_range in B.
  destruct (exponent_part x mu sigma Dx Dm Ds Fx Fm Fs B A) as (_ & _ & T & _).
  destruct (fpdf_accurate fexp eps ltac:(lra) Hx x mu sigma Dx Dm Ds Fx Fm Fs B A) as (H1 & H2 & H3). auto.
Qed.

(** Exactly symmetric about the mean and in the sign of sigma, whatever exp is. *)
Theorem C77_pdf_symmetric : forall fexp x mu sigma, is_double x -> is_double mu ->
  fpdf fexp x mu sigma = fpdf fexp mu x sigma /\ fpdf fexp x mu (SFopp sigma) = fpdf fexp x mu sigma.
Proof. intros. split; [now apply fpdf_symmetric|apply fpdf_sigma_sign]. Qed.

(** Never negative. *)
Theorem C77_pdf_nonneg : forall fexp x mu sigma, exp_nonneg fexp -> is_double x -> is_double mu -> is_double sigma ->
  is_double (fpdf fexp x mu sigma) /\ (fpdf fexp x mu sigma = S754_nan \/ nonneg (fpdf fexp x mu sigma)).
Proof. exact fpdf_not_neg. Qed.

(** Not larger farther from the mean; the value at the mean is the largest.  (2^50 standard deviations.) *)
Theorem C77_pdf_decreasing : forall fexp x x' mu sigma, exp_monotone fexp -> is_double x -> is_double x' -> is_double mu -> is_double sigma ->
  finite x -> finite x' -> finite mu -> finite sigma -> (powerRZ 2 (-450) <= Rabs (dval sigma) <= powerRZ 2 450)%R ->
  (Rabs (dval x - dval mu) <= Rabs (dval x' - dval mu) <= 2 ^ 50 * Rabs (dval sigma))%R ->
  finite (fpdf fexp x' mu sigma) /\ finite (fpdf fexp x mu sigma) /\ (dval (fpdf fexp x' mu sigma) <= dval (fpdf fexp x mu sigma))%R.
Proof.
  intros fexp x x' mu sigma H Dx Dx' Dm Ds Fx Fx' Fm Fs B A. apply scale_range in B. apply fpdf_decreasing; try assumption. now rewrite bpow_powerRZ.
Qed.

(** No standard deviation, or one below 2^-538 (its square underflows): NaN at every point, also at the mean. *)
Theorem C77_pdf_degenerate : forall fexp x mu sigma, exp_special fexp -> is_double x -> is_double mu -> is_double sigma -> finite sigma ->
  (Rabs (dval sigma) < powerRZ 2 (-538))%R -> fpdf fexp x mu sigma = S754_nan.
Proof. intros fexp x mu sigma E Dx Dm Ds Fs B. apply fpdf_degenerate; try assumption. now rewrite bpow_powerRZ. Qed.

(** The natural claim: a positive number where the density is a positive number that doubles reach. *)
Theorem C77_small_sigma_refuted : exists x mu sigma, is_double x /\ is_double mu /\ is_double sigma /\ finite sigma /\ (0 < dval sigma)%R /\
  (1 <= density (dval x) (dval mu) (dval sigma) <= powerRZ 2 1000)%R /\ forall fexp, exp_special fexp -> fpdf fexp x mu sigma = S754_nan.
Proof.
  exists (dbl 0), (dbl 0), (S754_finite false 4503599627370496 (-652)).
  assert (V : dval (S754_finite false 4503599627370496 (-652)) = powerRZ 2 (-600)).
  { cbn [dval]. change 4503599627370496%Z with (radix2 ^ 52)%Z. rewrite (IZR_Zpower radix2 52) by lia. rewrite bpow_powerRZ. change (IZR radix2) with 2%R. rewrite <- powerRZ_add by lra. reflexivity. }
  repeat (split; [reflexivity || exact Logic.I|]). rewrite V. split; [apply powerRZ_lt; lra|]. split.
  - unfold density. cbn [dbl dval]. change (dval (dbl 0)) with 0%R.
    replace (- ((0 - 0) ^ 2 / (2 * powerRZ 2 (-600) ^ 2)))%R with 0%R by (unfold Rdiv; rewrite Rminus_0_r, pow_ne_zero by lia; lra). rewrite exp_0.
    pose proof PI2_3_2 as P3. unfold PI2 in P3. pose proof PI_4 as P4. assert (P0 : (0 < powerRZ 2 (-600))%R) by (apply powerRZ_lt; lra).
    rewrite sqrt_mult_alt by lra. rewrite <- Rsqr_pow2, sqrt_Rsqr by lra.
    assert (S2 : (2 <= sqrt (2 * PI) <= 3)%R). { pose proof (sqrt_square 2 ltac:(lra)). pose proof (sqrt_square 3 ltac:(lra)). pose proof (sqrt_le_1_alt (2 * 2) (2 * PI) ltac:(lra)). pose proof (sqrt_le_1_alt (2 * PI) (3 * 3) ltac:(lra)). lra. }
    assert (E : (/ powerRZ 2 (-600) = powerRZ 2 600)%R) by (change 2%R with (IZR radix2); rewrite <- !bpow_powerRZ; symmetry; exact (bpow_opp radix2 (-600))).
    assert (Eq : (1 / (sqrt (2 * PI) * powerRZ 2 (-600)) = / sqrt (2 * PI) * powerRZ 2 600)%R) by (rewrite <- E; field; split; lra). rewrite Eq.
    assert (I2 : (/ 3 <= / sqrt (2 * PI) <= 1)%R). { split; [apply Rinv_le; lra|]. apply Rle_trans with (/ 1)%R; [apply Rinv_le; lra|lra]. }
    assert (B1 : (4 <= powerRZ 2 600)%R). { change 4%R with (bpow radix2 2). change 2%R with (IZR radix2). rewrite <- bpow_powerRZ. apply bpow_le. lia. }
    assert (B2 : (powerRZ 2 600 <= powerRZ 2 1000)%R) by (change 2%R with (IZR radix2); rewrite <- !bpow_powerRZ; apply bpow_le; lia). nra.
  - intros fexp E. apply C77_pdf_degenerate; try assumption; try reflexivity; try exact Logic.I. rewrite V, Rabs_pos_eq by (left; apply powerRZ_lt; lra).
    change 2%R with (IZR radix2); rewrite <- !bpow_powerRZ. apply bpow_lt. lia.
Qed.

(** What is asked of std::exp can be had: the correctly rounded function. *)
Theorem C77_exp_exists : exists fexp, exp_accurate roundoff fexp /\ exp_nonneg fexp /\ exp_special fexp /\ exp_monotone fexp.
Proof. exists exact_exp. exact exact_exp_ok. Qed.

(** ** normal_pdf of integers *)

(** Signed types: exactly when it is defined, and what it is: the exponent by integer division, and 3 instead of pi. *)
Theorem C77_pdf_integers : forall fexp t x mu sigma, std_ty t -> signed t = true ->
  let h := ihi (promote t) in
  (sigma <> 0 -> (x - mu) * (x - mu) <= h -> 6 * (sigma * sigma) <= h ->
     ipdf fexp t x mu sigma = Ok (fdiv (fexp (dbl (- ((x - mu) * (x - mu) / (2 * (sigma * sigma)))))) (fsqrt (dbl (6 * (sigma * sigma)))))) /\
  (sigma = 0 \/ h < (x - mu) * (x - mu) \/ h < 6 * (sigma * sigma) -> ipdf fexp t x mu sigma = UB).
Proof.
  intros fexp t x mu sigma St Sg h. rewrite (ipdf_signed fexp t x mu sigma St Sg). fold h. split.
  - intros N A B. replace (sigma =? 0) with false by (symmetry; now apply Z.eqb_neq). replace (h <? (x - mu) * (x - mu)) with false by (symmetry; apply Z.ltb_ge; lia).
    replace (h <? 6 * (sigma * sigma)) with false by (symmetry; apply Z.ltb_ge; lia). reflexivity.
  - intros [-> | [A|A]]; [reflexivity| |]; apply Z.ltb_lt in A; rewrite A, ?orb_true_r; reflexivity.
Qed.

(** Unsigned types: the negated square wraps around, exp gets a positive argument everywhere but at the mean. *)
Theorem C77_pdf_unsigned : forall fexp b x mu sigma, b = 32 \/ b = 64 -> 0 < sigma -> 6 * (sigma * sigma) < 2 ^ b -> (x - mu) * (x - mu) < 2 ^ b -> x <> mu ->
  ipdf fexp (ITy b false) x mu sigma = Ok (fdiv (fexp (dbl ((2 ^ b - (x - mu) * (x - mu)) / (2 * (sigma * sigma))))) (fsqrt (dbl (6 * (sigma * sigma))))).
Proof. exact ipdf_unsigned. Qed.

(** The natural claim is that the result is close to the density; the standard normal density at 1 is less than 1/3, the result more than 2/5. *)
Theorem C77_pdf_integers_refuted : exists x mu sigma, (density (IZR x) (IZR mu) (IZR sigma) <= 1 / 3)%R /\
  forall fexp, exp_special fexp -> exists r, ipdf fexp (ITy 32 true) x mu sigma = Ok r /\ finite r /\ (2 / 5 < dval r)%R.
Proof.
  exists 1, 0, 1. split.
  - unfold density. replace (- ((1 - 0) ^ 2 / (2 * 1 ^ 2)))%R with (- (1 / 2))%R by field. replace (2 * PI * 1 ^ 2)%R with (2 * PI)%R by ring.
    pose proof PI2_3_2 as P3. unfold PI2 in P3. assert (S2 : (2 <= sqrt (2 * PI))%R). { pose proof (sqrt_square 2 ltac:(lra)). pose proof (sqrt_le_1_alt (2 * 2) (2 * PI) ltac:(lra)). lra. }
    pose proof (exp_ge (1 / 2)) as G. rewrite exp_Ropp. apply Rinv_le in G; [|lra]. apply Rinv_le in S2; [|lra].
    assert (0 < / exp (1 / 2))%R by (apply Rinv_0_lt_compat, exp_pos). assert (0 < / sqrt (2 * PI))%R by (apply Rinv_0_lt_compat, sqrt_lt_R0; lra). unfold Rdiv at 1. replace (/ (1 + 1 / 2))%R with (2 / 3)%R in G by lra. nra.
  - intros fexp (_ & _ & E). destruct (C77_pdf_integers fexp (ITy 32 true) 1 0 1 ltac:(cbn; auto) eq_refl) as [H _].
    rewrite H by (cbn; lia). eexists. split; [reflexivity|]. change (dbl (- ((1 - 0) * (1 - 0) / (2 * (1 * 1))))) with (S754_zero false). rewrite E.
    assert (Q : fdiv (S754_finite false 4503599627370496 (-52)) (fsqrt (dbl (6 * (1 * 1)))) = S754_finite false 7354347395230783 (-54)) by (vm_compute; reflexivity). rewrite Q. split; [exact Logic.I|].
    cbn [dval]. change (powerRZ 2 (-54)) with (/ 2 ^ 54)%R. rewrite (pow_IZR 2 54). change (2 ^ Z.of_nat 54) with 18014398509481984. lra.
Qed.

(** ** arrays, views and expressions *)

(** [normal_pdf(a, mu, sigma)], [abs(a)], [sqrt(a)], ... : the function of every element, in column-major order, every element read once. *)
Theorem C77_elementwise : forall chk fuel (m : @mem spec_float) e es vs f, expr_ok fuel m e es -> elements fuel m e es vs ->
  eval_expr chk m (a_fun f e) = Ok (es, map f vs, map (reads fuel e) (seq 0 (length vs))) /\
  forall fexp mu sigma, eval_expr chk m (a_pdf fexp e mu sigma) = Ok (es, map (fun x => fpdf fexp x mu sigma) vs, map (reads fuel e) (seq 0 (length vs))).
Proof.
  assert (G : forall chk fuel (m : @mem spec_float) e es vs f, expr_ok fuel m e es -> elements fuel m e es vs ->
    eval_expr chk m (EUn f e) = Ok (es, map f vs, map (reads fuel e) (seq 0 (length vs)))).
  { intros chk fuel m e es vs f H [L V]. destruct (PropExpr.expression_is_pointwise spec_float chk fuel m (EUn f e) es (ok_un _ _ f e es H)) as (ws & -> & L' & V').
    assert (Ll : length ws = length vs) by lia. assert (Ew : ws = map f vs).
    { apply LifeProofs.nth_error_ext. intros k. destruct (Nat.lt_ge_cases k (length ws)) as [K|K].
      - rewrite V' by exact K. cbn [value]. rewrite nth_error_map, V by lia. destruct (value fuel m e k); reflexivity.
      - rewrite (proj2 (nth_error_None ws k)) by exact K. symmetry. apply nth_error_None. rewrite map_length. lia. }
    rewrite Ll, Ew. reflexivity. }
  intros chk fuel m e es vs f H E. split; [now apply G|]. intros. now apply G.
Qed.

(** abs is exact; sqrt is correctly rounded, NaN below zero; abs of an integer is undefined exactly for the least value of a type of 32 or 64 bits. *)
Theorem C77_abs_sqrt : (forall x, is_double x -> finite x -> is_double (fabs x) /\ finite (fabs x) /\ dval (fabs x) = Rabs (dval x) /\ nonneg (fabs x)) /\
  (forall x, is_double x -> finite x -> (0 <= dval x)%R -> nearest (fsqrt x) (sqrt (dval x))) /\
  (forall x, is_double x -> finite x -> (dval x < 0)%R -> fsqrt x = S754_nan) /\
  (forall t x, std_ty t -> ilo t <= x <= ihi t -> signed t = true \/ bits t < 32 ->
     iabs t x = if (signed t && (32 <=? bits t) && (x =? ilo t))%bool then UB else Ok (Z.abs x)).
Proof.
  assert (Pz : forall m e, (0 < IZR (Z.pos m) * powerRZ 2 e)%R) by (intros m e; apply Rmult_lt_0_compat; [apply IZR_lt; lia|apply powerRZ_lt; lra]).
  split; [|split; [|split]].
  - intros x D F. destruct x as [s|s| |s m e]; try contradiction; (split; [exact D|]; split; [exact Logic.I|]; split; [|reflexivity]); cbn -[IZR powerRZ].
    + now rewrite Rabs_R0.
    + destruct s; [rewrite <- Ropp_mult_distr_l, Rabs_Ropp|]; rewrite Rabs_pos_eq; try reflexivity; left; apply Pz.
  - intros x D F N. apply nearest_rnd; [now apply fsqrt_double| |now apply fsqrt_val].
    destruct x as [s|s| |s m e]; try contradiction; [exact Logic.I|]. apply fsqrt_finite; try assumption. destruct s; [|reflexivity]. exfalso. cbn -[IZR powerRZ] in N. specialize (Pz m e). lra.
  - intros x D F N. destruct x as [s|s| |s m e]; try contradiction; cbn -[IZR powerRZ] in N; [lra|]. destruct s; [reflexivity|]. specialize (Pz m e). lra.
  - exact iabs_ok.
Qed.

(** The hypotheses are met: x = 3.5, mu = 1, sigma = -2 (doubles), a view of an array, integers. *)
Example C77_ex : let x := S754_finite false 7881299347898368 (-51) in let mu := dbl 1 in let sigma := dbl (-2) in
  (roundoff <= 1 / 2)%R /\ exp_accurate roundoff exact_exp /\ is_double x /\ is_double mu /\ is_double sigma /\ finite x /\ finite mu /\ finite sigma /\
  (powerRZ 2 (-450) <= Rabs (dval sigma) <= powerRZ 2 450)%R /\ (Rabs (dval x - dval mu) <= 26 * Rabs (dval sigma))%R /\
  (Rabs (dval mu - dval mu) <= Rabs (dval x - dval mu) <= 2 ^ 50 * Rabs (dval sigma))%R /\
  ipdf exact_exp (ITy 16 true) 100 3 7 = Ok (fdiv (exact_exp (dbl (-96))) (fsqrt (dbl 294))) /\ ipdf exact_exp (ITy 32 true) 46341 0 1 = UB /\
  ipdf exact_exp (ITy 32 false) 1 2 1 = Ok (fdiv (exact_exp (dbl 2147483647)) (fsqrt (dbl 6))) /\ iabs (ITy 16 true) (-32768) = Ok 32768 /\ iabs (ITy 32 true) (- 2 ^ 31) = UB.
Proof.
  cbv zeta. assert (Vx : dval (S754_finite false 7881299347898368 (-51)) = (7 / 2)%R).
  { cbn [dval]. change (powerRZ 2 (-51)) with (/ 2 ^ 51)%R. rewrite (pow_IZR 2 51). change (2 ^ Z.of_nat 51) with 2251799813685248. lra. }
  assert (Vm : dval (dbl 1) = 1%R) by (apply dbl_val; cbn; lia). assert (Vs : dval (dbl (-2)) = (-2)%R) by (apply dbl_val; cbn; lia). rewrite Vx, Vm, Vs.
  pose proof u_small. split; [lra|]. split; [apply exact_exp_ok|]. repeat (split; [reflexivity || exact Logic.I|]).
  assert (A2 : Rabs (-2) = 2%R) by (rewrite Rabs_left; lra). rewrite A2.
  split. { assert (L : (bpow radix2 (-450) <= bpow radix2 1 <= bpow radix2 450)%R) by (split; apply bpow_le; lia). rewrite !bpow_powerRZ in L. change (IZR radix2) with 2%R in L. change (powerRZ 2 1) with (2 * 1)%R in L. lra. }
  split; [rewrite Rabs_pos_eq; lra|]. split. { assert (1 <= 2 ^ 50)%R by (apply pow_R1_Rle; lra). rewrite Rminus_diag_eq by reflexivity. rewrite Rabs_R0, Rabs_pos_eq; lra. }
  repeat split; reflexivity.
Qed.
Print Assumptions C77_pdf_accurate.
Print Assumptions C77_pdf_symmetric.
Print Assumptions C77_pdf_nonneg.
Print Assumptions C77_pdf_decreasing.
Print Assumptions C77_pdf_degenerate.
Print Assumptions C77_small_sigma_refuted.
Print Assumptions C77_exp_exists.
Print Assumptions C77_pdf_integers.
Print Assumptions C77_pdf_unsigned.
Print Assumptions C77_pdf_integers_refuted.
Print Assumptions C77_elementwise.
Print Assumptions C77_abs_sqrt.
