(** * MathPdf: normal_pdf. *)

From Coq Require Import ZArith List Bool Lia Floats.SpecFloat Reals Lra.
From Flocq Require Import Core Relative Plus_error Mult_error BinarySingleNaN.
From Verif Require Import Base Spec Coerce Reduce Random Stats ReduceSpec StatsSpec RandomProofs StatsProofs ReadNumSpec ReadNumProofs ProdProofs MathFn MathSpec MathProofs.
Import ListNotations.
Open Scope Z_scope.

Local Notation fex := (FLT_exp (-1074) 53).
Local Notation rnd := (round radix2 fex ZnearestE).
Local Existing Instance Hprec.
Local Existing Instance Hmax.
Local Existing Instance Vfex.
Local Notation BF := (binary_float 53 1024).
Local Notation u := roundoff.
Open Scope R_scope.

Lemma exp_nat n : exp (INR n) = exp 1 ^ n.
Proof. induction n as [|n IH]; [apply exp_0|]. rewrite S_INR, exp_plus, IH. cbn [pow]. ring. Qed.
Lemma exp_low y : -340 <= y -> bpow radix2 (-539) <= exp y.
Proof.
  intros H. apply Rle_trans with (exp (Ropp 340)); [|destruct (Rle_lt_or_eq_dec _ _ H) as [H1|H1]; [left; apply exp_increasing; lra|right; f_equal; lra]].
  rewrite exp_Ropp. replace 340 with (INR 340) by (rewrite INR_IZR_INZ; reflexivity). rewrite exp_nat.
  change (-539)%Z with (- (539))%Z. rewrite bpow_opp. apply Rinv_le; [apply pow_lt, exp_pos|].
  apply Rle_trans with (3 ^ 340); [apply pow_incr; split; [left; apply exp_pos|apply exp_le_3]|].
  rewrite (pow_IZR 3 340). rewrite <- IZR_Zpower by lia. apply IZR_le. apply Z.leb_le. vm_compute. reflexivity.
Qed.

Lemma exponent_sym x mu sigma : exponent x mu sigma = exponent mu x sigma.
Proof. unfold exponent. f_equal. ring. Qed.

Section Accurate.
Variables (fexp : spec_float -> spec_float) (eps : R).
Hypothesis (Heps : eps <= / 2) (Hexp : exp_accurate eps fexp).

Theorem fpdf_accurate x mu sigma : is_double x -> is_double mu -> is_double sigma -> finite x -> finite mu -> finite sigma ->
  bpow radix2 (-450) <= Rabs (dval sigma) <= bpow radix2 450 -> Rabs (dval x - dval mu) <= 26 * Rabs (dval sigma) ->
  let K := (6 * exponent (dval x) (dval mu) (dval sigma) + 4) * u in
  let d := density (dval x) (dval mu) (dval sigma) in
  is_double (fpdf fexp x mu sigma) /\ finite (fpdf fexp x mu sigma) /\
  (1 - eps) * exp (- K) * d <= dval (fpdf fexp x mu sigma) <= (1 + eps) * exp K * d.
Proof.
  intros Dx Dm Ds Fx Fm Fs B A. destruct (exponent_part x mu sigma Dx Dm Ds Fx Fm Fs B A) as (Dy & Fy & T & Ny & Ey).
  destruct (variance_part sigma Ds Fs B) as (D2 & F2 & W2 & Dc & Fc & Wc). cbv zeta. unfold fpdf. cbv zeta. unfold density. fold (exponent (dval x) (dval mu) (dval sigma)).
  set (t := exponent (dval x) (dval mu) (dval sigma)) in *. set (y := fdiv _ _) in *. set (c := fsqrt _) in *. pose proof u_small as Us.
  assert (L340 : -340 <= dval y <= 0).
  { split; [|exact Ny]. apply Rabs_le_inv in Ey. assert (11 / 2 * u * t <= 1) by (pose proof (small_product u t (/ 1000000) 338 ltac:(apply Rabs_le; lra) ltac:(apply Rabs_le; lra)); lra). lra. }
  destruct (Hexp y Dy Fy L340) as (De & Fe & Ee). pose proof (exp_low (dval y) (proj1 L340)) as XL. pose proof (exp_pos (dval y)) as XP.
  assert (XU : exp (dval y) <= 1) by (rewrite <- exp_0; destruct (Req_dec (dval y) 0) as [->|]; [lra|left; apply exp_increasing; lra]).
  set (X := exp (dval y)) in *. set (E := dval (fexp y)) in *. apply Rabs_le_inv in Ee.
  assert (P0 : 0 <= eps). { assert (0 <= eps * X) by lra. apply Rmult_le_reg_r with X; lra. }
  pose proof (bpow_gt_0 radix2 (-539)) as P1. assert (HX : / 2 * X <= (1 - eps) * X) by (apply Rmult_le_compat_r; lra).
  assert (EL : bpow radix2 (-540) <= E). { change (-540)%Z with (-1 + -539)%Z. rewrite bpow_plus. change (bpow radix2 (-1)) with (/ 2). lra. }
  assert (EU : E <= 2). { assert (eps * X <= 1) by nra. lra. }
  (* the denominator *)
  set (r := sqrt (2 * PI * dval sigma ^ 2)) in *. pose proof PI2_3_2 as Pi3. pose proof PI_4 as Pi4. unfold PI2 in Pi3. pose proof (bpow_gt_0 radix2 (-450)) as P2.
  assert (Rr : r = sqrt (2 * PI) * Rabs (dval sigma)). { unfold r. rewrite sqrt_mult_alt by lra. f_equal. rewrite <- Rsqr_pow2. apply sqrt_Rsqr_abs. }
  assert (S2 : 2 <= sqrt (2 * PI) <= 3). { pose proof (sqrt_square 2 ltac:(lra)) as Q2. pose proof (sqrt_square 3 ltac:(lra)) as Q3. pose proof (sqrt_le_1_alt (2 * 2) (2 * PI) ltac:(lra)). pose proof (sqrt_le_1_alt (2 * PI) (3 * 3) ltac:(lra)). lra. }
  assert (Rb : 2 * bpow radix2 (-450) <= r <= 3 * bpow radix2 450). { rewrite Rr. set (as_ := Rabs (dval sigma)) in *. split; apply Rmult_le_compat; lra. }
  assert (W52 : / 2 <= exp (- (5 / 2 * w)) /\ exp (5 / 2 * w) <= 2).
  { split; [pose proof (exp_ge (- (5 / 2 * w))); unfold w in *; nra|]. apply Rle_trans with (/ (1 - 5 / 2 * w)); [apply exp_le; unfold w; nra|].
    replace 2 with (/ / 2) by lra. apply Rinv_le; [lra|unfold w; nra]. }
  assert (Cb : bpow radix2 (-450) <= dval c <= bpow radix2 453). { change 453%Z with (3 + 450)%Z. rewrite bpow_plus. change (bpow radix2 3) with 8. destruct Wc as [Wa Wb]. set (V := dval c) in *. split; nra. }
  assert (Qb : bpow radix2 (-993) <= E / dval c <= bpow radix2 451).
  { destruct Cb as [Ca Cb]. pose proof (Rinv_le _ _ P2 Ca) as I1. pose proof (Rinv_le _ _ (Rlt_le_trans _ _ _ P2 Ca) Cb) as I2. rewrite <- bpow_opp in I1, I2. change (- -450)%Z with 450%Z in I1.
    change (-993)%Z with (-540 + - (453))%Z. change 451%Z with (1 + 450)%Z. rewrite !bpow_plus. change (bpow radix2 1) with 2. unfold Rdiv. pose proof (bpow_gt_0 radix2 (- (453))). pose proof (bpow_gt_0 radix2 (-540)). split; apply Rmult_le_compat; lra. }
  pose proof (bpow_gt_0 radix2 (-993)) as P3.
  assert (Ff : finite (fdiv (fexp y) c)). { apply fdiv_ok; try assumption; [apply Rgt_not_eq; lra|]. fold E. rewrite Rabs_pos_eq by lra. apply Rle_trans with (1 := proj2 Qb). apply bpow_le. lia. }
  assert (Vf : dval (fdiv (fexp y) c) = rnd (E / dval c)) by (apply fdiv_val; try assumption; apply Rgt_not_eq; lra).
  split; [now apply fdiv_double|]. split; [exact Ff|].
  assert (Wf : within w (dval (fdiv (fexp y) c)) (E / dval c)). { rewrite Vf. apply rnd_within. apply Rle_trans with (2 := proj1 Qb). rewrite normal_bpow. apply bpow_le. lia. }
  set (res := dval (fdiv (fexp y) c)) in *.
  (* E against exp(-t) *)
  set (k1 := 11 / 2 * u * t + u / 100) in *.
  assert (Wx : within k1 X (exp (- t))).
  { apply Rabs_le_inv in Ey. unfold within. rewrite <- !exp_plus. unfold X. split.
    - destruct (Req_dec (- t + - k1) (dval y)) as [->|]; [lra|left; apply exp_increasing; lra].
    - destruct (Req_dec (- t + k1) (dval y)) as [->|]; [lra|left; apply exp_increasing; lra]. }
  assert (Wq : within (w + (k1 + 5 / 2 * w)) (res * (X / E)) (exp (- t) / r)).
  { replace (res * (X / E)) with (res / (E / dval c) * (X / dval c)) by (field; repeat split; apply Rgt_not_eq; lra). replace (exp (- t) / r) with (1 * (exp (- t) / r)) by ring.
    apply within_mul; [lra|apply Rmult_le_pos; [left; apply exp_pos|left; apply Rinv_0_lt_compat; lra]| |].
    - destruct Wf as [Wa Wb]. set (q := E / dval c) in *. unfold within. split; apply Rmult_le_reg_r with q; try lra; unfold Rdiv; rewrite (Rmult_assoc res), Rinv_l by lra; lra.
    - apply within_div; try assumption; [left; apply exp_pos|lra]. }
  assert (D0 : 0 <= exp (- t) / r) by (apply Rmult_le_pos; [left; apply exp_pos|left; apply Rinv_0_lt_compat; lra]).
  apply within_weak with (k' := (6 * t + 4) * u) in Wq; [|exact D0|].
  2:{ unfold k1, w. assert (u * u <= u * / 1000000) by (apply Rmult_le_compat_l; lra). assert (0 <= u * t) by (apply Rmult_le_pos; lra). lra. }
  destruct Wq as [Wa Wb]. set (d := exp (- t) / r) in *. set (K := (6 * t + 4) * u) in *.
  assert (Z0 : 0 < res * (X / E) \/ res * (X / E) <= 0) by lra.
  assert (Zx : res = (E / X) * (res * (X / E))) by (field; split; apply Rgt_not_eq; lra).
  assert (Bx : 1 - eps <= E / X <= 1 + eps) by (split; apply Rmult_le_reg_r with X; try lra; unfold Rdiv; rewrite (Rmult_assoc E), Rinv_l by lra; lra).
  set (g := res * (X / E)) in *. rewrite Zx. pose proof (exp_pos K). pose proof (exp_pos (- K)). assert (0 <= d * exp (- K)) by (apply Rmult_le_pos; lra).
  replace ((1 - eps) * exp (- K) * d) with ((1 - eps) * (d * exp (- K))) by ring. replace ((1 + eps) * exp K * d) with ((1 + eps) * (d * exp K)) by ring.
  split; apply Rmult_le_compat; lra.
Qed.
End Accurate.
