(** * MathSpec: the density of the normal distribution, and what is asked of std::exp. *)

From Coq Require Import ZArith Reals Floats.SpecFloat.
From Verif Require Import StatsSpec.
Open Scope R_scope.

(** Density at [x] of the normal distribution with mean [mu] and standard deviation [|sigma|]. *)
Definition density (x mu sigma : R) : R := exp (- ((x - mu) ^ 2 / (2 * sigma ^ 2))) / sqrt (2 * PI * sigma ^ 2).

(** The squared distance from the mean, in units of twice the variance. *)
Definition exponent (x mu sigma : R) : R := (x - mu) ^ 2 / (2 * sigma ^ 2).

(** Between [-340] and [0], exp gives a double with relative error at most [eps]. *)
Definition exp_accurate (eps : R) (fexp : spec_float -> spec_float) : Prop :=
  forall y, is_double y -> finite y -> -340 <= dval y <= 0 ->
    is_double (fexp y) /\ finite (fexp y) /\ Rabs (dval (fexp y) - exp (dval y)) <= eps * exp (dval y).

(** Results of exp are doubles, NaN or not negative. *)
Definition exp_nonneg (fexp : spec_float -> spec_float) : Prop :=
  forall y, is_double y -> is_double (fexp y) /\ (fexp y = S754_nan \/ nonneg (fexp y)).

(** exp of minus infinity is zero, exp of NaN is NaN, exp of zero is one (ISO C, Annex F). *)
Definition exp_special (fexp : spec_float -> spec_float) : Prop :=
  fexp (S754_infinity true) = S754_zero false /\ fexp S754_nan = S754_nan /\ forall s, fexp (S754_zero s) = S754_finite false 4503599627370496 (-52).

(** For arguments that are not positive exp is at least zero and at most one, and a larger argument does not give a smaller result. *)
Definition exp_monotone (fexp : spec_float -> spec_float) : Prop :=
  (forall y, is_double y -> finite y -> dval y <= 0 -> is_double (fexp y) /\ finite (fexp y) /\ 0 <= dval (fexp y) <= 1) /\
  (forall y z, is_double y -> is_double z -> finite y -> finite z -> dval y <= dval z <= 0 -> dval (fexp y) <= dval (fexp z)).
