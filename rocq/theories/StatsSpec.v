(** * StatsSpec: real values of doubles, exact sums and variances. *)

From Coq Require Import ZArith List Reals Floats.SpecFloat.
From Verif Require Import Spec Reduce ReduceSpec.
Import ListNotations.

(** A double: any value the type can hold. *)
Definition is_double (f : spec_float) : Prop := valid_binary 53 1024 f = true.
Definition finite (f : spec_float) : Prop :=
  match f with S754_zero _ | S754_finite _ _ _ => True | _ => False end.

(** The real number a finite double stands for. *)
Definition dval (f : spec_float) : R :=
  match f with
  | S754_finite s m e => (if s then - IZR (Zpos m) else IZR (Zpos m)) * powerRZ 2 e
  | _ => 0
  end%R.

(** Exact sums over the reals. *)
Definition rsum (l : list R) : R := fold_right Rplus 0%R l.

(** Exact sum of the squared deviations of integers from [mu]. *)
Definition deviations (mu : Z) (l : list Z) : Z := zsum (map (fun x => (x - mu) * (x - mu))%Z l).

(** n(n-1) times the corrected sample variance of integers: n times the sum of the squares minus the square
    of the sum. *)
Definition scaled_variance (l : list Z) : Z :=
  (Z.of_nat (length l) * zsum (map (fun x => x * x) l) - zsum l * zsum l)%Z.

(** Half the distance from 1 to the next double, and half the smallest positive double. *)
Definition roundoff : R := powerRZ 2 (-53).
Definition tiny : R := powerRZ 2 (-1075).

(** [x] is the double nearest to the real number [r]. *)
Definition nearest (x : spec_float) (r : R) : Prop :=
  finite x /\ forall y, is_double y -> finite y -> (Rabs (dval x - r) <= Rabs (dval y - r))%R.

(** Exact mean and (corrected) sample variance. *)
Definition rmean (l : list R) : R := (rsum l / INR (length l))%R.
Definition rvar (l : list R) : R :=
  (rsum (map (fun x => (x - rmean l) * (x - rmean l)) l) / (INR (length l) - 1))%R.

(** A number (not NaN) whose sign bit is clear: +0, a positive number or +infinity. *)
Definition nonneg (f : spec_float) : Prop :=
  match f with S754_zero s | S754_infinity s | S754_finite s _ _ => s = false | S754_nan => False end.
