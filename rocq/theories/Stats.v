(** * Stats: sums, means, variances and standard deviations of doubles, variances of integers
    (base/numeric.hpp).  Definitions only.  A range is the list of its values, as in Reduce. *)

From Coq Require Import ZArith List Bool Floats.SpecFloat.
From Verif Require Import Base Slice Coerce Reduce Random.
Import ListNotations.
Open Scope Z_scope.

(** Arithmetic of doubles, round to nearest even (binary64). *)
Definition fadd (a b : spec_float) : spec_float := SFadd 53 1024 a b.
Definition fsub (a b : spec_float) : spec_float := SFsub 53 1024 a b.
Definition fdiv (a b : spec_float) : spec_float := SFdiv 53 1024 a b.
Definition fsqrt (a : spec_float) : spec_float := SFsqrt 53 1024 a.

(** [numeric_traits<double>::additive_identity()] (core/type.hpp:250). *)
Definition fzero : spec_float := S754_zero false.

(** [square] (base/math.hpp:21). *)
Definition fsquare (a : spec_float) : spec_float := fmul a a.

(** [sum(first, last, start)] (base/numeric.hpp:214-228). *)
Definition fsum (l : list spec_float) (start : spec_float) : spec_float := fold_left fadd l start.

(** [mean] (base/numeric.hpp:236-248): the distance (ptrdiff_t) or the size (size_t) is converted to
    double; the two overloads do the same. *)
Definition fmean (l : list spec_float) (start : spec_float) : spec_float :=
  fdiv (fsum l start) (dbl (Z.of_nat (length l))).

(** The loop [result += square( *it - mu)] (base/numeric.hpp:264-265, 314-315). *)
Definition fsquares (mu : spec_float) (l : list spec_float) (start : spec_float) : spec_float :=
  fold_left (fun r x => fadd r (fsquare (fsub x mu))) l start.

(** [var] (base/numeric.hpp:257-274). *)
Definition fvar (l : list spec_float) (start : spec_float) : spec_float :=
  let mu := fmean l start in
  fdiv (fsquares mu l start) (dbl (Z.of_nat (length l) - 1)).

(** [sd] (base/numeric.hpp:284-296). *)
Definition fsd (l : list spec_float) (start : spec_float) : spec_float := fsqrt (fvar l start).

(** [meansd] (base/numeric.hpp:306-325). *)
Definition fmeansd (l : list spec_float) (start : spec_float) : spec_float * spec_float :=
  let mu := fmean l start in
  (mu, fsqrt (fdiv (fsquares mu l start) (dbl (Z.of_nat (length l) - 1)))).

(** *** integral element types *)

(** The type of [mean(first, last)]: the sum divided by a ptrdiff_t. *)
Definition mean_ty (t : ity) : ity := common_ty (promote t) i64.

(** [result += square( *it - mu)] for integers: the difference and the square are computed in the type of
    the mean, the sum in the common type, and converted back to the element type. *)
Definition isquare_step (t : ity) (mu acc x : Z) : outcome Z :=
  let tm := mean_ty t in
  let* d := arith tm (conv_ty tm x - mu) in
  let* s := arith tm (d * d) in
  let* a := arith (common_ty (promote t) tm) (conv_ty tm acc + s) in
  Ok (conv_ty t a).

(** [var] of integers (base/numeric.hpp:257-274). *)
Definition ivar (t : ity) (l : list Z) (start : Z) : outcome Z :=
  let* mu := mean_iter t l start in
  let* r := foldO (isquare_step t mu) l start in
  idiv t i64 r (Z.of_nat (length l) - 1).

(** [sd] of integers: [std::sqrt] of an integer converts it to double. *)
Definition isd (t : ity) (l : list Z) (start : Z) : outcome spec_float :=
  let* v := ivar t l start in Ok (fsqrt (dbl v)).
