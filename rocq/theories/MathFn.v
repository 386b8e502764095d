(** * MathFn: element-wise mathematical functions (base/math.hpp, array/math.hpp).  Definitions only. *)

From Coq Require Import ZArith List Bool Floats.SpecFloat.
From Verif Require Import Base Slice Expr Coerce Reduce Random Stats.
Import ListNotations.
Open Scope Z_scope.

(** [pi<double>] (base/math.hpp:11): the literal 3.1415926535897932385 read as a double. *)
Definition fpi : spec_float := S754_finite false 7074237752028440 (-51).

(** [abs] of a double (base/math.hpp:13): std::abs clears the sign. *)
Definition fabs (x : spec_float) : spec_float := SFabs x.

(** [abs] of an integer (base/math.hpp:13): std::abs of int, long or long long; narrower types are promoted to int.
    The negation of the least value is undefined.  (Unsigned types of 32 bits or more do not compile.) *)
Definition iabs (t : ity) (x : Z) : outcome Z := arith (promote t) (Z.abs x).

Section Pdf.
Variable fexp : spec_float -> spec_float.   (* std::exp(double) *)

(** [normal_pdf(x, mu, sigma)] of doubles (base/math.hpp:23-27). *)
Definition fpdf (x mu sigma : spec_float) : spec_float :=
  let sigma2 := fmul (dbl 2) (fsquare sigma) in
  fdiv (fexp (fdiv (SFopp (fsquare (fsub x mu))) sigma2)) (fsqrt (fmul sigma2 fpi)).

(** [normal_pdf(x, mu, sigma)] with an integral type (base/math.hpp:23-27): the argument of exp is computed with integer
    division, [pi<T>] is 3, and exp and sqrt of an integer convert it to double. *)
Definition ipdf (t : ity) (x mu sigma : Z) : outcome spec_float :=
  let p := promote t in                                     (* type of square(sigma), x - mu and square(x - mu) *)
  let c := common_ty i32 p in                               (* type of sigma2 *)
  let* s := arith p (sigma * sigma) in
  let* sigma2 := arith c (2 * conv_ty c s) in
  let* d := arith p (x - mu) in
  let* d2 := arith p (d * d) in
  let* n := arith p (- d2) in
  let* a := idiv p c n sigma2 in
  let* b := arith (common_ty c p) (conv_ty (common_ty c p) sigma2 * 3) in
  Ok (fdiv (fexp (dbl a)) (fsqrt (dbl b))).

(** [normal_pdf(array, mu, sigma)] (array/math.hpp:14-18): [apply] with the function of one element. *)
Definition a_pdf (e : @expr spec_float) (mu sigma : spec_float) : @expr spec_float := EUn (fun x => fpdf x mu sigma) e.
End Pdf.

(** [abs(array)], [sqrt(array)], [log(array)], [sin(array)], [cos(array)], [tanh(array)] (array/math.hpp:20-48): [apply] with
    the function of one element. *)
Definition a_fun (f : spec_float -> spec_float) (e : @expr spec_float) : @expr spec_float := EUn f e.
