(** * Prod: products of doubles (base/numeric.hpp).  Definitions only. *)

From Coq Require Import ZArith List Bool Floats.SpecFloat.
From Verif Require Import Base Slice Expr Coerce Reduce Random Stats RangeLoop.
Import ListNotations.
Open Scope Z_scope.

(** [numeric_traits<double>::multiplicative_identity()] (core/type.hpp:251). *)
Definition fone : spec_float := dbl 1.

(** [prod(first, last, start)] (base/numeric.hpp:185-199): [start *= *first]. *)
Definition fprod (l : list spec_float) (start : spec_float) : spec_float := fold_left fmul l start.

(** The same loop on the iterators of an array, a view or an expression (base/numeric.hpp:185-199). *)
Definition r_fprod (chk : bool) (fuel : nat) (m : mem) (e : expr) (start : spec_float) : outcome (spec_float * list (list (nat * Z))) :=
  ranged chk e (fun h s => for_loop (goes fmul) (fun st => st) fuel h m (sbeg s) (send s) start).
