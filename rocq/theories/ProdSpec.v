(** * ProdSpec: exact products over the reals. *)

From Coq Require Import ZArith List Reals Floats.SpecFloat.
From Verif Require Import Spec StatsSpec ReadNumSpec Random.
Import ListNotations.

(** Exact product. *)
Definition rprod (l : list R) : R := fold_right Rmult 1%R l.

(** The running products of [l] begun with [s], each rounded to a double: what has been computed before the element, and the element. *)
Inductive step_of (s : spec_float) : list spec_float -> spec_float -> spec_float -> Prop :=
| step_here x l : step_of s (x :: l) s x
| step_later y l a x : step_of (fmul s y) l a x -> step_of s (y :: l) a x.

(** No running product is so small that doubles of full precision do not reach it (zero is fine). *)
Definition no_underflow (s : spec_float) (l : list spec_float) : Prop :=
  forall a x, step_of s l a x -> dval a = 0%R \/ dval x = 0%R \/ (smallest_normal <= Rabs (dval a * dval x))%R.

(** Exact dot product of n terms, and the sum of the magnitudes of its terms. *)
Definition rdot (f g : Z -> R) (n : Z) : R := rsum (map (fun l => (f l * g l)%R) (iota n)).
Definition rdot_abs (f g : Z -> R) (n : Z) : R := rsum (map (fun l => Rabs (f l * g l)) (iota n)).

(** Sum of products of integers. *)
Definition zdot (f g : Z -> Z) (n : Z) : Z := fold_left (fun acc l => acc + f l * g l)%Z (iota n) 0%Z.
