(** * RangeLoopSpec: what an algorithm applied to an array, view or expression should see. *)

From Coq Require Import ZArith List Bool.
From Verif Require Import Base Spec Desc Slice SliceSpec Expr ExprSpec.
Import ListNotations.
Open Scope Z_scope.

(** [vs]: the elements of the expression, column-major. *)
Definition elements {V} (fuel : nat) (m : @mem V) (e : @expr V) (es : list Z) (vs : list V) : Prop :=
  Z.of_nat (length vs) = zprod es /\ forall k, (k < length vs)%nat -> nth_error vs k = value fuel m e k.

(** [j]: the position of the first element of [l] for which [p] holds, the length of [l] if there is none. *)
Definition first_where {V} (p : V -> bool) (l : list V) (j : nat) : Prop :=
  (forall i x, (i < j)%nat -> nth_error l i = Some x -> p x = false) /\
  ((j = length l) \/ exists x, nth_error l j = Some x /\ p x = true).
