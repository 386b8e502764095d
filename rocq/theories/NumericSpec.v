(** * NumericSpec: mathematical meaning of sequences, products and concatenation. *)

From Coq Require Import ZArith List Bool.
From Verif Require Import Base Spec Slice SliceSpec Expr ExprSpec Numeric.
Import ListNotations.
Open Scope Z_scope.

(** [v] belongs to the arithmetic progression start, start+step, ... that does not go beyond [stop]. *)
Definition in_progression (start stop step v : Z) : Prop :=
  exists k, 0 <= k /\ v = start + k * step /\ (0 < step -> v <= stop) /\ (step < 0 -> stop <= v).

(** [stop] can be approached from [start] with [step]. *)
Definition reachable_stop (start stop step : Z) : Prop := (start <= stop /\ 0 < step) \/ (stop <= start /\ step < 0).

Section NumericSpec.
Context {V : Type}.

(** Sum of the products f(l)*g(l) for l = 0, ..., n-1, in that order. *)
Definition dot_sum (zero : V) (add mul : V -> V -> V) (f g : Z -> V) (n : Z) : V :=
  fold_left (fun acc l => add acc (mul (f l) (g l))) (iota n) zero.

(** The view [v] of storage [sid] is the matrix [A]. *)
Definition is_matrix (m : @mem V) (sid : nat) (v : aview) (r c : Z) (A : Z -> Z -> V) : Prop :=
  fst v = [r; c] /\ forall i j, 0 <= i < r -> 0 <= j < c -> cell m sid (aview_at v [i; j]) = Some (A i j).

(** Entry (i,j) of the two-dimensional view [v] of storage contents [c] (zero is only a default for positions that do not exist). *)
Definition entry (zero : V) (c : list V) (v : aview) (i j : Z) : V := nth (Z.to_nat (aview_at v [i; j])) c zero.

(** The list holds, in column-major order, the r x c matrix C. *)
Definition lists_matrix (vs : list V) (r c : Z) (C : Z -> Z -> V) : Prop :=
  Z.of_nat (length vs) = r * c /\ forall i j, 0 <= i < r -> 0 <= j < c -> nth_error vs (Z.to_nat (i + r * j)) = Some (C i j).

(** Elements contributed by one argument of [cat]. *)
Definition cat_elems (a : cat_arg) : list V := match a with CVal v => [v] | CRng vs => vs end.

End NumericSpec.
