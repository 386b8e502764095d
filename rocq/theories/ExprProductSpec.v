(** * ExprProductSpec: matrices given by expressions. *)

From Coq Require Import ZArith List Reals.
From Verif Require Import Base Spec Slice SliceSpec Expr ExprSpec StatsSpec.
Import ListNotations.
Open Scope Z_scope.

(** The expression [e] is well-formed, has r rows and c columns, and its element (i,j) is [A i j]. *)
Definition exp_matrix {V} (fuel : nat) (m : @mem V) (e : expr) (r c : Z) (A : Z -> Z -> V) : Prop :=
  expr_ok fuel m e [r; c] /\ forall i j, 0 <= i < r -> 0 <= j < c -> value fuel m e (Z.to_nat (i + r * j)) = Some (A i j).

(** Exact value of the sum of a(l) f(l) g(l), l = 0, ..., n-1, and the sum of the magnitudes. *)
Definition rdot3 (a : R) (f g : Z -> R) (n : Z) : R := rsum (map (fun l => (a * f l * g l)%R) (iota n)).
Definition rdot3_abs (a : R) (f g : Z -> R) (n : Z) : R := rsum (map (fun l => Rabs (a * f l * g l)) (iota n)).
Definition rabs_sum (f : Z -> R) (n : Z) : R := rsum (map (fun l => Rabs (f l)) (iota n)).
