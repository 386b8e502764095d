(** * Iter: arithmetic with the iterators of arrays and views.  Model and specification.

    [it + n], [it - n], [it - other] of array/detail/iterator.hpp, with the standard library's [std::next], [std::prev], [std::distance] for the kind of the
    underlying iterator: pointers and the iterators of index lists are random access iterators, the ones of strided descriptors forward iterators
    (array/strided_descriptor.hpp:34, 205). *)

From Coq Require Import ZArith List Bool.
From Verif Require Import Base Spec Desc Slice SliceSpec Expr ExprSpec.
Import ListNotations.
Open Scope Z_scope.

(** [n] times [++]. *)
Fixpoint lit_steps (n : nat) (a : lit) : outcome lit :=
  match n with O => Ok a | S n' => let* a' := lit_next a in lit_steps n' a' end.

(** [it + n] (array/detail/iterator.hpp:59): [std::next]; for a forward iterator [n] increments, and undefined for negative [n].  [T*] for arrays.
    (Positions outside of the storage are not representable; only [0 .. size] is considered below.) *)
Definition lit_plus (a : lit) (n : Z) : outcome lit :=
  match a with
  | IPtr p => Ok (IPtr (p + n))
  | IVec off idx k => if (0 <=? k + n) && (k + n <=? Z.of_nat (length idx)) then Ok (IVec off idx (k + n)) else UB
  | IStr _ _ _ => if n <? 0 then UB else lit_steps (Z.to_nat n) a
  end.
(** [it - n] (array/detail/iterator.hpp:61): [std::prev]; undefined for a forward iterator and positive [n]. *)
Definition lit_minus (a : lit) (n : Z) : outcome lit := lit_plus a (- n).

(** Increments until [a] equals [b] ([std::distance] of forward iterators).  [fuel] bounds the tests. *)
Fixpoint lit_count (fuel : nat) (a b : lit) : outcome Z :=
  match fuel with
  | O => Timeout
  | S f => if lit_eqb a b then Ok 0 else let* a' := lit_next a in let* n := lit_count f a' b in Ok (n + 1)
  end.
(** [it - other] (array/detail/iterator.hpp:67): [std::distance(other.it_, it_)]. *)
Definition lit_diff (fuel : nat) (a b : lit) : outcome Z :=
  match a, b with
  | IPtr p, IPtr q => Ok (p - q)
  | IVec _ _ k, IVec _ _ l => Ok (k - l)
  | _, _ => lit_count fuel b a
  end.

(** ** specification *)
(** Iterators that can move in both directions: those of arrays, of contiguous views and of views by an index list. *)
Definition random_access (s : st) : Prop := match s with SRef _ _ | SView _ (MVec _ _) => True | _ => False end.
(** The iterator [begin + k]. *)
Definition at_index (s : st) (k : nat) (it : lit) : Prop := exists b e, leaf_range s = Ok (b, e) /\ lit_plus b (Z.of_nat k) = Ok it.
