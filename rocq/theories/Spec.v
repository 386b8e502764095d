(** * Spec: the vocabulary in which the properties are stated.

    Nothing here is taken from the code: these are the mathematical notions the English properties use.  *)

From Coq Require Import ZArith List.
Import ListNotations.
Open Scope Z_scope.

(** The integers 0, 1, ..., n-1. *)
Definition iota (n : Z) : list Z := map Z.of_nat (seq 0 (Z.to_nat n)).

(** Mathematical product of the extents: the number of elements. *)
Definition zprod (es : list Z) : Z := fold_right Z.mul 1 es.

(** Every extent is positive. *)
Definition all_pos (es : list Z) : Prop := Forall (fun e => 0 < e) es.
Definition all_nonneg (es : list Z) : Prop := Forall (fun e => 0 <= e) es.

(** [ix] is an index tuple of an array with extents [es]. *)
Definition in_range (es ix : list Z) : Prop := Forall2 (fun e i => 0 <= i < e) es ix.

(** The index tuples selected by one list of indices per dimension, in column-major order
    (the first dimension varies fastest). *)
Fixpoint cart (sels : list (list Z)) : list (list Z) :=
  match sels with
  | [] => [[]]
  | s :: rest => flat_map (fun tl => map (fun i => i :: tl) s) (cart rest)
  end.

(** All index tuples of an array with extents [es] in column-major order. *)
Definition colmajor (es : list Z) : list (list Z) := cart (map iota es).

(** Position of an index tuple in column-major order: i0 + e0*(i1 + e1*(i2 + ...)). *)
Fixpoint cm_pos (es ix : list Z) : Z :=
  match es, ix with
  | e :: es', i :: ix' => i + e * cm_pos es' ix'
  | _, _ => 0
  end.
