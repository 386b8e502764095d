(** * Relative: model of slices whose extent is given relative to the size of a dimension (array/slicing/relative.hpp).  Definitions only. *)

From Coq Require Import ZArith List Bool.
From Verif Require Import Base Slice.
Import ListNotations.
Open Scope Z_scope.

(** [relative_index<F>] (array/slicing/relative.hpp:16-34): [size] (l.49), [r - v] (l.38-41), [r / v] (l.43-46) and
    [make_relative_index(g)] with a function of the caller's (l.36).  Simplification: a caller's [g] is a total function
    (an exception would terminate the program: l.23 is noexcept). *)
Inductive rindex : Type :=
| RSize
| RMinus (r : rindex) (v : Z)
| ROver (r : rindex) (v : Z)
| RMake (g : Z -> Z).

(** [relative_index::operator()(size)] (array/slicing/relative.hpp:23, 40, 45, 49), in [index_t] arithmetic; division by zero is undefined. *)
Fixpoint eval_index (r : rindex) (size : Z) : outcome Z :=
  match r with
  | RSize => Ok size
  | RMinus r v => let* x := eval_index r size in Ok (w64 (x - v))
  | ROver r v => let* x := eval_index r size in if v =? 0 then UB else Ok (x / v)
  | RMake g => Ok (w64 (g size))
  end.

(** [slice(start, relative_index)] and [slice(start, relative_index, stride)] (array/slicing/relative.hpp:51-80), or one of the
    subscripts that [operator[]] takes. *)
Inductive rslice : Type :=
| RelPlain (u : uarg)
| Rel (start : Z) (extent : rindex)
| RelS (start : Z) (extent : rindex) (stride : Z).

(** [eval(relative_slice, size)] and [eval(relative_strided_slice, size)] (array/slicing/relative.hpp:82-87): the subscript to pass to
    [operator[]]. *)
Definition eval_slice (r : rslice) (size : Z) : outcome uarg :=
  match r with
  | RelPlain u => Ok u
  | Rel s x => let* n := eval_index x size in Ok (USlice s n)
  | RelS s x t => let* n := eval_index x size in Ok (UStrided s n t)
  end.

(** The caller evaluates each slice with the extent of its dimension, [a[eval(s0, a.row_count())][eval(s1, a.column_count())]]. *)
Fixpoint eval_slices (rs : list rslice) (es : list Z) : outcome (list uarg) :=
  match rs, es with
  | r :: rs', e :: es' => let* u := eval_slice r e in let* us := eval_slices rs' es' in Ok (u :: us)
  | _, _ => Ok []
  end.
