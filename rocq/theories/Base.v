(** * Base: machine integers, outcomes, checked/unchecked builds.

    [index_t] is [std::size_t] (include/jules/core/type.hpp:57), 64 bits on the
    targets considered; [distance_t] is [std::ptrdiff_t] (type.hpp:69). *)

From Coq Require Import ZArith List Bool.
Import ListNotations.
Open Scope Z_scope.

(** 2^64, the modulus of [index_t] arithmetic (type.hpp:57). *)
Definition W : Z := 2 ^ 64.

(** Conversion of an integer to [index_t]: reduction modulo 2^64 (type.hpp:57;
    unsigned arithmetic of C++ is modular). *)
Definition w64 (x : Z) : Z := x mod W.

(** Conversion to [distance_t] (type.hpp:69), two's complement. *)
Definition s64 (x : Z) : Z := (x + 2 ^ 63) mod W - 2 ^ 63.

(** Conversion to [uinteger] = unsigned (type.hpp:53) and [integer] = int (type.hpp:65). *)
Definition w32 (x : Z) : Z := x mod 2 ^ 32.
Definition s32 (x : Z) : Z := (x + 2 ^ 31) mod 2 ^ 32 - 2 ^ 31.

(** Exceptions that can leave the library (the kinds used by /repo). *)
Inductive exn : Set :=
| LogicError | OutOfRange | InvalidArgument | BadCast | BadAlloc | ElemExn | RuntimeError.

(** Result of running a piece of code.  [Abort] is a failed [DEBUG_ASSERT] of
    [debug::default_module] (core/debug.hpp:20-70); [UB] is undefined behaviour;
    [Timeout] means the fuel given to a loop of the model was too small. *)
Inductive outcome (A : Type) : Type :=
| Ok (a : A)
| Throw (e : exn)
| Abort
| UB
| Timeout.
Arguments Ok {A} _. Arguments Throw {A} _. Arguments Abort {A}. Arguments UB {A}. Arguments Timeout {A}.

Definition bindO {A B} (x : outcome A) (f : A -> outcome B) : outcome B :=
  match x with
  | Ok a => f a | Throw e => Throw e | Abort => Abort | UB => UB | Timeout => Timeout
  end.
Notation "'let*' x := e1 'in' e2" := (bindO e1 (fun x => e2))
  (at level 61, x pattern, e1 at next level, right associativity).

(** [DEBUG_ASSERT(c, default_module, ...)] (core/debug.hpp:20-70): checked when [chk],
    compiled out (NDEBUG) otherwise. *)
Definition dassert (chk c : bool) : outcome unit :=
  if chk && negb c then Abort else Ok tt.

(** Sequencing a list of computations (range-for loops that push into a vector). *)
Fixpoint mapO {A B} (f : A -> outcome B) (l : list A) : outcome (list B) :=
  match l with
  | [] => Ok []
  | a :: l' => let* b := f a in let* r := mapO f l' in Ok (b :: r)
  end.

(** Pointer/vector element access [v[i]]: outside the range it is undefined. *)
Definition get {A} (l : list A) (i : Z) : outcome A :=
  if (0 <=? i) && (i <? Z.of_nat (length l))
  then match nth_error l (Z.to_nat i) with Some a => Ok a | None => UB end
  else UB.

(** Writing element [i] of a storage; undefined outside the range. *)
Fixpoint upd_nat {A} (l : list A) (i : nat) (v : A) : list A :=
  match l, i with
  | [], _ => []
  | _ :: l', O => v :: l'
  | a :: l', S i' => a :: upd_nat l' i' v
  end.
Definition put {A} (l : list A) (i : Z) (v : A) : outcome (list A) :=
  if (0 <=? i) && (i <? Z.of_nat (length l)) then Ok (upd_nat l (Z.to_nat i) v) else UB.
