(** * Reduce: model of the reductions and searches over ranges.  Definitions only.
    A range is the list of the values read through its iterators (how iteration of views and expressions works is
    in Desc, Slice and Expr); the range overloads forward to the iterator overloads unless stated. *)

From Coq Require Import ZArith List Bool.
From Verif Require Import Base Slice.
Import ListNotations.
Open Scope Z_scope.

Section Order.
Context {V : Type}.
Variable (lt : V -> V -> bool).   (* operator< of the element type; a > b is b < a for the modelled types *)

(** [max(first, last, start)] (base/numeric.hpp:78-92) *)
Fixpoint max_loop (l : list V) (start : V) : V :=
  match l with [] => start | x :: l' => max_loop l' (if lt start x then x else start) end.
(** [min(first, last, start)] (base/numeric.hpp:131-146) *)
Fixpoint min_loop (l : list V) (start : V) : V :=
  match l with [] => start | x :: l' => min_loop l' (if lt x start then x else start) end.
(** [which_max(first, last, start)] (base/numeric.hpp:101-122) *)
Fixpoint which_max_loop (l : list V) (start : V) (pos best : Z) : Z :=
  match l with
  | [] => best
  | x :: l' => if lt start x then which_max_loop l' x (w64 (pos + 1)) pos else which_max_loop l' start (w64 (pos + 1)) best
  end.
Definition which_max (l : list V) (start : V) : Z := which_max_loop l start 0 0.
(** [which_min(first, last, start)] (base/numeric.hpp:155-176) *)
Fixpoint which_min_loop (l : list V) (start : V) (pos best : Z) : Z :=
  match l with
  | [] => best
  | x :: l' => if lt x start then which_min_loop l' x (w64 (pos + 1)) pos else which_min_loop l' start (w64 (pos + 1)) best
  end.
Definition which_min (l : list V) (start : V) : Z := which_min_loop l start 0 0.
End Order.

(** *** integral element types *)
Record ity : Type := ITy { bits : Z; signed : bool }.
Definition ilo (t : ity) : Z := if signed t then - 2 ^ (bits t - 1) else 0.
Definition ihi (t : ity) : Z := if signed t then 2 ^ (bits t - 1) - 1 else 2 ^ bits t - 1.
Definition in_ty (t : ity) (x : Z) : bool := (ilo t <=? x) && (x <=? ihi t).
(** Conversion of any integer to [t] (modular; implementation defined before C++20 for signed [t]). *)
Definition conv_ty (t : ity) (x : Z) : Z := (x - ilo t) mod 2 ^ bits t + ilo t.
Definition i32 : ity := ITy 32 true.
(** The integral promotion: types narrower than [int] become [int]. *)
Definition promote (t : ity) : ity := if bits t <? 32 then i32 else t.
(** A result computed in type [t]: signed overflow is undefined, unsigned wraps. *)
Definition arith (t : ity) (x : Z) : outcome Z :=
  if signed t then (if in_ty t x then Ok x else UB) else Ok (conv_ty t x).
(** [start += x] and [start *= x] on type [t]: computed in the promoted type, converted back. *)
Definition iadd (t : ity) (a b : Z) : outcome Z := let* r := arith (promote t) (a + b) in Ok (conv_ty t r).
Definition imul (t : ity) (a b : Z) : outcome Z := let* r := arith (promote t) (a * b) in Ok (conv_ty t r).

(** [sum(first, last, start)] (base/numeric.hpp:214-228) *)
Definition isum (t : ity) (l : list Z) (start : Z) : outcome Z := foldO (iadd t) l start.
(** [prod(first, last, start)] (base/numeric.hpp:185-199) *)
Definition iprod (t : ity) (l : list Z) (start : Z) : outcome Z := foldO (imul t) l start.

(** *** mean *)
Definition i64 : ity := ITy 64 true.
Definition u64 : ity := ITy 64 false.
(** Usual arithmetic conversions of two promoted operands of at most 64 bits. *)
Definition common_ty (a b : ity) : ity :=
  if bits a =? bits b then (if signed a then b else a)
  else if bits a <? bits b then b else a.
(** [a / b] with operand types [ta], [tb]: division by zero and INT64_MIN / -1 are undefined. *)
Definition idiv (ta tb : ity) (a b : Z) : outcome Z :=
  let t := common_ty (promote ta) (promote tb) in
  let a' := conv_ty t a in let b' := conv_ty t b in
  if b' =? 0 then UB else arith t (Z.quot a' b').
(** [mean(first, last, start)]: the distance is a std::ptrdiff_t (base/numeric.hpp:236-241). *)
Definition mean_iter (t : ity) (l : list Z) (start : Z) : outcome Z :=
  let* s := isum t l start in idiv t i64 s (Z.of_nat (length l)).
(** [mean(rng, start)]: the size is a std::size_t (base/numeric.hpp:243-248). *)
Definition mean_rng (t : ity) (l : list Z) (start : Z) : outcome Z :=
  let* s := isum t l start in idiv t u64 s (Z.of_nat (length l)).

(** *** logical reductions; [b]: conversion of an element to bool *)
Section Logical.
Context {V : Type}.
Variable (b : V -> bool).
(** [count] (base/numeric.hpp:363-377) *)
Fixpoint count_loop (l : list V) (n : Z) : Z :=
  match l with [] => n | x :: l' => count_loop l' (if b x then w64 (n + 1) else n) end.
(** [which] (base/numeric.hpp:401-416) *)
Fixpoint which_loop (l : list V) (index : Z) (indexes : list Z) : list Z :=
  match l with [] => indexes | x :: l' => which_loop l' (w64 (index + 1)) (if b x then indexes ++ [index] else indexes) end.
(** [all] (base/numeric.hpp:424-437) *)
Fixpoint all_loop (l : list V) : bool := match l with [] => true | x :: l' => if negb (b x) then false else all_loop l' end.
(** [none] (base/numeric.hpp:445-458) *)
Fixpoint none_loop (l : list V) : bool := match l with [] => true | x :: l' => if b x then false else none_loop l' end.
(** [any] (base/numeric.hpp:466-479) *)
Fixpoint any_loop (l : list V) : bool := match l with [] => false | x :: l' => if b x then true else any_loop l' end.
End Logical.

(** *** nth (base/numeric.hpp:333-356): [nth_element] is a parameter, any function meeting its postcondition
    (see ReduceSpec); [values.begin() + n] past the end is undefined, [nth == last] makes [values[n]] undefined. *)
Definition nth_model {V : Type} (nth_element : list V -> nat -> list V) (l : list V) (n : nat) : outcome V :=
  match nth_error (nth_element l n) n with Some v => Ok v | None => UB end.

(** *** floating point values as they compare: a finite double is an integer multiple of 2^-1074 (the two zeros are one value). *)
Inductive num : Type := NaN | NInf | Fin (z : Z) | PInf.
Definition num_lt (a b : num) : bool :=
  match a, b with
  | NaN, _ | _, NaN => false
  | NInf, NInf => false | NInf, _ => true | _, NInf => false
  | PInf, _ => false | _, PInf => true
  | Fin x, Fin y => x <? y
  end.
