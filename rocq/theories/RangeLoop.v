(** * RangeLoop: the algorithms of base/numeric.hpp run on the iterators of arrays, views and expressions.  Definitions only.

    Reduce.v and Stats.v model the algorithms on the list of the values of a range; here the loops compare, dereference and
    advance the iterators of Expr.v.  The expression objects live until the algorithm returns (they are temporaries of the
    same full expression, bound to a reference).  An algorithm that dereferences an iterator twice (max, min: base/numeric.hpp:82-83,
    136-137) does so once here, and its log of reads is not kept: between the two reads nothing changes. *)

From Coq Require Import ZArith List Bool Floats.SpecFloat.
From Verif Require Import Base Desc Slice Coerce Random Expr Reduce Stats Freq.
Import ListNotations.
Open Scope Z_scope.

(** An iteration goes on with a new state or returns. *)
Inductive step (S R : Type) : Type := Go (s : S) | Ret (r : R).
Arguments Go {S R}. Arguments Ret {S R}.

Section Loop.
Context {V : Type}.
Notation mem := (@mem V).
Notation expr := (@expr V).
Notation heap := (@heap V).

(** [for (; first != last; ++first) body( *first)] then [return fin] (base/numeric.hpp:81-84 and the other loops of that file);
    the log has the storage cells read for each element evaluated. *)
Fixpoint for_loop {S R} (body : S -> V -> outcome (step S R)) (fin : S -> R) (fuel : nat) (h : heap) (m : mem) (first last : xit) (s : S)
  : outcome (R * list (list (nat * Z))) :=
  match fuel with
  | O => Timeout
  | Datatypes.S f =>
      if xeqb first last then Ok (fin s, [])
      else
        let* v := xderef h m first in
        let* r := body s (fst v) in
        match r with
        | Ret x => Ok (x, [snd v])
        | Go s' =>
            let* first' := xnext first in
            let* q := for_loop body fin f h m first' last s' in
            Ok (fst q, snd v :: snd q)
        end
  end.

(** [ranges::distance(first, last)] of iterators that only advance. *)
Fixpoint distance (fuel : nat) (first last : xit) : outcome Z :=
  match fuel with
  | O => Timeout
  | S f => if xeqb first last then Ok 0 else let* first' := xnext first in let* n := distance f first' last in Ok (n + 1)
  end.

Definition goes {S} (f : S -> V -> S) (s : S) (v : V) : outcome (step S S) := Ok (Go (f s v)).
Definition goesO {S} (f : S -> V -> outcome S) (s : S) (v : V) : outcome (step S S) := let* s' := f s v in Ok (Go s').

(** The range overloads: [begin(rng)], [end(rng)] of the array, view or expression [e]. *)
Definition ranged {R} (chk : bool) (e : expr) (k : heap -> src -> outcome R) : outcome R :=
  let* r := build chk e [] in k (snd r) (fst r).

Section Order.
Variable (lt : V -> V -> bool).
(** base/numeric.hpp:78-92 *)
Definition r_max (chk : bool) (fuel : nat) (m : mem) (e : expr) (start : V) : outcome V :=
  ranged chk e (fun h s => let* r := for_loop (goes (fun st v => if lt st v then v else st)) (fun st => st) fuel h m (sbeg s) (send s) start in Ok (fst r)).
(** base/numeric.hpp:131-146 *)
Definition r_min (chk : bool) (fuel : nat) (m : mem) (e : expr) (start : V) : outcome V :=
  ranged chk e (fun h s => let* r := for_loop (goes (fun st v => if lt v st then v else st)) (fun st => st) fuel h m (sbeg s) (send s) start in Ok (fst r)).
(** base/numeric.hpp:101-122; the state: start, pos, best_pos. *)
Definition r_which_max (chk : bool) (fuel : nat) (m : mem) (e : expr) (start : V) : outcome Z :=
  ranged chk e (fun h s => let* r := for_loop (fun '(st, pos, best) v => Ok (Go (if lt st v then (v, w64 (pos + 1), pos) else (st, w64 (pos + 1), best))))
    (fun '(_, _, best) => best) fuel h m (sbeg s) (send s) (start, 0, 0) in Ok (fst r)).
(** base/numeric.hpp:155-176 *)
Definition r_which_min (chk : bool) (fuel : nat) (m : mem) (e : expr) (start : V) : outcome Z :=
  ranged chk e (fun h s => let* r := for_loop (fun '(st, pos, best) v => Ok (Go (if lt v st then (v, w64 (pos + 1), pos) else (st, w64 (pos + 1), best))))
    (fun '(_, _, best) => best) fuel h m (sbeg s) (send s) (start, 0, 0) in Ok (fst r)).
(** base/numeric.hpp:333-356: the values are copied to a vector first. *)
Definition r_nth (nth_element : list V -> nat -> list V) (chk : bool) (fuel : nat) (m : mem) (e : expr) (n : nat) : outcome V :=
  ranged chk e (fun h s =>
    let* values := for_loop (goes (fun l v => l ++ [v])) (fun l => l) fuel h m (sbeg s) (send s) [] in nth_model nth_element (fst values) n).
End Order.

Section Logical.
Variable (b : V -> bool).
(** base/numeric.hpp:363-377 *)
Definition r_count (chk : bool) (fuel : nat) (m : mem) (e : expr) : outcome (Z * list (list (nat * Z))) :=
  ranged chk e (fun h s => for_loop (goes (fun n v => if b v then w64 (n + 1) else n)) (fun n => n) fuel h m (sbeg s) (send s) 0).
(** base/numeric.hpp:401-416; the state: index, indexes.  The iterator is advanced before the index is. *)
Definition r_which (chk : bool) (fuel : nat) (m : mem) (e : expr) : outcome (list Z * list (list (nat * Z))) :=
  ranged chk e (fun h s => for_loop (fun '(index, l) v => Ok (Go (w64 (index + 1), if b v then l ++ [index] else l))) (fun '(_, l) => l)
    fuel h m (sbeg s) (send s) (0, [])).
(** base/numeric.hpp:424-437 *)
Definition r_all (chk : bool) (fuel : nat) (m : mem) (e : expr) : outcome (bool * list (list (nat * Z))) :=
  ranged chk e (fun h s => for_loop (fun (_ : unit) v => Ok (if negb (b v) then Ret false else Go tt)) (fun _ => true) fuel h m (sbeg s) (send s) tt).
(** base/numeric.hpp:445-458 *)
Definition r_none (chk : bool) (fuel : nat) (m : mem) (e : expr) : outcome (bool * list (list (nat * Z))) :=
  ranged chk e (fun h s => for_loop (fun (_ : unit) v => Ok (if b v then Ret false else Go tt)) (fun _ => true) fuel h m (sbeg s) (send s) tt).
(** base/numeric.hpp:466-479 *)
Definition r_any (chk : bool) (fuel : nat) (m : mem) (e : expr) : outcome (bool * list (list (nat * Z))) :=
  ranged chk e (fun h s => for_loop (fun (_ : unit) v => Ok (if b v then Ret true else Go tt)) (fun _ => false) fuel h m (sbeg s) (send s) tt).
(** base/numeric.hpp:384-394: [count(rng) / size(rng)]; the size is the product of the extents (array/expr_array.hpp:32,
    array/ref_array.hpp:172, array/strided_ref_array.hpp:170). *)
Definition r_freq (chk : bool) (fuel : nat) (m : mem) (e : expr) : outcome spec_float :=
  let* c := r_count chk fuel m e in ranged chk e (fun h s => Ok (fdiv (dbl (fst c)) (dbl (prod_arr (sdim s))))).
End Logical.
End Loop.

(** *** integral elements *)
(** base/numeric.hpp:214-228 *)
Definition r_isum (t : ity) (chk : bool) (fuel : nat) (m : mem) (e : expr) (start : Z) : outcome (Z * list (list (nat * Z))) :=
  ranged chk e (fun h s => for_loop (goesO (iadd t)) (fun st => st) fuel h m (sbeg s) (send s) start).
(** base/numeric.hpp:185-199 *)
Definition r_iprod (t : ity) (chk : bool) (fuel : nat) (m : mem) (e : expr) (start : Z) : outcome (Z * list (list (nat * Z))) :=
  ranged chk e (fun h s => for_loop (goesO (imul t)) (fun st => st) fuel h m (sbeg s) (send s) start).
(** base/numeric.hpp:236-241, the iterator overload on [begin(e)], [end(e)] *)
Definition it_imean (t : ity) (fuel : nat) (h : heap) (m : mem) (first last : xit) (start : Z) : outcome Z :=
  let* a := for_loop (goesO (iadd t)) (fun st => st) fuel h m first last start in
  let* n := distance fuel first last in idiv t i64 (fst a) n.
Definition r_imean_iter (t : ity) (chk : bool) (fuel : nat) (m : mem) (e : expr) (start : Z) : outcome Z :=
  ranged chk e (fun h s => it_imean t fuel h m (sbeg s) (send s) start).
(** base/numeric.hpp:243-248, the range overload *)
Definition r_imean (t : ity) (chk : bool) (fuel : nat) (m : mem) (e : expr) (start : Z) : outcome Z :=
  ranged chk e (fun h s =>
    let* a := for_loop (goesO (iadd t)) (fun st => st) fuel h m (sbeg s) (send s) start in idiv t u64 (fst a) (prod_arr (sdim s))).
(** base/numeric.hpp:257-274 *)
Definition r_ivar (t : ity) (chk : bool) (fuel : nat) (m : mem) (e : expr) (start : Z) : outcome Z :=
  ranged chk e (fun h s =>
    let* n := distance fuel (sbeg s) (send s) in
    let* mu := it_imean t fuel h m (sbeg s) (send s) start in
    let* r := for_loop (goesO (isquare_step t mu)) (fun st => st) fuel h m (sbeg s) (send s) start in idiv t i64 (fst r) (n - 1)).

(** *** doubles *)
(** base/numeric.hpp:214-228 *)
Definition r_fsum (chk : bool) (fuel : nat) (m : mem) (e : expr) (start : spec_float) : outcome (spec_float * list (list (nat * Z))) :=
  ranged chk e (fun h s => for_loop (goes fadd) (fun st => st) fuel h m (sbeg s) (send s) start).
(** base/numeric.hpp:236-241 *)
Definition it_fmean (fuel : nat) (h : heap) (m : mem) (first last : xit) (start : spec_float) : outcome spec_float :=
  let* a := for_loop (goes fadd) (fun st => st) fuel h m first last start in
  let* n := distance fuel first last in Ok (fdiv (fst a) (dbl n)).
Definition r_fmean_iter (chk : bool) (fuel : nat) (m : mem) (e : expr) (start : spec_float) : outcome spec_float :=
  ranged chk e (fun h s => it_fmean fuel h m (sbeg s) (send s) start).
(** base/numeric.hpp:243-248 *)
Definition r_fmean (chk : bool) (fuel : nat) (m : mem) (e : expr) (start : spec_float) : outcome spec_float :=
  ranged chk e (fun h s =>
    let* a := for_loop (goes fadd) (fun st => st) fuel h m (sbeg s) (send s) start in Ok (fdiv (fst a) (dbl (prod_arr (sdim s))))).
(** base/numeric.hpp:257-274 *)
Definition r_fvar (chk : bool) (fuel : nat) (m : mem) (e : expr) (start : spec_float) : outcome spec_float :=
  ranged chk e (fun h s =>
    let* n := distance fuel (sbeg s) (send s) in
    let* mu := it_fmean fuel h m (sbeg s) (send s) start in
    let* r := for_loop (goes (fun r x => fadd r (fsquare (fsub x mu)))) (fun st => st) fuel h m (sbeg s) (send s) start in
    Ok (fdiv (fst r) (dbl (n - 1)))).
(** base/numeric.hpp:284-296 *)
Definition r_fsd (chk : bool) (fuel : nat) (m : mem) (e : expr) (start : spec_float) : outcome spec_float :=
  let* v := r_fvar chk fuel m e start in Ok (fsqrt v).
(** base/numeric.hpp:306-325 *)
Definition r_fmeansd (chk : bool) (fuel : nat) (m : mem) (e : expr) (start : spec_float) : outcome (spec_float * spec_float) :=
  ranged chk e (fun h s =>
    let* n := distance fuel (sbeg s) (send s) in
    let* mu := it_fmean fuel h m (sbeg s) (send s) start in
    let* r := for_loop (goes (fun r x => fadd r (fsquare (fsub x mu)))) (fun st => st) fuel h m (sbeg s) (send s) start in
    Ok (mu, fsqrt (fdiv (fst r) (dbl (n - 1))))).
