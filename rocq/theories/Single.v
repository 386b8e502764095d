(** * Single: sources that can be read only once.  Definitions only.

    The iterator overloads of base/numeric.hpp and array's constructors from iterators accept every iterator with a sentinel, also
    std::istream_iterator: all its copies read from one stream.  A generating function (array(generated, f, dims...)) has a state, too. *)

From Coq Require Import ZArith List Bool Floats.SpecFloat.
From Verif Require Import Base Desc Slice Coerce Random Reduce Stats Freq RangeLoop.
Import ListNotations.
Open Scope Z_scope.

(** *** iterators of an input stream *)
Section Iterators.
Context {A : Type}.
(** The stream: the values that [is >> x] delivers before it fails.  (How characters become values is not modelled.) *)
Definition input : Type := list A.
(** [std::istream_iterator<A>] (libstdc++ 13, bits/stream_iterator.h:64-190): the value read last; [None]: end of stream. *)
Definition sit : Type := option A.
(** The constructor and the increment extract the next value from the stream (_M_read). *)
Definition sit_read (s : input) : sit * input := match s with [] => (None, []) | x :: s' => (Some x, s') end.
Definition sit_make (s : input) : sit * input := sit_read s.
(** [++it], [it++] *)
Definition sit_inc (i : sit) (s : input) : outcome (sit * input) := match i with None => UB | Some _ => Ok (sit_read s) end.
(** [*it] *)
Definition sit_get (i : sit) : outcome A := match i with None => UB | Some x => Ok x end.

(** [for (; first != last; ++first) body( *first)] then [return fin] (the loops of base/numeric.hpp, as RangeLoop.for_loop), [last] the
    iterator that marks the end.  [first] is a copy: the caller's iterator keeps its value, the stream does not. *)
Fixpoint each {S R} (body : S -> A -> outcome (step S R)) (fin : S -> R) (fuel : nat) (i : sit) (s : input) (st : S) : outcome (R * input) :=
  match i with
  | None => Ok (fin st, s)
  | Some _ =>
      match fuel with
      | O => Timeout
      | Datatypes.S f =>
          let* x := sit_get i in
          let* r := body st x in
          match r with
          | Ret y => Ok (y, s)
          | Go st' => let* n := sit_inc i s in each body fin f (fst n) (snd n) st'
          end
      end
  end.
(** [ranges::distance(first, last)] counts the increments. *)
Definition s_distance (fuel : nat) (i : sit) (s : input) : outcome (Z * input) := each (goes (fun n _ => n + 1)) (fun n => n) fuel i s 0.

(** The algorithms with one loop; a call creates the iterators [std::istream_iterator<A>(is)], [std::istream_iterator<A>()]. *)
Definition of_stream {R} (s : input) (k : sit -> input -> outcome R) : outcome R := let (i, s') := sit_make s in k i s'.

Section Order.
Variable (lt : A -> A -> bool).
(** base/numeric.hpp:78-84 *)
Definition s_max (fuel : nat) (s : input) (start : A) : outcome (A * input) :=
  of_stream s (fun i s => each (goes (fun st v => if lt st v then v else st)) (fun st => st) fuel i s start).
(** base/numeric.hpp:131-139 *)
Definition s_min (fuel : nat) (s : input) (start : A) : outcome (A * input) :=
  of_stream s (fun i s => each (goes (fun st v => if lt v st then v else st)) (fun st => st) fuel i s start).
(** base/numeric.hpp:101-114 *)
Definition s_which_max (fuel : nat) (s : input) (start : A) : outcome (Z * input) :=
  of_stream s (fun i s => each (fun '(st, pos, best) v => Ok (Go (if lt st v then (v, w64 (pos + 1), pos) else (st, w64 (pos + 1), best))))
    (fun '(_, _, best) => best) fuel i s (start, 0, 0)).
(** base/numeric.hpp:155-168 *)
Definition s_which_min (fuel : nat) (s : input) (start : A) : outcome (Z * input) :=
  of_stream s (fun i s => each (fun '(st, pos, best) v => Ok (Go (if lt v st then (v, w64 (pos + 1), pos) else (st, w64 (pos + 1), best))))
    (fun '(_, _, best) => best) fuel i s (start, 0, 0)).
End Order.

(** base/numeric.hpp:333-343: [reserve(distance(first, last))], then [copy(first, last, ...)]. *)
Definition s_nth (nth_element : list A -> nat -> list A) (fuel : nat) (s : input) (n : nat) : outcome A :=
  of_stream s (fun i s =>
    let* d := s_distance fuel i s in
    let* values := each (goes (fun l v => l ++ [v])) (fun l => l) fuel i (snd d) [] in nth_model nth_element (fst values) n).

Section Logical.
Variable (b : A -> bool).
Definition it_count (fuel : nat) (i : sit) (s : input) : outcome (Z * input) :=
  each (goes (fun n v => if b v then w64 (n + 1) else n)) (fun n => n) fuel i s 0.
(** base/numeric.hpp:363-371 *)
Definition s_count (fuel : nat) (s : input) : outcome (Z * input) := of_stream s (it_count fuel).
(** base/numeric.hpp:401-410 *)
Definition s_which (fuel : nat) (s : input) : outcome (list Z * input) :=
  of_stream s (fun i s => each (fun '(index, l) v => Ok (Go (w64 (index + 1), if b v then l ++ [index] else l))) (fun '(_, l) => l) fuel i s (0, [])).
(** base/numeric.hpp:424-431 *)
Definition s_all (fuel : nat) (s : input) : outcome (bool * input) :=
  of_stream s (fun i s => each (fun (_ : unit) v => Ok (if negb (b v) then Ret false else Go tt)) (fun _ => true) fuel i s tt).
(** base/numeric.hpp:445-452 *)
Definition s_none (fuel : nat) (s : input) : outcome (bool * input) :=
  of_stream s (fun i s => each (fun (_ : unit) v => Ok (if b v then Ret false else Go tt)) (fun _ => true) fuel i s tt).
(** base/numeric.hpp:466-473 *)
Definition s_any (fuel : nat) (s : input) : outcome (bool * input) :=
  of_stream s (fun i s => each (fun (_ : unit) v => Ok (if b v then Ret true else Go tt)) (fun _ => false) fuel i s tt).
(** base/numeric.hpp:384-388: [count(first, last) / distance(first, last)]; which operand is evaluated first is not specified
    ([cnt_first]). *)
Definition s_freq (cnt_first : bool) (fuel : nat) (s : input) : outcome spec_float :=
  of_stream s (fun i s =>
    if cnt_first then let* c := it_count fuel i s in let* d := s_distance fuel i (snd c) in Ok (fdiv (dbl (fst c)) (dbl (fst d)))
    else let* d := s_distance fuel i s in let* c := it_count fuel i (snd d) in Ok (fdiv (dbl (fst c)) (dbl (fst d)))).
End Logical.

(** *** arrays *)
(** [std::uninitialized_copy_n(from, size, to)] with an input iterator (array/allocator.hpp:43; libstdc++ 13, bits/stl_uninitialized.h:
    [for (; n > 0; --n, ++first, ++cur) construct(cur, *first)]). *)
Fixpoint s_copy_n (n : nat) (i : sit) (s : input) : outcome (list A * input) :=
  match n with
  | O => Ok ([], s)
  | S n' =>
      let* x := sit_get i in
      let* j := sit_inc i s in
      let* r := s_copy_n n' (fst j) (snd j) in
      Ok (x :: fst r, snd r)
  end.
(** [array(it, dims...)] (array/array.hpp:158-167): the elements in the order of storage.  The storage is obtained, and the dimensions
    multiplied without overflow (C15). *)
Definition s_array (es : list Z) (s : input) : outcome (list A * input) :=
  of_stream s (fun i s => s_copy_n (Z.to_nat (desc_size es)) i s).
(** [array(begin, end)] of one dimension (array/array.hpp:251-265): the storage is for [distance(begin, end)] elements, the extent is
    [distance(begin, end)], evaluated again.  The elements; their number is the extent. *)
Definition s_vector (fuel : nat) (s : input) : outcome (list A * input) :=
  of_stream s (fun i s =>
    let* room := s_distance fuel i s in
    let* n := s_distance fuel i (snd room) in
    if fst room <? fst n then UB else s_copy_n (Z.to_nat (fst n)) i (snd n)).
End Iterators.

(** *** integral elements *)
(** base/numeric.hpp:214-221 *)
Definition it_isum (t : ity) (fuel : nat) (i : sit) (s : input) (start : Z) : outcome (Z * input) := each (goesO (iadd t)) (fun st => st) fuel i s start.
Definition s_isum (t : ity) (fuel : nat) (s : input) (start : Z) : outcome (Z * input) := of_stream s (fun i s => it_isum t fuel i s start).
(** base/numeric.hpp:185-192 *)
Definition s_iprod (t : ity) (fuel : nat) (s : input) (start : Z) : outcome (Z * input) :=
  of_stream s (fun i s => each (goesO (imul t)) (fun st => st) fuel i s start).
(** base/numeric.hpp:236-241: [sum(first, last) / distance(first, last)], in either order. *)
Definition it_smean (sum_first : bool) (t : ity) (fuel : nat) (i : sit) (s : input) (start : Z) : outcome (Z * input) :=
  if sum_first then
    let* a := it_isum t fuel i s start in let* n := s_distance fuel i (snd a) in let* q := idiv t i64 (fst a) (fst n) in Ok (q, snd n)
  else
    let* n := s_distance fuel i s in let* a := it_isum t fuel i (snd n) start in let* q := idiv t i64 (fst a) (fst n) in Ok (q, snd a).
Definition s_imean (sum_first : bool) (t : ity) (fuel : nat) (s : input) (start : Z) : outcome (Z * input) :=
  of_stream s (fun i s => it_smean sum_first t fuel i s start).
(** base/numeric.hpp:257-267 *)
Definition s_ivar (sum_first : bool) (t : ity) (fuel : nat) (s : input) (start : Z) : outcome Z :=
  of_stream s (fun i s =>
    let* n := s_distance fuel i s in
    let* mu := it_smean sum_first t fuel i (snd n) start in
    let* r := each (goesO (isquare_step t (fst mu))) (fun st => st) fuel i (snd mu) start in idiv t i64 (fst r) (fst n - 1)).

(** *** doubles *)
(** base/numeric.hpp:214-221 *)
Definition it_fsum (fuel : nat) (i : sit) (s : input) (start : spec_float) : outcome (spec_float * input) := each (goes fadd) (fun st => st) fuel i s start.
Definition s_fsum (fuel : nat) (s : input) (start : spec_float) : outcome (spec_float * input) := of_stream s (fun i s => it_fsum fuel i s start).
(** base/numeric.hpp:185-192 *)
Definition s_fprod (fuel : nat) (s : input) (start : spec_float) : outcome (spec_float * input) :=
  of_stream s (fun i s => each (goes fmul) (fun st => st) fuel i s start).
(** base/numeric.hpp:236-241 *)
Definition it_sfmean (sum_first : bool) (fuel : nat) (i : sit) (s : input) (start : spec_float) : outcome (spec_float * input) :=
  if sum_first then let* a := it_fsum fuel i s start in let* n := s_distance fuel i (snd a) in Ok (fdiv (fst a) (dbl (fst n)), snd n)
  else let* n := s_distance fuel i s in let* a := it_fsum fuel i (snd n) start in Ok (fdiv (fst a) (dbl (fst n)), snd a).
Definition s_fmean (sum_first : bool) (fuel : nat) (s : input) (start : spec_float) : outcome (spec_float * input) :=
  of_stream s (fun i s => it_sfmean sum_first fuel i s start).
(** The mean and the sum of squares over the number of values less one (base/numeric.hpp:257-267, var; 306-318, meansd). *)
Definition s_moments (sum_first : bool) (fuel : nat) (s : input) (start : spec_float) : outcome (spec_float * spec_float) :=
  of_stream s (fun i s =>
    let* n := s_distance fuel i s in
    let* mu := it_sfmean sum_first fuel i (snd n) start in
    let* r := each (goes (fun r x => fadd r (fsquare (fsub x (fst mu))))) (fun st => st) fuel i (snd mu) start in
    Ok (fst mu, fdiv (fst r) (dbl (fst n - 1)))).
(** base/numeric.hpp:257-267 *)
Definition s_fvar (sum_first : bool) (fuel : nat) (s : input) (start : spec_float) : outcome spec_float :=
  let* r := s_moments sum_first fuel s start in Ok (snd r).
(** base/numeric.hpp:284-289 *)
Definition s_fsd (sum_first : bool) (fuel : nat) (s : input) (start : spec_float) : outcome spec_float :=
  let* v := s_fvar sum_first fuel s start in Ok (fsqrt v).
(** base/numeric.hpp:306-318 *)
Definition s_fmeansd (sum_first : bool) (fuel : nat) (s : input) (start : spec_float) : outcome (spec_float * spec_float) :=
  let* r := s_moments sum_first fuel s start in Ok (fst r, fsqrt (snd r)).

(** *** generating functions *)
Section Generated.
(** [call f]: a call of the function object [f] returns a value or throws ([None]); the function object afterwards. *)
Context {F A : Type} (call : F -> option A * F).
(** [ranges::views::generate(f)] (range-v3, view/generate.hpp): the function, moved into the view, and the current value if it has been
    asked for. *)
Record gen : Type := Gen { gfun : F; gval : option A }.
(** [*it]: calls the function if there is no current value. *)
Definition gen_get (g : gen) : option A * gen :=
  match gval g with
  | Some x => (Some x, g)
  | None => match call (gfun g) with (Some x, f) => (Some x, Gen f (Some x)) | (None, f) => (None, Gen f None) end
  end.
(** [++it]: forgets the current value; calls the function if there is none. *)
Definition gen_inc (g : gen) : bool * gen :=
  match gval g with
  | Some _ => (true, Gen (gfun g) None)
  | None => match call (gfun g) with (Some _, f) => (true, Gen f None) | (None, f) => (false, Gen f None) end
  end.
(** How a construction ends: [Built] with the elements; an exception reaches the caller, all elements built so far destroyed and the
    storage released (C15); [std::terminate]. *)
Inductive built (B : Type) : Type := Built (b : B) | Thrown | Terminated.
Arguments Built {B}. Arguments Thrown {B}. Arguments Terminated {B}.
(** [std::uninitialized_copy_n] as above; [fails k]: the constructor of the k-th element throws. *)
Fixpoint g_copy_n (fails : nat -> bool) (k n : nat) (g : gen) : option (list A) * gen :=
  match n with
  | O => (Some [], g)
  | S n' =>
      match gen_get g with
      | (None, g1) => (None, g1)
      | (Some x, g1) =>
          if fails k then (None, g1)
          else match gen_inc g1 with
               | (false, g2) => (None, g2)
               | (true, g2) => match g_copy_n fails (S k) n' g2 with (Some l, g3) => (Some (x :: l), g3) | (None, g3) => (None, g3) end
               end
      end
  end.
(** [array(generated, f, dims...)] (array/array.hpp:170-181).  [room]: the storage can be obtained; [nt]: an element cannot throw while it is
    constructed from the value, then [construct] is noexcept (array/allocator.hpp:41).  The result and the function afterwards. *)
Definition s_generated (room nt : bool) (fails : nat -> bool) (es : list Z) (f : F) : built (list A) * F :=
  if room then
    match g_copy_n fails 0 (Z.to_nat (desc_size es)) (Gen f None) with
    | (Some l, g) => (Built l, gfun g)
    | (None, g) => (if nt then Terminated else Thrown, gfun g)
    end
  else (Thrown, f).
End Generated.
Arguments Built {B}. Arguments Thrown {B}. Arguments Terminated {B}.
