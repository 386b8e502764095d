(** * Effects: model of expressions whose functions have effects.  Definitions only.

    A function given to [apply] may count, keep a cache, draw random numbers, read and write elements of arrays: it maps its
    arguments and the [world] (the elements of all storages and any other state of the program) to a result and a new world.
    Simplifications: it reads its arguments when it is called; it returns by value; it does not destroy or resize arrays (hypothesis
    [keeps_arrays] of the theorems) and does not throw (ExprThrow.v).  Iterators, views and extents are those of Expr.v.
    [drop_to] of an expression is left out (undefined to read, Expr.v); a scalar operand ([c + e]) is a function of one argument
    (array/functional.hpp:20-44). *)

From Coq Require Import ZArith List Bool.
From Verif Require Import Base Desc Slice Expr RangeLoop.
Import ListNotations.
Open Scope Z_scope.

Section Effects.
Context {V St : Type}.
Notation mem := (@mem V).
Definition world : Type := (mem * St)%type.
Definition fun1 : Type := V -> world -> V * world.
Definition fun2 : Type := V -> V -> world -> V * world.

(** Expression trees.  [lf]: the compiler evaluates the left argument of [operate( *lhs_, *rhs_)] first (array/binary_expr_array.hpp:75;
    C++ leaves the order open). *)
Inductive eexpr : Type :=
| QLeaf (sid : nat) (s : st)
| QUn (f : fun1) (e : eexpr)
| QBin (lf : bool) (f : fun2) (e1 e2 : eexpr).

(** The functors held by the expression objects (array/expr_array.hpp:44, 47). *)
Inductive efn : Type := K1 (f : fun1) | K2 (lf : bool) (f : fun2).
Definition eheap : Type := list efn.

(** What [operator*] gives: a reference to an element (array/detail/iterator.hpp:69, array/ref_array.hpp:163-170), or the value a function
    returned (array/unary_expr_array.hpp:68, array/binary_expr_array.hpp:75). *)
Inductive rv : Type := RRef (sid : nat) (p : Z) | RVal (v : V).
Definition rread (w : world) (r : rv) : outcome V :=
  match r with RRef sid p => load (fst w) sid p | RVal v => Ok v end.

(** [operator*] (array/unary_expr_array.hpp:68, array/binary_expr_array.hpp:75): the operands are dereferenced, then the function is called. *)
Fixpoint ederef (h : eheap) (x : xit) (w : world) : outcome (rv * world) :=
  match x with
  | XLeaf sid i => let* p := lit_deref i in Ok (RRef sid p, w)
  | XUn src i =>
      match nth_error h src with
      | Some (K1 f) =>
          let* r := ederef h i w in
          let* a := rread (snd r) (fst r) in
          Ok (RVal (fst (f a (snd r))), snd (f a (snd r)))
      | _ => UB
      end
  | XBin src i j =>
      match nth_error h src with
      | Some (K2 lf f) =>
          let* r := (if lf then let* r1 := ederef h i w in let* r2 := ederef h j (snd r1) in Ok (fst r1, fst r2, snd r2)
                     else let* r2 := ederef h j w in let* r1 := ederef h i (snd r2) in Ok (fst r1, fst r2, snd r1)) in
          match r with
          | (r1, r2, w') =>
              let* a := rread w' r1 in
              let* b := rread w' r2 in
              Ok (RVal (fst (f a b w')), snd (f a b w'))
          end
      | _ => UB
      end
  end.

(** Creation of the expression objects, as [build] of Expr.v; no function is called (array/functional.hpp:46-49, 65-71,
    array/unary_expr_array.hpp:82-84, array/binary_expr_array.hpp:88-95). *)
Fixpoint ebuild (chk : bool) (e : eexpr) (h : eheap) : outcome (src * eheap) :=
  match e with
  | QLeaf sid s =>
      let* r := leaf_range s in
      match dims s with
      | Some es => Ok (Src (XLeaf sid (fst r)) (XLeaf sid (snd r)) es, h)
      | None => UB
      end
  | QUn f e' =>
      let* r := ebuild chk e' h in
      let h' := snd r in
      Ok (Src (XUn (length h') (sbeg (fst r))) (XUn (length h') (send (fst r))) (sdim (fst r)), h' ++ [K1 f])
  | QBin lf f e1 e2 =>
      let* r1 := ebuild chk e1 h in
      let* r2 := ebuild chk e2 (snd r1) in
      let* _ := dassert chk (Zlist_eqb (sdim (fst r1)) (sdim (fst r2))) in
      let h' := snd r2 in
      Ok (Src (XBin (length h') (sbeg (fst r1)) (sbeg (fst r2))) (XBin (length h') (send (fst r1)) (send (fst r2))) (sdim (fst r1)),
          h' ++ [K2 lf f])
  end.

(** [uninitialized_copy_n(source.begin(), size, to)] (array/array.hpp:225, array/allocator.hpp:40-44). *)
Fixpoint ecopy_n (n : nat) (h : eheap) (x : xit) (w : world) : outcome (list V * world) :=
  match n with
  | O => Ok ([], w)
  | S n' =>
      let* r := ederef h x w in
      let* v := rread (snd r) (fst r) in
      let* x' := xnext x in
      let* rs := ecopy_n n' h x' (snd r) in
      Ok (v :: fst rs, snd rs)
  end.
(** [array x = expression], [eval(expression)] (array/array.hpp:218-231). *)
Definition eeval (chk : bool) (e : eexpr) (w : world) : outcome (list Z * list V * world) :=
  let* r := ebuild chk e [] in
  let* q := ecopy_n (Z.to_nat (prod_arr (sdim (fst r)))) (snd r) (sbeg (fst r)) w in
  Ok (sdim (fst r), fst q, snd q).

(** [elem = v] *)
Definition estore (w : world) (sid : nat) (p : Z) (v : V) : outcome world :=
  let* m' := store (fst w) sid p v in Ok (m', snd w).

(** [for (auto& elem : destination) elem = *it++;] (array/detail/common.hpp:31-33). *)
Fixpoint eassign_loop (fuel : nat) (h : eheap) (sid : nat) (d dend : lit) (x : xit) (w : world) : outcome (world * xit) :=
  match fuel with
  | O => Timeout
  | S f =>
      if lit_eqb d dend then Ok (w, x)
      else
        let* p := lit_deref d in
        let* x' := xnext x in
        let* r := ederef h x w in
        let* v := rread (snd r) (fst r) in
        let* w' := estore (snd r) sid p v in
        let* d' := lit_next d in
        eassign_loop f h sid d' dend x' w'
  end.
(** [view = expression] (array/ref_array.hpp:70-74, array/strided_ref_array.hpp:76-80, array/detail/common.hpp:22-36). *)
Definition eview_assign (chk : bool) (fuel : nat) (sid : nat) (s : st) (e : eexpr) (w : world) : outcome world :=
  let* b := ebuild chk e [] in
  match dims s with
  | None => UB
  | Some es =>
      let* _ := dassert chk (Zlist_eqb (sdim (fst b)) es) in
      let* r := leaf_range s in
      let* q := eassign_loop fuel (snd b) sid (fst r) (snd r) (sbeg (fst b)) w in
      let* _ := dassert chk (xeqb (snd q) (send (fst b))) in
      Ok (fst q)
  end.

(** [apply(in_place, view, op)] (array/functional.hpp:57-63): [op] gets a reference to the element, reads it and leaves a new value. *)
Fixpoint eupdate_loop (fuel : nat) (sid : nat) (d dend : lit) (op : fun1) (w : world) : outcome world :=
  match fuel with
  | O => Timeout
  | S f =>
      if lit_eqb d dend then Ok w
      else
        let* p := lit_deref d in
        let* v := load (fst w) sid p in
        let* w' := estore (snd (op v w)) sid p (fst (op v w)) in
        let* d' := lit_next d in
        eupdate_loop f sid d' dend op w'
  end.
Definition eview_update (fuel : nat) (sid : nat) (s : st) (op : fun1) (w : world) : outcome world :=
  let* r := leaf_range s in eupdate_loop fuel sid (fst r) (snd r) op w.

(** [while (itl != end) op( *itl++, *itr++ )] (array/functional.hpp:80-94): the left argument is a reference to the element. *)
Fixpoint einplace_loop (fuel : nat) (h : eheap) (sid : nat) (d dend : lit) (x : xit) (op : fun2) (w : world) : outcome world :=
  match fuel with
  | O => Timeout
  | S f =>
      if lit_eqb d dend then Ok w
      else
        let* p := lit_deref d in
        let* d' := lit_next d in
        let* x' := xnext x in
        let* r := ederef h x w in
        let* a := load (fst (snd r)) sid p in
        let* b := rread (snd r) (fst r) in
        let* w' := estore (snd (op a b (snd r))) sid p (fst (op a b (snd r))) in
        einplace_loop f h sid d' dend x' op w'
  end.
Definition eview_inplace (chk : bool) (fuel : nat) (sid : nat) (s : st) (op : fun2) (e : eexpr) (w : world) : outcome world :=
  let* b := ebuild chk e [] in
  match dims s with
  | None => UB
  | Some es =>
      let* _ := dassert chk (Zlist_eqb es (sdim (fst b))) in
      let* l := leaf_range s in
      einplace_loop fuel (snd b) sid (fst l) (snd l) (sbeg (fst b)) op w
  end.

(** [std::copy(first, last, out)] (array/array.hpp:325). *)
Fixpoint ecopy_to (fuel : nat) (h : eheap) (x xe : xit) (sid : nat) (p : Z) (w : world) : outcome world :=
  match fuel with
  | O => Timeout
  | S f =>
      if xeqb x xe then Ok w
      else
        let* r := ederef h x w in
        let* v := rread (snd r) (fst r) in
        let* w' := estore (snd r) sid p v in
        let* x' := xnext x in
        ecopy_to f h x' xe sid (p + 1) w'
  end.
(** [array = expression] (array/array.hpp:319-344). *)
Definition earray_set (chk : bool) (fuel : nat) (sid : nat) (es : list Z) (e : eexpr) (w : world) : outcome (world * list Z) :=
  let* r := ebuild chk e [] in
  let size := prod_arr (sdim (fst r)) in
  if prod_arr es =? size then
    let* w' := ecopy_to fuel (snd r) (sbeg (fst r)) (send (fst r)) sid 0 w in
    Ok (w', sdim (fst r))
  else
    let* q := ecopy_n (Z.to_nat size) (snd r) (sbeg (fst r)) w in
    Ok ((upd_nat (fst (snd q)) sid (fst q), snd (snd q)), sdim (fst r)).

(** *** algorithms of base/numeric.hpp *)
(** [for (; first != last; ++first) body( *first)] (base/numeric.hpp:189-190, 218-219, 367-369, 406-408, 427-429, 448-450, 469-471). *)
Fixpoint efor_loop {S R} (body : S -> V -> outcome (step S R)) (fin : S -> R) (fuel : nat) (h : eheap) (first last : xit) (s : S) (w : world)
  : outcome (R * world) :=
  match fuel with
  | O => Timeout
  | Datatypes.S f =>
      if xeqb first last then Ok (fin s, w)
      else
        let* r := ederef h first w in
        let* v := rread (snd r) (fst r) in
        let* q := body s v in
        match q with
        | Ret x => Ok (x, snd r)
        | Go s' => let* first' := xnext first in efor_loop body fin f h first' last s' (snd r)
        end
  end.
(** A range overload whose loop is that one: [sum], [prod], [count], [which], [all], [none], [any]. *)
Definition eranged {S R} (body : S -> V -> outcome (step S R)) (fin : S -> R) (s : S) (chk : bool) (fuel : nat) (e : eexpr) (w : world) : outcome (R * world) :=
  let* r := ebuild chk e [] in efor_loop body fin fuel (snd r) (sbeg (fst r)) (send (fst r)) s w.

(** [if (better(start, *first)) start = *first;] for each element, with the position of the last improvement: [max], [which_max]
    ([better] is [<]; base/numeric.hpp:81-84, 105-114), [min], [which_min] ([>]; l.135-138, 159-168).  [*first] is evaluated again
    for the assignment. *)
Fixpoint ebest_loop (better : V -> V -> bool) (fuel : nat) (h : eheap) (first last : xit) (start : V) (pos best : Z) (w : world)
  : outcome (V * Z * world) :=
  match fuel with
  | O => Timeout
  | S f =>
      if xeqb first last then Ok (start, best, w)
      else
        let* r := ederef h first w in
        let* v := rread (snd r) (fst r) in
        if better start v then
          let* r' := ederef h first (snd r) in
          let* v' := rread (snd r') (fst r') in
          let* first' := xnext first in
          ebest_loop better f h first' last v' (w64 (pos + 1)) pos (snd r')
        else
          let* first' := xnext first in
          ebest_loop better f h first' last start (w64 (pos + 1)) best (snd r)
  end.
(** [max(e, start)] and [which_max(e, start)] (or [min], [which_min]) in one: the value, the position. *)
Definition ebest (better : V -> V -> bool) (chk : bool) (fuel : nat) (e : eexpr) (start : V) (w : world) : outcome (V * Z * world) :=
  let* r := ebuild chk e [] in ebest_loop better fuel (snd r) (sbeg (fst r)) (send (fst r)) start 0 0 w.

(** Two passes: [mean], then the squares (base/numeric.hpp:261-265, var; l.310-315, meansd); [first_pass] is the mean of the values of the first loop. *)
Definition etwo_pass {S S2 R : Type} (step1 : S -> V -> S) (s1 : S) (step2 : S -> S2 -> V -> S2) (s2 : S2) (fin : S2 -> R)
    (chk : bool) (fuel : nat) (e : eexpr) (w : world) : outcome (R * world) :=
  let* r := ebuild chk e [] in
  let* a := efor_loop (goes step1) (fun s => s) fuel (snd r) (sbeg (fst r)) (send (fst r)) s1 w in
  let* b := efor_loop (goes (step2 (fst a))) (fun s => s) fuel (snd r) (sbeg (fst r)) (send (fst r)) s2 (snd a) in
  Ok (fin (fst b), snd b).
End Effects.
Arguments eexpr : clear implicits.
Arguments efn : clear implicits.
Arguments world : clear implicits.
Arguments fun1 : clear implicits.
Arguments fun2 : clear implicits.
