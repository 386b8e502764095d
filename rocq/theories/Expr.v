(** * Expr: model of lazy element-wise expressions, assignment through views and in-place operations.  Definitions only.

    Element values of all types involved are values of one type [V] (conversions and the operators are
    arbitrary functions on it).  Storages are numbered; element access outside a storage is undefined. *)

From Coq Require Import ZArith List Bool.
From Verif Require Import Base Desc Slice.
Import ListNotations.
Open Scope Z_scope.

Section Expr.
Context {V : Type}.

(** Storages of the arrays of a program. *)
Definition mem : Type := list (list V).
Definition load (m : mem) (sid : nat) (p : Z) : outcome V :=
  match nth_error m sid with Some c => get c p | None => UB end.
Definition store (m : mem) (sid : nat) (p : Z) (v : V) : outcome mem :=
  match nth_error m sid with Some c => let* c' := put c p v in Ok (upd_nat m sid c') | None => UB end.

(** *** iterators of arrays and views *)
Inductive lit : Type :=
| IPtr (p : Z)                                 (* T*: array/ref_array.hpp:163-170 *)
| IStr (off : Z) (d : sdesc) (i : sd_iter)     (* iterator_from_indexes over a strided descriptor *)
| IVec (off : Z) (idx : list Z) (k : Z)        (* iterator_from_indexes over an index vector *).

(** [begin()], [end()] (array/ref_array.hpp:163-170, array/strided_ref_array.hpp:161-168, array/mapper.hpp:25-26, 80-81). *)
Definition leaf_range (s : st) : outcome (lit * lit) :=
  match s with
  | SRef off es => Ok (IPtr off, IPtr (off + prod_arr es))
  | SView off (MId d) => Ok (IStr off d (sd_begin d), IStr off d (sd_end d))
  | SView off (MVec _ idx) => Ok (IVec off idx 0, IVec off idx (Z.of_nat (length idx)))
  | _ => UB
  end.
(** [operator==] (array/detail/iterator.hpp:63). *)
Definition lit_eqb (a b : lit) : bool :=
  match a, b with
  | IPtr p, IPtr q => p =? q
  | IStr _ _ i, IStr _ _ j => it_eqb i j
  | IVec _ _ i, IVec _ _ j => i =? j
  | _, _ => false
  end.
(** [operator++] (array/detail/iterator.hpp:33-37). *)
Definition lit_next (a : lit) : outcome lit :=
  match a with
  | IPtr p => Ok (IPtr (p + 1))
  | IStr off d i => let* j := it_next d i in Ok (IStr off d j)
  | IVec off idx k => Ok (IVec off idx (k + 1))
  end.
(** Position designated by [operator*] (array/detail/iterator.hpp:69). *)
Definition lit_deref (a : lit) : outcome Z :=
  match a with
  | IPtr p => Ok p
  | IStr off d i => Ok (off + it_deref d i)
  | IVec off idx k => let* p := get idx k in Ok (off + p)
  end.

(** *** expressions *)
(** Expression objects hold the functor; their iterators point to them ([source_], array/unary_expr_array.hpp:73-74,
    array/binary_expr_array.hpp:80-82).  [heap]: the expression objects created so far, [None] once destroyed. *)
(** [FFwd]: [identity] (base/numeric.hpp:47-50, 54), which returns a reference to its argument. *)
Inductive fn : Type := F1 (f : V -> V) | F2 (f : V -> V -> V) | FFwd.
Definition heap : Type := list (option fn).

Inductive xit : Type :=
| XLeaf (sid : nat) (i : lit)
| XUn (src : nat) (i : xit)
| XBin (src : nat) (i j : xit).

(** [operator*] with the log of the elements read (array/unary_expr_array.hpp:68, array/binary_expr_array.hpp:75).  The value of an inner
    expression is a temporary of the call (functors other than [identity] are taken to return by value); [value_type] of a forwarding
    object is a reference to it (array/unary_expr_array.hpp:26, 38, 68), dead when the caller reads it.  A reference to an element is not. *)
Fixpoint xderef (h : heap) (m : mem) (x : xit) : outcome (V * list (nat * Z)) :=
  match x with
  | XLeaf sid i => let* p := lit_deref i in let* v := load m sid p in Ok (v, [(sid, p)])
  | XUn src i =>
      match nth_error h src with
      | Some (Some (F1 f)) => let* r := xderef h m i in Ok (f (fst r), snd r)
      | Some (Some FFwd) => match i with XLeaf _ _ => xderef h m i | _ => UB end
      | _ => UB
      end
  | XBin src i j =>
      match nth_error h src with
      | Some (Some (F2 f)) =>
          let* r := xderef h m i in let* r' := xderef h m j in Ok (f (fst r) (fst r'), snd r ++ snd r')
      | _ => UB
      end
  end.
(** [operator++] (array/unary_expr_array.hpp:51-55, array/binary_expr_array.hpp:57-62). *)
Fixpoint xnext (x : xit) : outcome xit :=
  match x with
  | XLeaf sid i => let* i' := lit_next i in Ok (XLeaf sid i')
  | XUn src i => let* i' := xnext i in Ok (XUn src i')
  | XBin src i j => let* i' := xnext i in let* j' := xnext j in Ok (XBin src i' j')
  end.
(** [operator==] (array/unary_expr_array.hpp:64, array/binary_expr_array.hpp:71). *)
Fixpoint xeqb (x y : xit) : bool :=
  match x, y with
  | XLeaf _ i, XLeaf _ j => lit_eqb i j
  | XUn _ i, XUn _ j => xeqb i j
  | XBin _ i j, XBin _ i' j' => xeqb i i' && xeqb j j'
  | _, _ => false
  end.

(** An array-like object seen through [begin()], [end()], [dimensions()]. *)
Record src : Type := Src { sbeg : xit; send : xit; sdim : list Z }.

(** Expression trees; scalar operands are bound by [left_operation] and [right_operation]. *)
Inductive expr : Type :=
| ELeaf (sid : nat) (s : st)                  (* an array or a view of storage sid *)
| EUn (f : V -> V) (e : expr)                 (* apply(e, f), -e, !e, abs(e), ... *)
| EBin (f : V -> V -> V) (e1 e2 : expr)       (* apply(e1, e2, f), e1 + e2, ... *)
| ELeft (f : V -> V -> V) (c : V) (e : expr)  (* c + e *)
| ERight (f : V -> V -> V) (e : expr) (c : V) (* e + c *)
| EDrop (D : nat) (e : expr)                  (* drop_to<D>(e), e an expression that is not a view *).

(** array/functional.hpp:20-44 *)
Definition left_operation (c : V) (f : V -> V -> V) : V -> V := fun other => f c other.
Definition right_operation (c : V) (f : V -> V -> V) : V -> V := fun other => f other c.

(** [unary_expr_array(first, last, op, extents)] (array/unary_expr_array.hpp:82-84). *)
Definition mk_un (h : heap) (g : fn) (s : src) (es : list Z) : src * heap :=
  (Src (XUn (length h) (sbeg s)) (XUn (length h) (send s)) es, h ++ [Some g]).

(** Creation of the expression objects, inner ones first ([apply], array/functional.hpp:46-49, 65-71, the operators l.131-170;
    [drop_to], array/unary_expr_array.hpp:120-129, array/binary_expr_array.hpp:130-141). *)
Fixpoint build (chk : bool) (e : expr) (h : heap) : outcome (src * heap) :=
  match e with
  | ELeaf sid s =>
      let* r := leaf_range s in
      match dims s with
      | Some es => Ok (Src (XLeaf sid (fst r)) (XLeaf sid (snd r)) es, h)
      | None => UB
      end
  | EUn f e' => let* r := build chk e' h in Ok (mk_un (snd r) (F1 f) (fst r) (sdim (fst r)))
  | ELeft f c e' => let* r := build chk e' h in Ok (mk_un (snd r) (F1 (left_operation c f)) (fst r) (sdim (fst r)))
  | ERight f e' c => let* r := build chk e' h in Ok (mk_un (snd r) (F1 (right_operation c f)) (fst r) (sdim (fst r)))
  | EBin f e1 e2 =>
      let* r1 := build chk e1 h in
      let* r2 := build chk e2 (snd r1) in
      let* _ := dassert chk (Zlist_eqb (sdim (fst r1)) (sdim (fst r2))) in
      let h' := snd r2 in
      Ok (Src (XBin (length h') (sbeg (fst r1)) (sbeg (fst r2))) (XBin (length h') (send (fst r1)) (send (fst r2))) (sdim (fst r1)),
          h' ++ [Some (F2 f)])
  | EDrop D e' =>
      let* r := build chk e' h in
      let* es := drop_one_level_extents chk D (sdim (fst r)) in
      Ok (mk_un (snd r) FFwd (fst r) es)
  end.

(** [uninitialized_copy_n(source.begin(), size, to)] (array/array.hpp:225, array/allocator.hpp:40-44): the values and the reads. *)
Fixpoint copy_n (n : nat) (h : heap) (m : mem) (x : xit) : outcome (list V * list (list (nat * Z))) :=
  match n with
  | O => Ok ([], [])
  | S n' =>
      let* r := xderef h m x in
      let* x' := xnext x in
      let* rs := copy_n n' h m x' in
      Ok (fst r :: fst rs, snd r :: snd rs)
  end.

(** [array x = expression], [eval(expression)] (array/array.hpp:218-231): extents, values, reads. *)
Definition materialise (h : heap) (m : mem) (s : src) : outcome (list Z * list V * list (list (nat * Z))) :=
  let* r := copy_n (Z.to_nat (prod_arr (sdim s))) h m (sbeg s) in
  Ok (sdim s, fst r, snd r).

(** [array x = e] within one full expression: all expression objects are alive. *)
Definition eval_expr (chk : bool) (m : mem) (e : expr) : outcome (list Z * list V * list (list (nat * Z))) :=
  let* r := build chk e [] in materialise (snd r) m (fst r).

(** [auto e = expression; array x = e;]: the temporaries are destroyed first, only the outermost (last) object is left. *)
Definition kill_temporaries (h : heap) : heap := map (fun _ => None) (removelast h) ++ match h with [] => [] | _ => [last h None] end.
Definition eval_stored (chk : bool) (m : mem) (e : expr) : outcome (list Z * list V * list (list (nat * Z))) :=
  let* r := build chk e [] in materialise (kill_temporaries (snd r)) m (fst r).

(** *** assignment *)
(** [for (auto& elem : destination) elem = *it++;] (array/detail/common.hpp:31-33).  [fuel] bounds the loop tests. *)
Fixpoint assign_loop (fuel : nat) (h : heap) (sid : nat) (d dend : lit) (x : xit) (m : mem) : outcome (mem * xit) :=
  match fuel with
  | O => Timeout
  | S f =>
      if lit_eqb d dend then Ok (m, x)
      else
        let* p := lit_deref d in
        let* x' := xnext x in
        let* r := xderef h m x in
        let* m' := store m sid p (fst r) in
        let* d' := lit_next d in
        assign_loop f h sid d' dend x' m'
  end.

(** [detail::array_assign] (array/detail/common.hpp:22-36). *)
Definition array_assign (chk : bool) (fuel : nat) (h : heap) (sid : nat) (s : st) (x : src) (m : mem) : outcome mem :=
  match dims s with
  | None => UB
  | Some es =>
      let* _ := dassert chk (Zlist_eqb (sdim x) es) in
      let* r := leaf_range s in
      let* q := assign_loop fuel h sid (fst r) (snd r) (sbeg x) m in
      let* _ := dassert chk (xeqb (snd q) (send x)) in
      Ok (fst q)
  end.

(** [view = expression] (array/ref_array.hpp:70-74, array/strided_ref_array.hpp:76-80). *)
Definition view_assign (chk : bool) (fuel : nat) (m : mem) (sid : nat) (s : st) (e : expr) : outcome mem :=
  let* r := build chk e [] in array_assign chk fuel (snd r) sid s (fst r) m.

(** [for (auto& elem : view) op(elem)]: assignment of a scalar ([op] replaces the value; array/ref_array.hpp:77-83,
    array/strided_ref_array.hpp:83-88) and in-place application (array/functional.hpp:57-63).  Also the log of the writes. *)
Fixpoint update_loop (fuel : nat) (sid : nat) (d dend : lit) (op : V -> V) (m : mem) : outcome (mem * list Z) :=
  match fuel with
  | O => Timeout
  | S f =>
      if lit_eqb d dend then Ok (m, [])
      else
        let* p := lit_deref d in
        let* v := load m sid p in
        let* m' := store m sid p (op v) in
        let* d' := lit_next d in
        let* r := update_loop f sid d' dend op m' in
        Ok (fst r, p :: snd r)
  end.
Definition view_update (fuel : nat) (m : mem) (sid : nat) (s : st) (op : V -> V) : outcome (mem * list Z) :=
  let* r := leaf_range s in update_loop fuel sid (fst r) (snd r) op m.
Definition view_fill (fuel : nat) (m : mem) (sid : nat) (s : st) (v : V) : outcome (mem * list Z) :=
  view_update fuel m sid s (fun _ => v).

(** [while (itl != end) op( *itl++, *itr++ )] (array/functional.hpp:83-93); [f] computes the new value of the left element. *)
Fixpoint inplace_loop (fuel : nat) (h : heap) (sid : nat) (d dend : lit) (x : xit) (f : V -> V -> V) (m : mem) : outcome (mem * list Z) :=
  match fuel with
  | O => Timeout
  | S fu =>
      if lit_eqb d dend then Ok (m, [])
      else
        let* p := lit_deref d in
        let* d' := lit_next d in
        let* x' := xnext x in
        let* r := xderef h m x in
        let* v := load m sid p in
        let* m' := store m sid p (f v (fst r)) in
        let* q := inplace_loop fu h sid d' dend x' f m' in
        Ok (fst q, p :: snd q)
  end.
(** [view op= expression] (array/functional.hpp:80-94). *)
Definition view_inplace (chk : bool) (fuel : nat) (m : mem) (sid : nat) (s : st) (f : V -> V -> V) (e : expr) : outcome (mem * list Z) :=
  let* r := build chk e [] in
  match dims s with
  | None => UB
  | Some es =>
      let* _ := dassert chk (Zlist_eqb es (sdim (fst r))) in
      let* l := leaf_range s in
      inplace_loop fuel (snd r) sid (fst l) (snd l) (sbeg (fst r)) f m
  end.

(** [overlap(view) = expression] (array/overlap.hpp:17-22): evaluate into a new array, then assign that. *)
Definition overlap_assign (chk : bool) (fuel : nat) (m : mem) (sid : nat) (s : st) (e : expr) : outcome mem :=
  let* r := eval_expr chk m e in
  match r with
  | (es, vs, _) =>
      let new := length m in
      let* m' := view_assign chk fuel (m ++ [vs]) sid s (ELeaf new (SRef 0 es)) in
      Ok (firstn new m')   (* the temporary array is destroyed *)
  end.

End Expr.
