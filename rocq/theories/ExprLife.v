(** * ExprLife: expressions kept in a variable and the lifetime of their operands.  Definitions only.

    [Expr] follows the lifetime of the expression objects; here also that of the operands.  An expression object stores
    the iterators [operand.begin()], [operand.end()] (array/functional.hpp:46-49, 65-71) and nothing that keeps the operand alive. *)

From Coq Require Import ZArith List Bool.
From Verif Require Import Base Desc Slice Expr.
Import ListNotations.
Open Scope Z_scope.

(** An operand of an expression is a named array or view (alive as long as the program wants), a view that is a temporary
    ([a[slice(0, 2)]]; [owns] tells, for a view selected by a range of indexes, that the index_view owns its indexes: it
    does for everything but a 1-d array indexed by an lvalue std::vector<index_t> or by pointers, base/index_view.hpp:35-53,
    array/slicing.hpp:134-157, 266-270), or an array that is a temporary ([eval(x)], [cat(x, y)]). *)
Inductive life : Type := Named | TempView (owns : bool) | TempArray.

(** Do the iterators of the operand need the operand object?  Iterators of strided descriptors of two or more
    dimensions point to the descriptor in the view (array/strided_descriptor.hpp:49-61, 75, 82); that of one dimension
    do not (l.220-224, 237, 242-243); iterators of index vectors point to the indexes (array/mapper.hpp:48, 80-81); iterators of
    ref_array are pointers to the elements (array/ref_array.hpp:163-170), which a temporary array takes with it. *)
Definition needs_object (l : life) (s : st) : bool :=
  match l with
  | Named => false
  | TempArray => true
  | TempView owns =>
      match s with
      | SView _ (MId d) => Nat.leb 2 (length (sd_exts d))
      | SView _ (MVec _ _) => owns
      | _ => false
      end
  end.

Section ExprLife.
Context {V : Type}.

(** Expressions as in [Expr], with the lifetime of the operands. *)
Inductive lexpr : Type :=
| LLeaf (l : life) (sid : nat) (s : st)
| LUn (f : V -> V) (e : lexpr)
| LBin (f : V -> V -> V) (e1 e2 : lexpr)
| LLeft (f : V -> V -> V) (c : V) (e : lexpr)
| LRight (f : V -> V -> V) (e : lexpr) (c : V)
| LDrop (D : nat) (e : lexpr).
Fixpoint erase (e : lexpr) : @expr V :=
  match e with
  | LLeaf _ sid s => ELeaf sid s
  | LUn f e => EUn f (erase e)
  | LBin f e1 e2 => EBin f (erase e1) (erase e2)
  | LLeft f c e => ELeft f c (erase e)
  | LRight f e c => ERight f (erase e) c
  | LDrop D e => EDrop D (erase e)
  end.

(** Objects created by the full expression: temporary operands, and expression objects with their functor. *)
Inductive xobj : Type := XOperand | XFn (f : @fn V).
Definition lheap : Type := list (option xobj).

(** Iterators; [dep]: the object a leaf iterator points to. *)
Inductive yit : Type :=
| YLeaf (dep : option nat) (sid : nat) (i : lit)
| YUn (src : nat) (i : yit)
| YBin (src : nat) (i j : yit).

Definition alive (h : lheap) (dep : option nat) : outcome unit :=
  match dep with
  | None => Ok tt
  | Some o => match nth_error h o with Some (Some _) => Ok tt | _ => UB end
  end.

(** [operator*] (array/detail/iterator.hpp:69, array/unary_expr_array.hpp:68, array/binary_expr_array.hpp:75), as [xderef]. *)
Fixpoint yderef (h : lheap) (m : @mem V) (y : yit) : outcome (V * list (nat * Z)) :=
  match y with
  | YLeaf dep sid i => let* _ := alive h dep in let* p := lit_deref i in let* v := load m sid p in Ok (v, [(sid, p)])
  | YUn src i =>
      match nth_error h src with
      | Some (Some (XFn (F1 f))) => let* r := yderef h m i in Ok (f (fst r), snd r)
      | Some (Some (XFn FFwd)) => match i with YLeaf _ _ _ => yderef h m i | _ => UB end
      | _ => UB
      end
  | YBin src i j =>
      match nth_error h src with
      | Some (Some (XFn (F2 f))) =>
          let* r := yderef h m i in let* r' := yderef h m j in Ok (f (fst r) (fst r'), snd r ++ snd r')
      | _ => UB
      end
  end.
(** [operator++] (array/detail/iterator.hpp:33-37, array/unary_expr_array.hpp:51-55, array/binary_expr_array.hpp:57-62). *)
Fixpoint ynext (h : lheap) (y : yit) : outcome yit :=
  match y with
  | YLeaf dep sid i => let* _ := alive h dep in let* i' := lit_next i in Ok (YLeaf dep sid i')
  | YUn src i => let* i' := ynext h i in Ok (YUn src i')
  | YBin src i j => let* i' := ynext h i in let* j' := ynext h j in Ok (YBin src i' j')
  end.

Record ysrc : Type := YSrc { ybeg : yit; yend : yit; ydim : list Z }.

(** A temporary operand is an object of the full expression, a named one is not. *)
Definition leaf_obj (l : life) (s : st) (h : lheap) : option nat * lheap :=
  match l with
  | Named => (None, h)
  | _ => (if needs_object l s then Some (length h) else None, h ++ [Some XOperand])
  end.

(** As [build] (array/functional.hpp:46-49, 65-71, 131-162, array/unary_expr_array.hpp:82-84, 120-124). *)
Definition lmk_un (h : lheap) (g : @fn V) (s : ysrc) (es : list Z) : ysrc * lheap :=
  (YSrc (YUn (length h) (ybeg s)) (YUn (length h) (yend s)) es, h ++ [Some (XFn g)]).
Fixpoint lbuild (chk : bool) (e : lexpr) (h : lheap) : outcome (ysrc * lheap) :=
  match e with
  | LLeaf l sid s =>
      let* r := leaf_range s in
      match dims s with
      | Some es => let (dep, h') := leaf_obj l s h in Ok (YSrc (YLeaf dep sid (fst r)) (YLeaf dep sid (snd r)) es, h')
      | None => UB
      end
  | LUn f e' => let* r := lbuild chk e' h in Ok (lmk_un (snd r) (F1 f) (fst r) (ydim (fst r)))
  | LLeft f c e' => let* r := lbuild chk e' h in Ok (lmk_un (snd r) (F1 (left_operation c f)) (fst r) (ydim (fst r)))
  | LRight f e' c => let* r := lbuild chk e' h in Ok (lmk_un (snd r) (F1 (right_operation c f)) (fst r) (ydim (fst r)))
  | LBin f e1 e2 =>
      let* r1 := lbuild chk e1 h in
      let* r2 := lbuild chk e2 (snd r1) in
      let* _ := dassert chk (Zlist_eqb (ydim (fst r1)) (ydim (fst r2))) in
      let h' := snd r2 in
      Ok (YSrc (YBin (length h') (ybeg (fst r1)) (ybeg (fst r2))) (YBin (length h') (yend (fst r1)) (yend (fst r2))) (ydim (fst r1)),
          h' ++ [Some (XFn (F2 f))])
  | LDrop D e' =>
      let* r := lbuild chk e' h in
      let* es := drop_one_level_extents chk D (ydim (fst r)) in
      Ok (lmk_un (snd r) FFwd (fst r) es)
  end.

(** As [copy_n], [materialise] (array/array.hpp:218-231, array/allocator.hpp:40-44). *)
Fixpoint lcopy_n (n : nat) (h : lheap) (m : @mem V) (y : yit) : outcome (list V * list (list (nat * Z))) :=
  match n with
  | O => Ok ([], [])
  | S n' =>
      let* r := yderef h m y in
      let* y' := ynext h y in
      let* rs := lcopy_n n' h m y' in
      Ok (fst r :: fst rs, snd r :: snd rs)
  end.
Definition lmaterialise (h : lheap) (m : @mem V) (s : ysrc) : outcome (list Z * list V * list (list (nat * Z))) :=
  let* r := lcopy_n (Z.to_nat (prod_arr (ydim s))) h m (ybeg s) in
  Ok (ydim s, fst r, snd r).

(** [array x = e;]: within one full expression everything is alive. *)
Definition leval_expr (chk : bool) (m : @mem V) (e : lexpr) : outcome (list Z * list V * list (list (nat * Z))) :=
  let* r := lbuild chk e [] in lmaterialise (snd r) m (fst r).

(** [auto e = expression; ...; array x = e;]: at the end of the first full expression all temporaries are destroyed, the
    last object is the variable itself.  [m]: the storages at the time of the evaluation (building reads no element). *)
Definition end_of_full_expression (h : lheap) : lheap :=
  map (fun _ => None) (removelast h) ++ match h with [] => [] | _ => [last h None] end.
Definition leval_stored (chk : bool) (m : @mem V) (e : lexpr) : outcome (list Z * list V * list (list (nat * Z))) :=
  let* r := lbuild chk e [] in lmaterialise (end_of_full_expression (snd r)) m (fst r).

(** *** specification *)

(** Operands of an expression, left to right. *)
Fixpoint operands (e : lexpr) : list (life * st) :=
  match e with
  | LLeaf l _ s => [(l, s)]
  | LUn _ e | LLeft _ _ e | LRight _ e _ | LDrop _ e => operands e
  | LBin _ e1 e2 => operands e1 ++ operands e2
  end.

(** Operands that can be used after the full expression: everything named; temporary views of contiguous elements;
    temporary strided views of one dimension; temporary views selected by indexes that live elsewhere. *)
Inductive survives : life * st -> Prop :=
| sv_named s : survives (Named, s)
| sv_contiguous o off es : survives (TempView o, SRef off es)
| sv_one_dimension o off d : length (sd_exts d) = 1%nat -> survives (TempView o, SView off (MId d))
| sv_indexes_elsewhere off d idx : survives (TempView false, SView off (MVec d idx)).

End ExprLife.
