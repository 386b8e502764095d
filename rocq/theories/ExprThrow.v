(** * ExprThrow: assignments and in-place operations through views when an element operation throws.  Model and specification.

    As Expr.v, with an exception possible at every element: computing the value of the source's element, or assigning or updating the element of the
    destination, may throw.  [ev k] tells what happens at the [k]-th element operation of a statement; every data-dependent behaviour of the operators
    is some such function, and all of them are considered.  An interrupted assignment or update may leave any value in its element.  The memory is part of
    the result also when an exception is thrown; [Abort] is the end of the program (a failed check, or an exception that leaves a [noexcept] function). *)

From Coq Require Import ZArith List Bool.
From Verif Require Import Base Spec Desc Slice SliceSpec Expr ExprSpec ExprSeq Throws.
Import ListNotations.
Open Scope Z_scope.

(** What happens at one element. *)
Inductive event (V : Type) : Type := Fine | EvalThrows | WriteThrows (junk : V).
Arguments Fine {V}.
Arguments EvalThrows {V}.
Arguments WriteThrows {V}.

(** ** model *)
Section Model.
Context {V : Type}.
Notation mem := (@mem V).
Notation expr := (@expr V).
Notation heap := (@heap V).
Variable ev : nat -> event V.

(** [elem = v] as [k]-th element operation (array/detail/common.hpp:32, array/ref_array.hpp:77-83, ...): the memory and how it ended. *)
Definition write_elem (k : nat) (sid : nat) (p : Z) (v : V) (m : mem) : outcome unit * mem :=
  match ev k with
  | Fine => pure m (store m sid p v) (fun m' => (Ok tt, m'))
  | EvalThrows => (Throw ElemExn, m)
  | WriteThrows junk => pure m (store m sid p junk) (fun m' => (Throw ElemExn, m'))
  end.
(** Sequencing with the memory. *)
Definition andthen {A B} (x : outcome A * mem) (f : A -> mem -> outcome B * mem) : outcome B * mem :=
  match x with
  | (Ok a, m) => f a m
  | (Throw e, m) => (Throw e, m)
  | (Abort, m) => (Abort, m)
  | (UB, m) => (UB, m)
  | (Timeout, m) => (Timeout, m)
  end.
(** The value of the source's element; not computed when that throws. *)
Definition eval_elem (k : nat) (h : heap) (x : xit) (m : mem) : outcome (V * list (nat * Z)) :=
  match ev k with EvalThrows => Throw ElemExn | _ => xderef h m x end.

(** [for (auto& elem : destination) elem = *it++;] (array/detail/common.hpp:31-33). *)
Fixpoint x_assign_loop (k : nat) (fuel : nat) (h : heap) (sid : nat) (d dend : lit) (x : xit) (m : mem) : outcome xit * mem :=
  match fuel with
  | O => (Timeout, m)
  | S f =>
      if lit_eqb d dend then (Ok x, m)
      else
        pure m (lit_deref d) (fun p =>
        pure m (xnext x) (fun x' =>
        pure m (eval_elem k h x m) (fun r =>
        andthen (write_elem k sid p (fst r) m) (fun _ m' =>
        pure m' (lit_next d) (fun d' =>
        x_assign_loop (S k) f h sid d' dend x' m')))))
  end.
(** [detail::array_assign] (array/detail/common.hpp:22-36). *)
Definition x_array_assign (k : nat) (chk : bool) (fuel : nat) (h : heap) (sid : nat) (s : st) (x : src) (m : mem) : outcome unit * mem :=
  match dims s with
  | None => (UB, m)
  | Some es =>
      pure m (dassert chk (Zlist_eqb (sdim x) es)) (fun _ =>
      pure m (leaf_range s) (fun r =>
      andthen (x_assign_loop k fuel h sid (fst r) (snd r) (sbeg x) m) (fun x' m' =>
      pure m' (dassert chk (xeqb x' (send x))) (fun _ => (Ok tt, m')))))
  end.
(** [view = expression] (array/ref_array.hpp:70-74, array/strided_ref_array.hpp:76-80). *)
Definition x_view_assign (k : nat) (chk : bool) (fuel : nat) (m : mem) (sid : nat) (s : st) (e : expr) : outcome unit * mem :=
  pure m (build chk e []) (fun r => x_array_assign k chk fuel (snd r) sid s (fst r) m).

(** [for (auto& elem : view) op(elem)] (array/ref_array.hpp:77-83, array/strided_ref_array.hpp:83-88, array/functional.hpp:57-63). *)
Fixpoint x_update_loop (k : nat) (fuel : nat) (sid : nat) (d dend : lit) (op : V -> V) (m : mem) : outcome unit * mem :=
  match fuel with
  | O => (Timeout, m)
  | S f =>
      if lit_eqb d dend then (Ok tt, m)
      else
        pure m (lit_deref d) (fun p =>
        pure m (load m sid p) (fun v =>
        andthen (write_elem k sid p (op v) m) (fun _ m' =>
        pure m' (lit_next d) (fun d' =>
        x_update_loop (S k) f sid d' dend op m'))))
  end.
Definition x_view_update (fuel : nat) (m : mem) (sid : nat) (s : st) (op : V -> V) : outcome unit * mem :=
  pure m (leaf_range s) (fun r => x_update_loop 0 fuel sid (fst r) (snd r) op m).

(** [while (itl != end) op( *itl++, *itr++ )] (array/functional.hpp:83-93). *)
Fixpoint x_inplace_loop (k : nat) (fuel : nat) (h : heap) (sid : nat) (d dend : lit) (x : xit) (f : V -> V -> V) (m : mem) : outcome unit * mem :=
  match fuel with
  | O => (Timeout, m)
  | S fu =>
      if lit_eqb d dend then (Ok tt, m)
      else
        pure m (lit_deref d) (fun p =>
        pure m (lit_next d) (fun d' =>
        pure m (xnext x) (fun x' =>
        pure m (eval_elem k h x m) (fun r =>
        pure m (load m sid p) (fun v =>
        andthen (write_elem k sid p (f v (fst r)) m) (fun _ m' =>
        x_inplace_loop (S k) fu h sid d' dend x' f m'))))))
  end.
(** [view op= expression] (array/functional.hpp:80-94). *)
Definition x_view_inplace (chk : bool) (fuel : nat) (m : mem) (sid : nat) (s : st) (f : V -> V -> V) (e : expr) : outcome unit * mem :=
  pure m (build chk e []) (fun r =>
  match dims s with
  | None => (UB, m)
  | Some es =>
      pure m (dassert chk (Zlist_eqb es (sdim (fst r)))) (fun _ =>
      pure m (leaf_range s) (fun l =>
      x_inplace_loop 0 fuel (snd r) sid (fst l) (snd l) (sbeg (fst r)) f m))
  end).

(** [uninitialized_copy_n] (array/allocator.hpp:40-44): on an exception it destroys what it constructed and rethrows.  The result is not part of
    the memory yet. *)
Fixpoint x_copy_n (k : nat) (n : nat) (h : heap) (m : mem) (x : xit) : outcome (list V) :=
  match n with
  | O => Ok []
  | S n' =>
      let* r := eval_elem k h x m in
      let* _ := match ev k with WriteThrows _ => Throw ElemExn | _ => Ok tt end in   (* the constructor of the element *)
      let* x' := xnext x in
      let* rs := x_copy_n (S k) n' h m x' in
      Ok (fst r :: rs)
  end.
(** [construct] is [noexcept] if constructing an element from a source element is ([nt], array/allocator.hpp:41). *)
Definition x_construct (nt : bool) (n : nat) (h : heap) (m : mem) (x : xit) : outcome (list V) :=
  if nt then noexceptO (x_copy_n 0 n h m x) else x_copy_n 0 n h m x.

(** [array x = expression], [eval(expression)] (array/array.hpp:218-231): on an exception the storage is released. *)
Definition x_eval_expr (nt : bool) (chk : bool) (m : mem) (e : expr) : outcome (list Z * list V) :=
  let* r := build chk e [] in
  let* vs := x_construct nt (Z.to_nat (prod_arr (sdim (fst r)))) (snd r) m (sbeg (fst r)) in
  Ok (sdim (fst r), vs).

(** [overlap(view) = expression] (array/overlap.hpp:17-22): the temporary array is destroyed in every case.  Its elements are numbered after
    those of the expression. *)
Definition x_overlap_assign (nt : bool) (chk : bool) (fuel : nat) (m : mem) (sid : nat) (s : st) (e : expr) : outcome unit * mem :=
  pure m (x_eval_expr nt chk m e) (fun r =>
  let q := x_view_assign (length (snd r)) chk fuel (m ++ [snd r]) sid s (ELeaf (length m) (SRef 0 (fst r))) in
  (fst q, firstn (length m) (snd q))).

(** [std::copy(source.begin(), source.end(), this->begin())] (array/array.hpp:325). *)
Fixpoint x_copy_to (k : nat) (fuel : nat) (h : heap) (x xe : xit) (sid : nat) (p : Z) (m : mem) : outcome unit * mem :=
  match fuel with
  | O => (Timeout, m)
  | S f =>
      if xeqb x xe then (Ok tt, m)
      else
        pure m (eval_elem k h x m) (fun r =>
        andthen (write_elem k sid p (fst r) m) (fun _ m' =>
        pure m' (xnext x) (fun x' =>
        x_copy_to (S k) f h x' xe sid (p + 1) m')))
  end.
(** [array = expression] (array/array.hpp:318-344): how it ended, the memory, and the extents of the array afterwards.  On an exception the
    deferred block does nothing (l.332-338), the new storage is lost (LifeThms, C16). *)
Definition x_array_set (nt : bool) (chk : bool) (fuel : nat) (m : mem) (sid : nat) (es : list Z) (e : expr) : outcome unit * mem * list Z :=
  match build chk e [] with
  | Ok r =>
      let size := prod_arr (sdim (fst r)) in
      if prod_arr es =? size then
        match x_copy_to 0 fuel (snd r) (sbeg (fst r)) (send (fst r)) sid 0 m with
        | (Ok _, m') => (Ok tt, m', sdim (fst r))
        | (o, m') => (o, m', es)
        end
      else
        match x_construct nt (Z.to_nat size) (snd r) m (sbeg (fst r)) with
        | Ok vs => (Ok tt, upd_nat m sid vs, sdim (fst r))
        | Throw x => (Throw x, m, es)
        | Abort => (Abort, m, es)
        | UB => (UB, m, es)
        | Timeout => (Timeout, m, es)
        end
  | Throw x => (Throw x, m, es)
  | Abort => (Abort, m, es)
  | UB => (UB, m, es)
  | Timeout => (Timeout, m, es)
  end.

(** ** specification *)
(** The element operations number [a], ..., [a + n - 1] do not throw. *)
Definition quiet (a n : nat) : Prop := forall k, (k < n)%nat -> ev (a + k)%nat = Fine.
(** The first of the operations from number [a] on that throws is the [k]-th. *)
Definition throws_at (a k : nat) : Prop := quiet a k /\ ev (a + k)%nat <> Fine.
(** What an exception at operation [k], for the element at [p], leaves: nothing, or any value in that element. *)
Definition spoilt (k : nat) (sid : nat) (p : Z) (m : mem) : mem :=
  match ev k with WriteThrows junk => set_cell m sid p junk | _ => m end.
End Model.

(** Compared with [m], in [m'] the first [k] elements of the view have the values [v]; the element number [k] can be anything; nothing else differs. *)
Definition partly {V} (m m' : @mem V) (sid : nat) (ps : list Z) (v : nat -> option V) (k : nat) : Prop :=
  map (@length V) m' = map (@length V) m /\
  (forall sid' q, 0 <= q -> (sid' <> sid \/ ~ In q (firstn (S k) ps)) -> cell m' sid' q = cell m sid' q) /\
  (forall j p, (j < k)%nat -> nth_error ps j = Some p -> v j <> None /\ cell m' sid p = v j).
