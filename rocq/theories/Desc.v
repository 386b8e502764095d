(** * Desc: model of [descriptor] and [strided_descriptor].  Definitions only. *)

From Coq Require Import ZArith List Bool.
From Verif Require Import Base.
Import ListNotations.
Open Scope Z_scope.

(** [prod(const std::array&)]: left fold of [*] starting from 1
    (base/numeric.hpp:32-37, 201-205), modulo 2^64. *)
Definition prod_arr (es : list Z) : Z := fold_left (fun acc e => w64 (acc * e)) es 1.

(** [descriptor::size] (array/descriptor.hpp:40). *)
Definition desc_size (es : list Z) : Z := prod_arr es.

(** The loop of [descriptor::operator()] for N >= 3 (array/descriptor.hpp:69-75). *)
Fixpoint desc_loop (stride pos : Z) (es ix : list Z) : Z :=
  match es, ix with
  | e :: es', i :: ix' => desc_loop (w64 (stride * e)) (w64 (pos + w64 (stride * i))) es' ix'
  | _, _ => pos
  end.

(** [descriptor::operator()(std::array)] (array/descriptor.hpp:62-77), the three [if constexpr] cases. *)
Definition desc_at (es ix : list Z) : Z :=
  match es, ix with
  | [_], [i] => i
  | [e0; _], [i0; i1] => w64 (i0 + w64 (e0 * i1))
  | _, _ => desc_loop 1 0 es ix
  end.

(** [descriptor::discard_dimension] (array/descriptor.hpp:86-89, 99-102). *)
Definition desc_discard (es : list Z) : list Z := tl es.

(** [strided_descriptor<N>] data members (array/strided_descriptor.hpp:171-173, 293-295). *)
Record sdesc : Type := SD { sd_start : Z; sd_exts : list Z; sd_strs : list Z }.

(** Loop inferring the strides (array/strided_descriptor.hpp:100-106);
    the debug assertion forbids zero extents.  In the one-dimensional specialisation
    there is no assertion and the stride is the default 1 (strided_descriptor.hpp:258, 295). *)
Fixpoint infer_strides (tmp : Z) (es : list Z) : list Z :=
  match es with
  | [] => []
  | e :: es' => tmp :: infer_strides (w64 (tmp * e)) es'
  end.

Definition sd_infer (chk : bool) (start : Z) (es : list Z) : outcome sdesc :=
  match es with
  | [e] => Ok (SD start [e] [1])
  | _ => let* _ := dassert chk (forallb (fun e => negb (e =? 0)) es) in
         Ok (SD start es (infer_strides 1 es))
  end.

(** [std::inner_product(indexes, strides, start)] (array/strided_descriptor.hpp:128-131);
    for N = 1, [start + index * strides[0]] (strided_descriptor.hpp:276-279). *)
Fixpoint inner (acc : Z) (ix strs : list Z) : Z :=
  match ix, strs with
  | i :: ix', s :: strs' => inner (w64 (acc + w64 (i * s))) ix' strs'
  | _, _ => acc
  end.
Definition sd_at (d : sdesc) (ix : list Z) : Z := inner (sd_start d) ix (sd_strs d).

(** [strided_descriptor::size] (array/strided_descriptor.hpp:119, 270). *)
Definition sd_size (d : sdesc) : Z :=
  match sd_exts d with [e] => e | es => prod_arr es end.

(** [strided_descriptor::discard_dimension] (array/strided_descriptor.hpp:139-142, 183-187). *)
Definition sd_discard (d : sdesc) : sdesc := SD (sd_start d) (tl (sd_exts d)) (tl (sd_strs d)).

(** [strided_descriptor<N>::iterator::operator++], N >= 2 (array/strided_descriptor.hpp:49-61):
    odometer; the remainder by a zero extent is undefined. *)
Fixpoint incr (es ix : list Z) : outcome (list Z) :=
  match es, ix with
  | [_], [i] => Ok [w64 (i + 1)]
  | e :: es', i :: ix' =>
      if e =? 0 then UB else
      let i' := w64 (i + 1) mod e in
      if negb (i' =? 0) then Ok (i' :: ix')
      else let* r := incr es' ix' in Ok (i' :: r)
  | _, _ => UB
  end.

(** [end_index] (array/strided_descriptor.hpp:176-181). *)
Fixpoint end_index (es : list Z) : list Z :=
  match es with
  | [] => []
  | [e] => [e]
  | _ :: es' => 0 :: end_index es'
  end.

(** The iterator states: an index tuple for N >= 2 (strided_descriptor.hpp:82-83),
    the current position for N = 1 (strided_descriptor.hpp:242-243). *)
Inductive sd_iter : Type :=
| ItN (ix : list Z)
| It1 (pos : Z).

Definition Zlist_eqb (a b : list Z) : bool :=
  if list_eq_dec Z.eq_dec a b then true else false.

(** [operator==] of the iterators (array/strided_descriptor.hpp:71, 233). *)
Definition it_eqb (a b : sd_iter) : bool :=
  match a, b with
  | ItN x, ItN y => Zlist_eqb x y
  | It1 x, It1 y => x =? y
  | _, _ => false
  end.

(** [cbegin], [cend] (array/strided_descriptor.hpp:136-137, 284-285). *)
Definition sd_begin (d : sdesc) : sd_iter :=
  match sd_exts d with
  | [_] => It1 (sd_start d)
  | es => ItN (map (fun _ => 0) es)
  end.
Definition sd_end (d : sdesc) : sd_iter :=
  match sd_exts d, sd_strs d with
  | [e], [s] => It1 (w64 (sd_start d + w64 (s * e)))
  | es, _ => ItN (end_index es)
  end.

(** [operator*] (array/strided_descriptor.hpp:75, 237). *)
Definition it_deref (d : sdesc) (it : sd_iter) : Z :=
  match it with ItN ix => sd_at d ix | It1 p => p end.

(** [operator++] (array/strided_descriptor.hpp:49-61, 220-224). *)
Definition it_next (d : sdesc) (it : sd_iter) : outcome sd_iter :=
  match it with
  | ItN ix => let* r := incr (sd_exts d) ix in Ok (ItN r)
  | It1 p => match sd_strs d with [s] => Ok (It1 (w64 (p + s))) | _ => UB end
  end.

(** [for (it = begin; it != end; ++it) visit( *it )], the loop every consumer of a
    strided view runs (array/mapper.hpp:74-75, 91-92; array/detail/common.hpp:31-33).
    Result: the positions visited, in order.  [fuel] bounds the number of loop tests. *)
Fixpoint sd_walk_from (fuel : nat) (d : sdesc) (it : sd_iter) : outcome (list Z) :=
  match fuel with
  | O => Timeout
  | S f => if it_eqb it (sd_end d) then Ok []
           else let p := it_deref d it in
                let* it' := it_next d it in
                let* r := sd_walk_from f d it' in Ok (p :: r)
  end.
Definition sd_walk (fuel : nat) (d : sdesc) : outcome (list Z) := sd_walk_from fuel d (sd_begin d).

(** [detail::drop_one_level_extents] (array/detail/common.hpp:58-75): copy_if dropping the
    first [k] = N-D unit extents.  [new_extents] has exactly D cells initialised with 1; writing more than D
    cells is undefined. *)
Fixpoint drop_units (k : nat) (es : list Z) : list Z :=
  match es with
  | [] => []
  | e :: es' =>
      match k with
      | O => e :: drop_units O es'
      | S k' => if e =? 1 then drop_units k' es' else e :: drop_units k es'
      end
  end.
Definition count_units (es : list Z) : nat := length (filter (fun e => e =? 1) es).

Definition drop_one_level_extents (chk : bool) (D : nat) (es : list Z) : outcome (list Z) :=
  let* _ := dassert chk (Nat.leb (length es - D) (count_units es)) in
  let r := drop_units (length es - D) es in
  if Nat.leb (length r) D then Ok (r ++ repeat 1 (D - length r)) else UB.

(** [strided_descriptor::drop_one_level_dimensions] (array/strided_descriptor.hpp:144-169):
    extents and strides filtered together. *)
Fixpoint drop_units2 (k : nat) (es ss : list Z) : list Z * list Z :=
  match es, ss with
  | e :: es', s :: ss' =>
      match k with
      | O => let (a, b) := drop_units2 O es' ss' in (e :: a, s :: b)
      | S k' => if e =? 1 then drop_units2 k' es' ss'
                else let (a, b) := drop_units2 k es' ss' in (e :: a, s :: b)
      end
  | _, _ => ([], [])
  end.
Definition sd_drop (chk : bool) (D : nat) (d : sdesc) : outcome sdesc :=
  let es := sd_exts d in
  let* _ := dassert chk (Nat.leb (length es - D) (count_units es)) in
  let (e', s') := drop_units2 (length es - D) es (sd_strs d) in
  if Nat.leb (length e') D
  then Ok (SD (sd_start d) (e' ++ repeat 1 (D - length e')) (s' ++ repeat 1 (D - length s')))
  else UB.
