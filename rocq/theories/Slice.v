(** * Slice: model of mappers, slicing and indexing (operator[]).  Definitions only. *)

From Coq Require Import ZArith List Bool.
From Verif Require Import Base Desc.
Import ListNotations.
Open Scope Z_scope.

(** Arguments a user can pass to [operator[]] (array/ref_array.hpp:99-161,
    array/strided_ref_array.hpp:100-159): an index, [slice(s,n)], [slice(s,n,t)], [every],
    [slice(s,at_most(m))], [slice(s,at_most(m),t)], a range of indexes.
    An [every_index] used as bounded extent has maximum 2^64-1 (array/slicing/bounded.hpp:31). *)
Inductive uarg : Type :=
| UIdx (i : Z)
| USlice (s n : Z)
| UStrided (s n t : Z)
| UEvery
| UBound (s m : Z)
| UBoundS (s m t : Z)
| URange (l : list Z).

(** Arguments after [eval]: [index_t], [absolute_strided_slice], index range
    (array/slicing/absolute.hpp:13-37; [absolute_slice] converts with stride 1, absolute.hpp:33). *)
Inductive rarg : Type :=
| RIdx (i : Z)
| RSl (s n t : Z)
| RRng (l : list Z).

(** [detail::seq_size] (array/detail/common.hpp:50-56); a zero step divides by zero. *)
Definition seq_size (start stop step : Z) : outcome Z :=
  let size := if start <? stop then w64 (stop - start) else w64 (start - stop) in
  if step =? 0 then UB else
  let size := w64 (size + (if size mod step =? 0 then 0 else 1)) in
  Ok (size / step).

(** [bounded_index::operator()] (array/slicing/bounded.hpp:29). *)
Definition bounded_index (maximum size : Z) : Z := Z.min maximum size.

(** [eval(bounded_slice, dim)] (array/slicing/bounded.hpp:80-83): (start, extent). *)
Definition eval_bounded (s m dim : Z) : Z * Z :=
  (s, bounded_index m (if s <? dim then w64 (dim - s) else 0)).

(** [eval(bounded_strided_slice, dim)] (array/slicing/bounded.hpp:85-89). *)
Definition eval_bounded_strided (s m t dim : Z) : outcome (Z * Z * Z) :=
  let* size := (if s <? dim then seq_size s dim t else Ok 0) in
  Ok (s, bounded_index m size, t).

(** Conversion of a user argument for a dimension of extent [dim], as done by the
    [operator[]] overloads of views and proxies (array/strided_ref_array.hpp:100-159,
    array/slicing.hpp:224-232, 309-328). *)
Definition resolve (u : uarg) (dim : Z) : outcome rarg :=
  match u with
  | UIdx i => Ok (RIdx i)
  | USlice s n => Ok (RSl s n 1)
  | UStrided s n t => Ok (RSl s n t)
  | UEvery => Ok (RSl 0 dim 1)
  | UBound s m => let (s', n) := eval_bounded s m dim in Ok (RSl s' n 1)
  | UBoundS s m t => let* (s', n, t') := eval_bounded_strided s m t dim in Ok (RSl s' n t')
  | URange l => Ok (RRng l)
  end.

(** Mappers (array/mapper.hpp:14-42 and 44-105).  The descriptor of a [vector_mapper] is
    always [{0, extents}] with inferred strides. *)
Inductive mapper : Type :=
| MId (d : sdesc)
| MVec (d : sdesc) (idx : list Z).

Definition m_desc (m : mapper) : sdesc := match m with MId d => d | MVec d _ => d end.

(** [vector_mapper(extents, indexes)] (array/mapper.hpp:50-55). *)
Definition mk_vec (chk : bool) (es idx : list Z) : outcome mapper :=
  let* d := sd_infer chk 0 es in
  let* _ := dassert chk (Z.of_nat (length idx) =? sd_size d) in
  Ok (MVec d idx).

(** [map(index)] (array/mapper.hpp:22 and 57-61). *)
Definition m_map (chk : bool) (m : mapper) (i : Z) : outcome Z :=
  match m with
  | MId _ => Ok i
  | MVec _ idx => let* _ := dassert chk (i <? Z.of_nat (length idx)) in get idx i
  end.

(** Positions visited from [index_begin()] to [index_end()] (array/mapper.hpp:25-26, 80-81). *)
Definition m_positions (fuel : nat) (m : mapper) : outcome (list Z) :=
  match m with
  | MId d => sd_walk fuel d
  | MVec _ idx => Ok idx
  end.

(** [drop_first_dimension(i)] (array/mapper.hpp:28-33 and 83-95). *)
Definition m_drop_first (chk : bool) (fuel : nat) (m : mapper) (i : Z) : outcome mapper :=
  match m with
  | MId d =>
      let nd := sd_discard d in
      Ok (MId (SD (w64 (sd_start d + w64 (hd 0 (sd_strs d) * i))) (sd_exts nd) (sd_strs nd)))
  | MVec d idx =>
      let nd := sd_discard d in
      let nd := SD (w64 (sd_start d + i)) (sd_exts nd) (sd_strs nd) in
      let* ps := sd_walk fuel nd in
      let* idx' := mapO (m_map chk m) ps in
      mk_vec chk (sd_exts nd) idx'
  end.

(** [detail::do_slice], default slicing (array/slicing.hpp:51-84), with CHECK_STRIDE, CHECK_EXTENT and CHECK_BOUNDS
    (slicing.hpp:13-20).  An index range never reaches this overload. *)
Fixpoint do_slice (chk : bool) (start : Z) (es ss : list Z) (args : list rarg) : outcome (Z * list Z * list Z) :=
  match args, es, ss with
  | [], [], [] => Ok (start, [], [])
  | RSl s n t :: args', e :: es', st :: ss' =>
      let* _ := dassert chk (0 <? t) in
      let* _ := dassert chk (0 <? n) in
      let* _ := dassert chk (w64 (s + w64 (w64 (n - 1) * t)) <? e) in
      let* (start', es'', ss'') := do_slice chk (w64 (start + w64 (st * s))) es' ss' args' in
      Ok (start', n :: es'', w64 (st * t) :: ss'')
  | RIdx i :: args', e :: es', st :: ss' =>
      let* _ := dassert chk (i <? e) in
      let* (start', es'', ss'') := do_slice chk (w64 (start + w64 (st * i))) es' ss' args' in
      Ok (start', 1 :: es'', 1 :: ss'')
  | _, _, _ => UB
  end.

(** [detail::default_slicing] (array/slicing.hpp:86-95). *)
Definition default_slicing (chk : bool) (d : sdesc) (args : list rarg) : outcome sdesc :=
  let* (start', es', ss') := do_slice chk (sd_start d) (sd_exts d) (sd_strs d) args in
  Ok (SD start' es' ss').

(** [max(rng)] for index ranges: starts from unbounded_min() = 0 (base/numeric.hpp:78-92,
    core/type.hpp:253-259). *)
Definition max_idx (l : list Z) : Z := fold_left (fun acc x => if acc <? x then x else acc) l 0.

Fixpoint foldO {S A : Type} (f : S -> A -> outcome S) (l : list A) (s : S) : outcome S :=
  match l with
  | [] => Ok s
  | a :: l' => let* s' := f s a in foldO f l' s'
  end.

(** [detail::do_slice], indirect slicing (array/slicing.hpp:110-165).  [rargs] are the
    remaining arguments, last dimension first (slicing.hpp:175); [ix] the indexes already chosen for the
    later dimensions ([array_cat(i, ix)]); the state is ([extents], [indexes]). *)
Fixpoint do_ind (chk : bool) (d : sdesc) (rargs : list rarg) (ix : list Z)
    (acc : list Z * list Z) {struct rargs} : outcome (list Z * list Z) :=
  match rargs with
  | [] => Ok (fst acc, snd acc ++ [sd_at d ix])
  | a :: rest =>
      let I := length rest in
      let e := nth I (sd_exts d) 0 in
      match a with
      | RIdx i =>
          let* _ := dassert chk (i <? e) in
          do_ind chk d rest (i :: ix) (upd_nat (fst acc) I 1, snd acc)
      | RSl s n t =>
          let* _ := dassert chk (0 <? t) in
          let* _ := dassert chk (0 <? n) in
          let* _ := dassert chk (w64 (s + w64 (w64 (n - 1) * t)) <? e) in
          foldO (fun acc k => do_ind chk d rest (w64 (s + w64 (k * t)) :: ix) acc)
                (map Z.of_nat (seq 0 (Z.to_nat n))) (upd_nat (fst acc) I n, snd acc)
      | RRng l =>
          let* _ := dassert chk (max_idx l <? e) in
          foldO (fun acc i => do_ind chk d rest (i :: ix) acc)
                l (upd_nat (fst acc) I (Z.of_nat (length l)), snd acc)
      end
  end.

(** [detail::indirect_slicing] (array/slicing.hpp:167-184). *)
Definition indirect_slicing (chk : bool) (d : sdesc) (args : list rarg) : outcome (list Z * list Z) :=
  do_ind chk d (rev args) [] (map (fun _ => 0) (sd_exts d), []).

Definition is_rng (a : rarg) : bool := match a with RRng _ => true | _ => false end.

(** [detail::array_slice] (array/slicing.hpp:188-209): the mapper of the resulting view. *)
Definition array_slice (chk : bool) (fuel : nat) (m : mapper) (args : list rarg) : outcome mapper :=
  if existsb is_rng args then
    let* (es, ps) := indirect_slicing chk (m_desc m) args in
    match m with
    | MId _ => mk_vec chk es ps
    | MVec _ _ => let* idx := mapO (m_map chk m) ps in mk_vec chk es idx
    end
  else
    let* nd := default_slicing chk (m_desc m) args in
    match m with
    | MId _ => Ok (MId nd)
    | MVec _ _ =>
        let* ps := sd_walk fuel nd in
        let* idx := mapO (m_map chk m) ps in
        mk_vec chk (sd_exts nd) idx
    end.

(** What an [operator[]] chain yields.  [off] is the element offset of the [data] pointer inside the
    storage of the owning array.
    [SRef]: ref_array (array/ref_array.hpp:188-191) — also the owning array itself (array/array.hpp:38);
    [SEvery]: ref_array_every_proxy<T,N,M> (array/slicing.hpp:353-428);
    [SView]: strided_ref_array (array/strided_ref_array.hpp:30,198);
    [SProxy]: strided_ref_array_proxy (array/slicing.hpp:299-350). *)
Inductive st : Type :=
| SElem (p : Z)
| SRef (off : Z) (es : list Z)
| SEvery (off : Z) (es : list Z) (M : nat)
| SView (off : Z) (m : mapper)
| SProxy (off : Z) (m : mapper) (args : list rarg).

(** Subscripts that [strided_ref_array_proxy::operator[]] passes on as its own named parameter: [at(i)], [at(slice)]
    (array/slicing.hpp:309-313).  A range is the caller's object (slicing.hpp:324-328); [every] and bounded slices are passed
    on as a new [absolute_slice] or [absolute_strided_slice] (slicing.hpp:315-322). *)
Definition by_name (u : uarg) : bool :=
  match u with UIdx _ | USlice _ _ | UStrided _ _ _ => true | _ => false end.

(** [strided_ref_array_proxy::at] (array/slicing.hpp:331-345).  Before the last dimension the new proxy stores an
    argument given by name as a reference ([IndexType] is an lvalue reference type, slicing.hpp:341-343) to the parameter of
    [operator[]], which does not exist any more when the proxy is indexed again and reads it (slicing.hpp:339).
    Simplification: undefined already when that proxy is returned; a proxy has no other use than being indexed. *)
Definition proxy_at (chk : bool) (fuel : nat) (off : Z) (m : mapper) (args : list rarg) (named : bool) (r : rarg) : outcome st :=
  if Nat.eqb (S (length args)) (length (sd_exts (m_desc m)))
  then let* m' := array_slice chk fuel m (args ++ [r]) in Ok (SView off m')
  else if named then UB
  else Ok (SProxy off m (args ++ [r])).

(** [strided_ref_array_proxy::operator[]] (array/slicing.hpp:309-328). *)
Definition proxy_index (chk : bool) (fuel : nat) (off : Z) (m : mapper) (args : list rarg) (u : uarg) : outcome st :=
  let* r := resolve u (nth (length args) (sd_exts (m_desc m)) 0) in
  proxy_at chk fuel off m args (by_name u) r.

(** [detail::array_at(T*, Mapper, ...)] (array/slicing.hpp:211-242). *)
Definition view_index (chk : bool) (fuel : nat) (off : Z) (m : mapper) (u : uarg) : outcome st :=
  let es := sd_exts (m_desc m) in
  let order1 := Nat.eqb (length es) 1 in
  match u with
  | UIdx i =>
      let* _ := dassert chk (i <? hd 0 es) in
      if order1
      then let* p := m_map chk m (sd_at (m_desc m) [i]) in Ok (SElem (off + p))
      else let* m' := m_drop_first chk fuel m i in Ok (SView off m')
  | UEvery =>
      if order1 then Ok (SView off m) else Ok (SProxy off m [RSl 0 (hd 0 es) 1])
  | _ =>
      let* r := resolve u (hd 0 es) in
      if order1
      then let* m' := array_slice chk fuel m [r] in Ok (SView off m')
      else Ok (SProxy off m [r])
  end.

(** [detail::array_at(U*, descriptor<M>, absolute_slice)] (array/slicing.hpp:276-285). *)
Definition ref_abs (chk : bool) (off : Z) (es : list Z) (s n : Z) : outcome st :=
  match es with
  | [e] =>
      let* _ := dassert chk (w64 (w64 (s + n) - 1) <? e) in
      Ok (SRef (off + s) [n])
  | _ => let* d := sd_infer chk 0 es in Ok (SProxy off (MId d) [RSl s n 1])
  end.

(** [array_at] with an absolute strided slice through an identity mapper (array/slicing.hpp:287-290, 234-242). *)
Definition ref_strided (chk : bool) (fuel : nat) (off : Z) (es : list Z) (s n t : Z) : outcome st :=
  let* d := sd_infer chk 0 es in
  if Nat.eqb (length es) 1
  then let* m' := array_slice chk fuel (MId d) [RSl s n t] in Ok (SView off m')
  else Ok (SProxy off (MId d) [RSl s n t]).

(** [ref_array::operator[]] (array/ref_array.hpp:99-161) through [detail::array_at] for
    [descriptor<M>] (array/slicing.hpp:244-290).  For M = 1 a range is kept as an [index_view]
    (slicing.hpp:266-270). *)
Definition ref_index (chk : bool) (fuel : nat) (off : Z) (es : list Z) (u : uarg) : outcome st :=
  let order1 := Nat.eqb (length es) 1 in
  match u with
  | UIdx i =>
      let* _ := dassert chk (i <? hd 0 es) in
      if order1 then Ok (SElem (off + i))
      else let* d := sd_infer chk i es in Ok (SView off (MId (sd_discard d)))
  | UEvery => if order1 then Ok (SRef off es) else Ok (SEvery off es 1)
  | URange l =>
      if order1
      then let* _ := dassert chk (max_idx l <? hd 0 es) in
           let* m := mk_vec chk [Z.of_nat (length l)] l in Ok (SView off m)
      else let* d := sd_infer chk 0 es in Ok (SProxy off (MId d) [RRng l])
  | USlice s n => ref_abs chk off es s n
  | UStrided s n t => ref_strided chk fuel off es s n t
  | UBound s m => let (s', n) := eval_bounded s m (hd 0 es) in ref_abs chk off es s' n
  | UBoundS s m t =>
      let* (s', n, t') := eval_bounded_strided s m t (hd 0 es) in ref_strided chk fuel off es s' n t'
  end.

(** Replacing the last extent ([descriptor_.extents[N - 1] = ...], array/slicing.hpp:367, 383). *)
Fixpoint set_last (es : list Z) (v : Z) : list Z :=
  match es with
  | [] => []
  | [_] => [v]
  | e :: es' => e :: set_last es' v
  end.

(** [ref_array_every_proxy::at] (array/slicing.hpp:413-424): generic path, the M leading dimensions
    are full slices.  [proxy_type{...}[index]] calls [strided_ref_array_proxy::operator[]], whose parameter is a copy of [index]
    unless it is a range. *)
Definition every_at (chk : bool) (fuel : nat) (off : Z) (es : list Z) (M : nat) (r : rarg) : outcome st :=
  let* d := sd_infer chk 0 es in
  proxy_at chk fuel off (MId d) (map (fun e => RSl 0 e 1) (firstn M es)) (negb (is_rng r)) r.

(** [ref_array_every_proxy::operator[]] (array/slicing.hpp:360-410).  With an index and M < N-1 the C++ is
    ill-formed ([at(slice)] with the overloaded function [slice], slicing.hpp:371): modelled as [UB]. *)
Definition every_index (chk : bool) (fuel : nat) (off : Z) (es : list Z) (M : nat) (u : uarg) : outcome st :=
  let is_last := Nat.eqb (S M) (length es) in
  let last_dim := last es 0 in
  match u with
  | UIdx i =>
      if is_last then
        let* _ := dassert chk (i <? last_dim) in
        if last_dim =? 0 then UB else
        let stride := prod_arr es / last_dim in
        Ok (SRef (off + w64 (i * stride)) (set_last es 1))
      else UB
  | USlice s n =>
      if is_last then
        let* _ := dassert chk (w64 (w64 (s + n) - 1) <? last_dim) in
        if last_dim =? 0 then UB else
        let stride := prod_arr es / last_dim in
        Ok (SRef (off + w64 (s * stride)) (set_last es n))
      else every_at chk fuel off es M (RSl s n 1)
  | UEvery => if is_last then Ok (SRef off es) else Ok (SEvery off es (S M))
  | _ => let* r := resolve u (nth M es 0) in every_at chk fuel off es M r
  end.

(** One application of [operator[]]. *)
Definition op_index (chk : bool) (fuel : nat) (s : st) (u : uarg) : outcome st :=
  match s with
  | SElem _ => UB (* not an array *)
  | SRef off es => ref_index chk fuel off es u
  | SEvery off es M => every_index chk fuel off es M u
  | SView off m => view_index chk fuel off m u
  | SProxy off m args => proxy_index chk fuel off m args u
  end.

(** A chain [a[u0][u1]...]. *)
Definition run (chk : bool) (fuel : nat) (s : st) (us : list uarg) : outcome st :=
  foldO (op_index chk fuel) us s.

(** [dimensions()] (array/ref_array.hpp:180, array/strided_ref_array.hpp:178). *)
Definition dims (s : st) : option (list Z) :=
  match s with
  | SRef _ es => Some es
  | SView _ m => Some (sd_exts (m_desc m))
  | _ => None
  end.

(** Storage positions visited by [begin()]..[end()] (array/ref_array.hpp:163-170,
    array/strided_ref_array.hpp:161-168, array/detail/iterator.hpp:33-37, 69). *)
Definition positions (fuel : nat) (s : st) : outcome (list Z) :=
  match s with
  | SRef off es => Ok (map (fun i => off + Z.of_nat i) (seq 0 (Z.to_nat (prod_arr es))))
  | SView off m => let* ps := m_positions fuel m in Ok (map (fun p => off + p) ps)
  | _ => UB
  end.

(** [drop_to<D>], D >= 1 (array/ref_array.hpp:196-203, array/strided_ref_array.hpp:180-188,
    array/mapper.hpp:35-38).  [vector_mapper::drop_one_level_dimensions] (mapper.hpp:97-100) is ill-formed
    when instantiated: modelled as [UB]. *)
Definition drop_to (chk : bool) (D : nat) (s : st) : outcome st :=
  match s with
  | SRef off es => let* es' := drop_one_level_extents chk D es in Ok (SRef off es')
  | SView off (MId d) => let* d' := sd_drop chk D d in Ok (SView off (MId d'))
  | _ => UB
  end.

(** [drop_to<0>] (array/ref_array.hpp:198-201, array/strided_ref_array.hpp:182-184): returns the element the
    [data] pointer designates. *)
Definition drop_to_scalar (chk : bool) (s : st) : outcome Z :=
  match s with
  | SRef off es => let* _ := dassert chk (prod_arr es =? 1) in Ok off
  | SView off m => let* _ := dassert chk (sd_size (m_desc m) =? 1) in Ok off
  | _ => UB
  end.

(** [axis_at<Axis>(arr, i)] (array/axis.hpp:17-35): index with [every] except in dimension [Axis],
    then [drop_to<N-1>]. *)
Definition axis_at (chk : bool) (fuel : nat) (axis : nat) (s : st) (i : Z) : outcome st :=
  match dims s with
  | None => UB
  | Some es =>
      let N := length es in
      let* s' := run chk fuel s (map (fun k => if Nat.eqb k axis then UIdx i else UEvery) (seq 0 N)) in
      match dims s' with
      | Some es' => if Nat.eqb (length es') (N - 1)
                    then Ok s' (* drop_to<N-1> of an order N-1 array: nothing to drop *)
                    else drop_to chk (N - 1) s'
      | None => UB
      end
  end.

(** [axis_iterator]: its position (array/axis.hpp:51, 117-118).  [it + n], [it - other], [<]
    (axis.hpp:79, 103-106, 112). *)
Definition axis_plus (pos n : Z) : Z := w64 (pos + n).
Definition axis_minus (pos n : Z) : Z := w64 (pos - n).
Definition axis_diff (pos other : Z) : Z := s64 other - s64 pos.
Definition axis_lt (pos other : Z) : bool := pos <? other.

(** Items of [axis_array] (array/axis.hpp:137, 151-153): dereferencing every position
    from 0 to [dimensions()[Axis]]. *)
Definition axis_items (chk : bool) (fuel : nat) (axis : nat) (s : st) : outcome (list st) :=
  match dims s with
  | None => UB
  | Some es => mapO (axis_at chk fuel axis s) (map Z.of_nat (seq 0 (Z.to_nat (nth axis es 0))))
  end.
