(** * Levels: model of the builds with some of the checks ([JULES_DEBUG_LEVEL]).  Definitions only.

    Every check has a level (core/debug.hpp:21-28) and is compiled in when its level is at most [JULES_DEBUG_LEVEL] (core/debug.hpp:9-15, 31:
    [debug_assert::set_level]); with NDEBUG that is 0, by default it is the largest number.  A failed check that is compiled in ends the
    program ([Abort]); one that is not has no effect.

    The functions are those of Desc.v, Slice.v, Expr.v, ArrAssign.v and Numeric.v that contain checks, in the same order, with [L] the debug level of the build in
    place of the choice between all checks and none.  The assertion [dropped_count == N - D] (array/strided_descriptor.hpp:166) always holds and is left out, as in
    Desc.v. *)

From Coq Require Import ZArith List Bool.
From Verif Require Import Base Desc Slice Expr Numeric ArrAssign.
Import ListNotations.
Open Scope Z_scope.

(** The levels (core/debug.hpp:21-28); [invalid_state] has the level of [invalid_argument]. *)
Definition lv_unreachable : nat := 1.
Definition lv_invalid : nat := 2.
Definition lv_bounds : nat := 3.
Definition lv_extents : nat := 3.

(** [DEBUG_ASSERT(c, default_module, level k, ...)] in a build with [JULES_DEBUG_LEVEL] = L (core/debug.hpp:31). *)
Definition lassert (L k : nat) (c : bool) : outcome unit := if Nat.leb k L && negb c then Abort else Ok tt.

(** [strided_descriptor(start, extents)] (array/strided_descriptor.hpp:98-107; for N = 1: 258). *)
Definition l_sd_infer (L : nat) (start : Z) (es : list Z) : outcome sdesc :=
  match es with
  | [e] => Ok (SD start [e] [1])
  | _ => let* _ := lassert L lv_invalid (forallb (fun e => negb (e =? 0)) es) in
         Ok (SD start es (infer_strides 1 es))
  end.

(** [detail::drop_one_level_extents] (array/detail/common.hpp:58-75). *)
Definition l_drop_one_level_extents (L : nat) (D : nat) (es : list Z) : outcome (list Z) :=
  let* _ := lassert L lv_invalid (Nat.leb (length es - D) (count_units es)) in
  let r := drop_units (length es - D) es in
  if Nat.leb (length r) D then Ok (r ++ repeat 1 (D - length r)) else UB.

(** [strided_descriptor::drop_one_level_dimensions] (array/strided_descriptor.hpp:144-169). *)
Definition l_sd_drop (L : nat) (D : nat) (d : sdesc) : outcome sdesc :=
  let es := sd_exts d in
  let* _ := lassert L lv_invalid (Nat.leb (length es - D) (count_units es)) in
  let (e', s') := drop_units2 (length es - D) es (sd_strs d) in
  if Nat.leb (length e') D
  then Ok (SD (sd_start d) (e' ++ repeat 1 (D - length e')) (s' ++ repeat 1 (D - length s')))
  else UB.

(** [vector_mapper(extents, indexes)] (array/mapper.hpp:50-55). *)
Definition l_mk_vec (L : nat) (es idx : list Z) : outcome mapper :=
  let* d := l_sd_infer L 0 es in
  let* _ := lassert L lv_invalid (Z.of_nat (length idx) =? sd_size d) in
  Ok (MVec d idx).

(** [map(index)] (array/mapper.hpp:22 and 57-61). *)
Definition l_m_map (L : nat) (m : mapper) (i : Z) : outcome Z :=
  match m with
  | MId _ => Ok i
  | MVec _ idx => let* _ := lassert L lv_bounds (i <? Z.of_nat (length idx)) in get idx i
  end.

(** [drop_first_dimension(i)] (array/mapper.hpp:28-33 and 83-95). *)
Definition l_m_drop_first (L : nat) (fuel : nat) (m : mapper) (i : Z) : outcome mapper :=
  match m with
  | MId d =>
      let nd := sd_discard d in
      Ok (MId (SD (w64 (sd_start d + w64 (hd 0 (sd_strs d) * i))) (sd_exts nd) (sd_strs nd)))
  | MVec d idx =>
      let nd := sd_discard d in
      let nd := SD (w64 (sd_start d + i)) (sd_exts nd) (sd_strs nd) in
      let* ps := sd_walk fuel nd in
      let* idx' := mapO (l_m_map L m) ps in
      l_mk_vec L (sd_exts nd) idx'
  end.

(** [detail::do_slice], default slicing (array/slicing.hpp:51-84), with CHECK_STRIDE, CHECK_EXTENT and CHECK_BOUNDS
    (slicing.hpp:13-20).  An index range never reaches this overload. *)
Fixpoint l_do_slice (L : nat) (start : Z) (es ss : list Z) (args : list rarg) : outcome (Z * list Z * list Z) :=
  match args, es, ss with
  | [], [], [] => Ok (start, [], [])
  | RSl s n t :: args', e :: es', st :: ss' =>
      let* _ := lassert L lv_invalid (0 <? t) in
      let* _ := lassert L lv_invalid (0 <? n) in
      let* _ := lassert L lv_bounds (w64 (s + w64 (w64 (n - 1) * t)) <? e) in
      let* (start', es'', ss'') := l_do_slice L (w64 (start + w64 (st * s))) es' ss' args' in
      Ok (start', n :: es'', w64 (st * t) :: ss'')
  | RIdx i :: args', e :: es', st :: ss' =>
      let* _ := lassert L lv_bounds (i <? e) in
      let* (start', es'', ss'') := l_do_slice L (w64 (start + w64 (st * i))) es' ss' args' in
      Ok (start', 1 :: es'', 1 :: ss'')
  | _, _, _ => UB
  end.

(** [detail::default_slicing] (array/slicing.hpp:86-95). *)
Definition l_default_slicing (L : nat) (d : sdesc) (args : list rarg) : outcome sdesc :=
  let* (start', es', ss') := l_do_slice L (sd_start d) (sd_exts d) (sd_strs d) args in
  Ok (SD start' es' ss').

(** [detail::do_slice], indirect slicing (array/slicing.hpp:110-165).  [rargs] are the
    remaining arguments, last dimension first (slicing.hpp:175); [ix] the indexes already chosen for the
    later dimensions ([array_cat(i, ix)]); the state is ([extents], [indexes]). *)
Fixpoint l_do_ind (L : nat) (d : sdesc) (rargs : list rarg) (ix : list Z)
    (acc : list Z * list Z) {struct rargs} : outcome (list Z * list Z) :=
  match rargs with
  | [] => Ok (fst acc, snd acc ++ [sd_at d ix])
  | a :: rest =>
      let I := length rest in
      let e := nth I (sd_exts d) 0 in
      match a with
      | RIdx i =>
          let* _ := lassert L lv_bounds (i <? e) in
          l_do_ind L d rest (i :: ix) (upd_nat (fst acc) I 1, snd acc)
      | RSl s n t =>
          let* _ := lassert L lv_invalid (0 <? t) in
          let* _ := lassert L lv_invalid (0 <? n) in
          let* _ := lassert L lv_bounds (w64 (s + w64 (w64 (n - 1) * t)) <? e) in
          foldO (fun acc k => l_do_ind L d rest (w64 (s + w64 (k * t)) :: ix) acc)
                (map Z.of_nat (seq 0 (Z.to_nat n))) (upd_nat (fst acc) I n, snd acc)
      | RRng l =>
          let* _ := lassert L lv_bounds (max_idx l <? e) in
          foldO (fun acc i => l_do_ind L d rest (i :: ix) acc)
                l (upd_nat (fst acc) I (Z.of_nat (length l)), snd acc)
      end
  end.

(** [detail::indirect_slicing] (array/slicing.hpp:167-184). *)
Definition l_indirect_slicing (L : nat) (d : sdesc) (args : list rarg) : outcome (list Z * list Z) :=
  l_do_ind L d (rev args) [] (map (fun _ => 0) (sd_exts d), []).

(** [detail::array_slice] (array/slicing.hpp:188-209): the mapper of the resulting view. *)
Definition l_array_slice (L : nat) (fuel : nat) (m : mapper) (args : list rarg) : outcome mapper :=
  if existsb is_rng args then
    let* (es, ps) := l_indirect_slicing L (m_desc m) args in
    match m with
    | MId _ => l_mk_vec L es ps
    | MVec _ _ => let* idx := mapO (l_m_map L m) ps in l_mk_vec L es idx
    end
  else
    let* nd := l_default_slicing L (m_desc m) args in
    match m with
    | MId _ => Ok (MId nd)
    | MVec _ _ =>
        let* ps := sd_walk fuel nd in
        let* idx := mapO (l_m_map L m) ps in
        l_mk_vec L (sd_exts nd) idx
    end.

(** [strided_ref_array_proxy::at] (array/slicing.hpp:331-345).  Before the last dimension the new proxy stores an
    argument given by name as a reference ([IndexType] is an lvalue reference type, slicing.hpp:341-343) to the parameter of
    [operator[]], which does not exist any more when the proxy is indexed again and reads it (slicing.hpp:339).
    Simplification: undefined already when that proxy is returned; a proxy has no other use than being indexed. *)
Definition l_proxy_at (L : nat) (fuel : nat) (off : Z) (m : mapper) (args : list rarg) (named : bool) (r : rarg) : outcome st :=
  if Nat.eqb (S (length args)) (length (sd_exts (m_desc m)))
  then let* m' := l_array_slice L fuel m (args ++ [r]) in Ok (SView off m')
  else if named then UB
  else Ok (SProxy off m (args ++ [r])).

(** [strided_ref_array_proxy::operator[]] (array/slicing.hpp:309-328). *)
Definition l_proxy_index (L : nat) (fuel : nat) (off : Z) (m : mapper) (args : list rarg) (u : uarg) : outcome st :=
  let* r := resolve u (nth (length args) (sd_exts (m_desc m)) 0) in
  l_proxy_at L fuel off m args (by_name u) r.

(** [detail::array_at(T*, Mapper, ...)] (array/slicing.hpp:211-242). *)
Definition l_view_index (L : nat) (fuel : nat) (off : Z) (m : mapper) (u : uarg) : outcome st :=
  let es := sd_exts (m_desc m) in
  let order1 := Nat.eqb (length es) 1 in
  match u with
  | UIdx i =>
      let* _ := lassert L lv_bounds (i <? hd 0 es) in
      if order1
      then let* p := l_m_map L m (sd_at (m_desc m) [i]) in Ok (SElem (off + p))
      else let* m' := l_m_drop_first L fuel m i in Ok (SView off m')
  | UEvery =>
      if order1 then Ok (SView off m) else Ok (SProxy off m [RSl 0 (hd 0 es) 1])
  | _ =>
      let* r := resolve u (hd 0 es) in
      if order1
      then let* m' := l_array_slice L fuel m [r] in Ok (SView off m')
      else Ok (SProxy off m [r])
  end.

(** [detail::array_at(U*, descriptor<M>, absolute_slice)] (array/slicing.hpp:276-285). *)
Definition l_ref_abs (L : nat) (off : Z) (es : list Z) (s n : Z) : outcome st :=
  match es with
  | [e] =>
      let* _ := lassert L lv_bounds (w64 (w64 (s + n) - 1) <? e) in
      Ok (SRef (off + s) [n])
  | _ => let* d := l_sd_infer L 0 es in Ok (SProxy off (MId d) [RSl s n 1])
  end.

(** [array_at] with an absolute strided slice through an identity mapper (array/slicing.hpp:287-290, 234-242). *)
Definition l_ref_strided (L : nat) (fuel : nat) (off : Z) (es : list Z) (s n t : Z) : outcome st :=
  let* d := l_sd_infer L 0 es in
  if Nat.eqb (length es) 1
  then let* m' := l_array_slice L fuel (MId d) [RSl s n t] in Ok (SView off m')
  else Ok (SProxy off (MId d) [RSl s n t]).

(** [ref_array::operator[]] (array/ref_array.hpp:99-161) through [detail::array_at] for
    [descriptor<M>] (array/slicing.hpp:244-290).  For M = 1 a range is kept as an [index_view]
    (slicing.hpp:266-270). *)
Definition l_ref_index (L : nat) (fuel : nat) (off : Z) (es : list Z) (u : uarg) : outcome st :=
  let order1 := Nat.eqb (length es) 1 in
  match u with
  | UIdx i =>
      let* _ := lassert L lv_bounds (i <? hd 0 es) in
      if order1 then Ok (SElem (off + i))
      else let* d := l_sd_infer L i es in Ok (SView off (MId (sd_discard d)))
  | UEvery => if order1 then Ok (SRef off es) else Ok (SEvery off es 1)
  | URange l =>
      if order1
      then let* _ := lassert L lv_bounds (max_idx l <? hd 0 es) in
           let* m := l_mk_vec L [Z.of_nat (length l)] l in Ok (SView off m)
      else let* d := l_sd_infer L 0 es in Ok (SProxy off (MId d) [RRng l])
  | USlice s n => l_ref_abs L off es s n
  | UStrided s n t => l_ref_strided L fuel off es s n t
  | UBound s m => let (s', n) := eval_bounded s m (hd 0 es) in l_ref_abs L off es s' n
  | UBoundS s m t =>
      let* (s', n, t') := eval_bounded_strided s m t (hd 0 es) in l_ref_strided L fuel off es s' n t'
  end.

(** [ref_array_every_proxy::at] (array/slicing.hpp:413-424): generic path, the M leading dimensions
    are full slices.  [proxy_type{...}[index]] calls [strided_ref_array_proxy::operator[]], whose parameter is a copy of [index]
    unless it is a range. *)
Definition l_every_at (L : nat) (fuel : nat) (off : Z) (es : list Z) (M : nat) (r : rarg) : outcome st :=
  let* d := l_sd_infer L 0 es in
  l_proxy_at L fuel off (MId d) (map (fun e => RSl 0 e 1) (firstn M es)) (negb (is_rng r)) r.

(** [ref_array_every_proxy::operator[]] (array/slicing.hpp:360-410).  With an index and M < N-1 the C++ is
    ill-formed ([at(slice)] with the overloaded function [slice], slicing.hpp:371): modelled as [UB]. *)
Definition l_every_index (L : nat) (fuel : nat) (off : Z) (es : list Z) (M : nat) (u : uarg) : outcome st :=
  let is_last := Nat.eqb (S M) (length es) in
  let last_dim := last es 0 in
  match u with
  | UIdx i =>
      if is_last then
        let* _ := lassert L lv_bounds (i <? last_dim) in
        if last_dim =? 0 then UB else
        let stride := prod_arr es / last_dim in
        Ok (SRef (off + w64 (i * stride)) (set_last es 1))
      else UB
  | USlice s n =>
      if is_last then
        let* _ := lassert L lv_bounds (w64 (w64 (s + n) - 1) <? last_dim) in
        if last_dim =? 0 then UB else
        let stride := prod_arr es / last_dim in
        Ok (SRef (off + w64 (s * stride)) (set_last es n))
      else l_every_at L fuel off es M (RSl s n 1)
  | UEvery => if is_last then Ok (SRef off es) else Ok (SEvery off es (S M))
  | _ => let* r := resolve u (nth M es 0) in l_every_at L fuel off es M r
  end.

(** One application of [operator[]]. *)
Definition l_op_index (L : nat) (fuel : nat) (s : st) (u : uarg) : outcome st :=
  match s with
  | SElem _ => UB (* not an array *)
  | SRef off es => l_ref_index L fuel off es u
  | SEvery off es M => l_every_index L fuel off es M u
  | SView off m => l_view_index L fuel off m u
  | SProxy off m args => l_proxy_index L fuel off m args u
  end.

(** A chain [a[u0][u1]...]. *)
Definition l_run (L : nat) (fuel : nat) (s : st) (us : list uarg) : outcome st :=
  foldO (l_op_index L fuel) us s.

(** [drop_to<D>], D >= 1 (array/ref_array.hpp:196-203, array/strided_ref_array.hpp:180-188,
    array/mapper.hpp:35-38).  [vector_mapper::drop_one_level_dimensions] (mapper.hpp:97-100) is ill-formed
    when instantiated: modelled as [UB]. *)
Definition l_drop_to (L : nat) (D : nat) (s : st) : outcome st :=
  match s with
  | SRef off es => let* es' := l_drop_one_level_extents L D es in Ok (SRef off es')
  | SView off (MId d) => let* d' := l_sd_drop L D d in Ok (SView off (MId d'))
  | _ => UB
  end.

(** [drop_to<0>] (array/ref_array.hpp:198-201, array/strided_ref_array.hpp:182-184): returns the element the
    [data] pointer designates. *)
Definition l_drop_to_scalar (L : nat) (s : st) : outcome Z :=
  match s with
  | SRef off es => let* _ := lassert L lv_invalid (prod_arr es =? 1) in Ok off
  | SView off m => let* _ := lassert L lv_invalid (sd_size (m_desc m) =? 1) in Ok off
  | _ => UB
  end.

(** [axis_at<Axis>(arr, i)] (array/axis.hpp:17-35): index with [every] except in dimension [Axis],
    then [drop_to<N-1>]. *)
Definition l_axis_at (L : nat) (fuel : nat) (axis : nat) (s : st) (i : Z) : outcome st :=
  match dims s with
  | None => UB
  | Some es =>
      let N := length es in
      let* s' := l_run L fuel s (map (fun k => if Nat.eqb k axis then UIdx i else UEvery) (seq 0 N)) in
      match dims s' with
      | Some es' => if Nat.eqb (length es') (N - 1)
                    then Ok s' (* drop_to<N-1> of an order N-1 array: nothing to drop *)
                    else l_drop_to L (N - 1) s'
      | None => UB
      end
  end.

(** Items of [axis_array] (array/axis.hpp:137, 151-153): dereferencing every position
    from 0 to [dimensions()[Axis]]. *)
Definition l_axis_items (L : nat) (fuel : nat) (axis : nat) (s : st) : outcome (list st) :=
  match dims s with
  | None => UB
  | Some es => mapO (l_axis_at L fuel axis s) (map Z.of_nat (seq 0 (Z.to_nat (nth axis es 0))))
  end.


(** [reshape_to(ref_array, descriptor)], [reshape], [reshape_as] (array/ref_array.hpp:212-217, array/reshape.hpp:33-43). *)
Definition l_reshape_ref (L : nat) (s : st) (es' : list Z) : outcome st :=
  match s with
  | SRef off es => let* _ := lassert L lv_invalid (prod_arr es =? prod_arr es') in Ok (SRef off es')
  | _ => UB
  end.

(** [seq(start, stop, step)] (array/numeric.hpp:24-39). *)
Definition l_seq_model (L : nat) (start stop step : Z) : outcome (list Z) :=
  let* _ := lassert L lv_invalid (negb (step =? 0)) in
  let* _ := lassert L lv_invalid ((start <=? stop) || (step <? 0)) in
  let* _ := lassert L lv_invalid ((stop <=? start) || (0 <? step)) in
  let* diff := sres (s64 stop - s64 start) in
  if step =? 0 then UB else
  let* q := sres (Z.quot diff step) in
  let* n := sres (q + 1) in
  let size := w64 n in
  if vec_max <? size then Throw LogicError
  else Ok (seq_loop (Z.to_nat size) start step).

(** *** expressions and assignments *)
Section Expressions.
Context {V : Type}.
Notation mem := (@mem V).
Notation expr := (@expr V).
Notation heap := (@heap V).
Notation src := (@src).

(** [apply] and the operators (array/functional.hpp:46-71, array/math.hpp): see [build] in Expr.v. *)
Fixpoint l_build (L : nat) (e : expr) (h : heap) : outcome (src * heap) :=
  match e with
  | ELeaf sid s =>
      let* r := leaf_range s in
      match dims s with
      | Some es => Ok (Src (XLeaf sid (fst r)) (XLeaf sid (snd r)) es, h)
      | None => UB
      end
  | EUn f e' => let* r := l_build L e' h in Ok (mk_un (snd r) (F1 f) (fst r) (sdim (fst r)))
  | ELeft f c e' => let* r := l_build L e' h in Ok (mk_un (snd r) (F1 (left_operation c f)) (fst r) (sdim (fst r)))
  | ERight f e' c => let* r := l_build L e' h in Ok (mk_un (snd r) (F1 (right_operation c f)) (fst r) (sdim (fst r)))
  | EBin f e1 e2 =>
      let* r1 := l_build L e1 h in
      let* r2 := l_build L e2 (snd r1) in
      let* _ := lassert L lv_extents (Zlist_eqb (sdim (fst r1)) (sdim (fst r2))) in
      let h' := snd r2 in
      Ok (Src (XBin (length h') (sbeg (fst r1)) (sbeg (fst r2))) (XBin (length h') (send (fst r1)) (send (fst r2))) (sdim (fst r1)),
          h' ++ [Some (F2 f)])
  | EDrop D e' =>
      let* r := l_build L e' h in
      let* es := l_drop_one_level_extents L D (sdim (fst r)) in
      Ok (mk_un (snd r) FFwd (fst r) es)
  end.

(** [array(expression)], [as_vector(expression)] (array/array.hpp:218-233): evaluating into a new array. *)
Definition l_eval_expr (L : nat) (m : mem) (e : expr) : outcome (list Z * list V * list (list (nat * Z))) :=
  let* r := l_build L e [] in materialise (snd r) m (fst r).

(** [detail::array_assign] (array/detail/common.hpp:22-36). *)
Definition l_array_assign (L : nat) (fuel : nat) (h : heap) (sid : nat) (s : st) (x : src) (m : mem) : outcome mem :=
  match dims s with
  | None => UB
  | Some es =>
      let* _ := lassert L lv_extents (Zlist_eqb (sdim x) es) in
      let* r := leaf_range s in
      let* q := assign_loop fuel h sid (fst r) (snd r) (sbeg x) m in
      let* _ := lassert L lv_unreachable (xeqb (snd q) (send x)) in
      Ok (fst q)
  end.

(** [view = expression] (array/ref_array.hpp:70-74, array/strided_ref_array.hpp:76-80). *)
Definition l_view_assign (L : nat) (fuel : nat) (m : mem) (sid : nat) (s : st) (e : expr) : outcome mem :=
  let* r := l_build L e [] in l_array_assign L fuel (snd r) sid s (fst r) m.

(** [view op= expression] (array/functional.hpp:80-94). *)
Definition l_view_inplace (L : nat) (fuel : nat) (m : mem) (sid : nat) (s : st) (f : V -> V -> V) (e : expr) : outcome (mem * list Z) :=
  let* r := l_build L e [] in
  match dims s with
  | None => UB
  | Some es =>
      let* _ := lassert L lv_extents (Zlist_eqb es (sdim (fst r))) in
      let* l := leaf_range s in
      inplace_loop fuel (snd r) sid (fst l) (snd l) (sbeg (fst r)) f m
  end.

(** [overlap(view) = expression] (array/overlap.hpp:17-22): evaluate into a new array, then assign that. *)
Definition l_overlap_assign (L : nat) (fuel : nat) (m : mem) (sid : nat) (s : st) (e : expr) : outcome mem :=
  let* r := l_eval_expr L m e in
  match r with
  | (es, vs, _) =>
      let new := length m in
      let* m' := l_view_assign L fuel (m ++ [vs]) sid s (ELeaf new (SRef 0 es)) in
      Ok (firstn new m')
  end.

(** [array = expression] (array/array.hpp:318-344): see [array_set] in ArrAssign.v. *)
Definition l_array_set (L : nat) (fuel : nat) (m : mem) (sid : nat) (es : list Z) (e : expr) : outcome (mem * list Z) :=
  let* r := l_build L e [] in
  let size := prod_arr (sdim (fst r)) in       (* source.size(): array/expr_array.hpp:32, array/ref_array.hpp:172, array/strided_ref_array.hpp:170 *)
  if prod_arr es =? size then
    let* m' := copy_to fuel (snd r) (sbeg (fst r)) (send (fst r)) sid 0 m in
    Ok (m', sdim (fst r))
  else
    let* q := copy_n (Z.to_nat size) (snd r) m (sbeg (fst r)) in   (* into new storage, the old one still alive *)
    Ok (upd_nat m sid (fst q), sdim (fst r)).
Section Products.
Variables (zero : V) (add mul : V -> V -> V).

(** [sum(lhs[i][every] * drop(rhs[every][j]))] (array/numeric.hpp:59). *)
Definition l_product_elem (L : nat) (fuel : nat) (m : mem) (sa : nat) (a : st) (sb : nat) (b : st) (i j : Z) : outcome V :=
  let* r := l_run L fuel a [UIdx i; UEvery] in
  let* c0 := l_run L fuel b [UEvery; UIdx j] in
  let* c := l_drop_to L 1 c0 in
  let* q := l_build L (EBin mul (ELeaf sa r) (ELeaf sb c)) [] in
  sum_loop add fuel (snd q) m (sbeg (fst q)) (send (fst q)) zero.

(** The loops of [product] (array/numeric.hpp:57-59): see [product_loop] in Numeric.v. *)
Definition l_product_loop (L : nat) (fuel : nat) (m : mem) (sa : nat) (a : st) (sb : nat) (b : st) (rows cols : Z) : outcome (list V) :=
  let* cs := mapO (fun j => mapO (fun i => l_product_elem L fuel m sa a sb b i j) (map Z.of_nat (seq 0 (Z.to_nat rows))))
                  (map Z.of_nat (seq 0 (Z.to_nat cols))) in
  Ok (concat cs).

(** [product(lhs, rhs)] (array/numeric.hpp:43-63, 65-70). *)
Definition l_product (L : nat) (fuel : nat) (m : mem) (sa : nat) (a : st) (sb : nat) (b : st) : outcome (list Z * list V) :=
  match dims a, dims b with
  | Some [r; c], Some [r'; c'] =>
      let* _ := lassert L lv_invalid ((0 <? prod_arr [r; c]) && (0 <? prod_arr [r'; c'])) in
      let* _ := lassert L lv_invalid (c =? r') in
      let* vs := l_product_loop L fuel m sa a sb b r c' in
      Ok ([r; c'], vs)
  | _, _ => UB
  end.

(** [safe_int_cast] (array/blas.hpp:36-41). *)
Definition l_safe_int_cast (L : nat) (v : Z) : outcome Z :=
  let* _ := lassert L lv_invalid (v <=? 2 ^ 31 - 1) in Ok (s32 v).

(** [blas::product(ref_array, ref_array, alpha)] (array/blas.hpp:43-65). *)
Definition l_blas_product (L : nat) (m : mem) (sa : nat) (offa : Z) (ea : list Z) (sb : nat) (offb : Z) (eb : list Z) (alpha : V) (junk : list V)
  : outcome (list Z * list V) :=
  match ea, eb with
  | [r; c], [r'; c'] =>
      let* _ := lassert L lv_invalid ((0 <? prod_arr ea) && (0 <? prod_arr eb)) in
      let* _ := lassert L lv_invalid (c =? r') in
      let m1 := m ++ [junk] in
      let* k := l_safe_int_cast L c in
      let* rr := l_safe_int_cast L r in
      let* rc := l_safe_int_cast L c' in
      let* lr := l_safe_int_cast L r in
      let* rhr := l_safe_int_cast L r' in
      let* m2 := gemm zero add mul m1 rr rc k alpha (sa, offa) lr (sb, offb) rhr (length m, 0) rr in
      match nth_error m2 (length m) with
      | Some vs => Ok ([r; c'], vs)
      | None => UB
      end
  | _, _ => UB
  end.
End Products.

(** [builder::push_back] (array/builder.hpp:49-68). *)
Definition l_cat_push1 (L : nat) (size : Z) (acc : list V) (v : V) : outcome (list V) :=
  let* _ := lassert L lv_invalid (negb (Z.of_nat (length acc) =? size)) in
  if Z.of_nat (length acc) <? size then Ok (acc ++ [v]) else UB.

(** [cat_push] (array/numeric.hpp:125-137). *)
Definition l_cat_push (L : nat) (conv : V -> V) (size : Z) (acc : list V) (a : @cat_arg V) : outcome (list V) :=
  match a with
  | CVal v => l_cat_push1 L size acc (conv v)
  | CRng vs => foldO (fun acc v => l_cat_push1 L size acc (conv v)) vs acc
  end.

(** [cat] (array/numeric.hpp:141-151) and the array constructor adopting the builder (array/array.hpp:268, array/builder.hpp:72-77). *)
Definition l_cat (L : nat) (conv : V -> V) (args : list (@cat_arg V)) : outcome (list Z * list V) :=
  let size := fold_left (fun s a => w64 (s + cat_size a)) args 0 in
  let* vs := foldO (l_cat_push L conv size) args [] in
  let* _ := lassert L lv_invalid (Z.of_nat (length vs) =? size) in
  Ok ([size], vs).

(** [to_vector(array)], [as_vector(array)] (array/numeric.hpp:72-76, 86-90; array/array.hpp:250-265). *)
Definition l_as_vector (L : nat) (conv : V -> V) (fuel : nat) (m : mem) (e : expr) : outcome (list Z * list V) :=
  let* r := l_build L e [] in
  let* n := xdist fuel (sbeg (fst r)) (send (fst r)) in
  let* q := copy_n (Z.to_nat n) (snd r) m (sbeg (fst r)) in
  Ok ([n], map conv (fst q)).
End Expressions.
