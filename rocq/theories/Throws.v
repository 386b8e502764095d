(** * Throws: model of the throwing build.  Definitions only.

    With JULES_DEBUG_THROWS, as in the project's own test suite (test/CMakeLists.txt:73), [debug::default_module] is the throwing module
    (core/debug.hpp:60-64): its level is the highest one in every build (core/debug.hpp:43), and a failed [DEBUG_ASSERT] throws
    [std::logic_error] (core/debug.hpp:45-57).  Where the check is inside a function declared [noexcept] the exception ends the
    program ([std::terminate]).

    The functions are those of Desc.v, Slice.v, Expr.v and Numeric.v that contain checks, in the same order, each check replaced by [tassert]; [Abort] now
    means [std::terminate]. *)

From Coq Require Import ZArith List Bool.
From Verif Require Import Base Desc Slice Expr Numeric ArrAssign.
Import ListNotations.
Open Scope Z_scope.

(** [DEBUG_ASSERT(c, default_module, ...)] in the throwing build (core/debug.hpp:43-58, 63). *)
Definition tassert (c : bool) : outcome unit := if c then Ok tt else Throw LogicError.

(** Body of a function declared [noexcept]: an exception that leaves it ends the program. *)
Definition noexceptO {A} (x : outcome A) : outcome A := match x with Throw _ => Abort | _ => x end.

(** [strided_descriptor(start, extents)] (array/strided_descriptor.hpp:98-107; for N = 1: 258): [noexcept]. *)
Definition t_sd_infer (start : Z) (es : list Z) : outcome sdesc :=
  noexceptO
   (match es with
    | [e] => Ok (SD start [e] [1])
    | _ => let* _ := tassert (forallb (fun e => negb (e =? 0)) es) in
           Ok (SD start es (infer_strides 1 es))
    end).

(** [detail::drop_one_level_extents] (array/detail/common.hpp:58-75). *)
Definition t_drop_one_level_extents (D : nat) (es : list Z) : outcome (list Z) :=
  let* _ := tassert (Nat.leb (length es - D) (count_units es)) in
  let r := drop_units (length es - D) es in
  if Nat.leb (length r) D then Ok (r ++ repeat 1 (D - length r)) else UB.

(** [strided_descriptor::drop_one_level_dimensions] (array/strided_descriptor.hpp:144-169). *)
Definition t_sd_drop (D : nat) (d : sdesc) : outcome sdesc :=
  let es := sd_exts d in
  let* _ := tassert (Nat.leb (length es - D) (count_units es)) in
  let (e', s') := drop_units2 (length es - D) es (sd_strs d) in
  if Nat.leb (length e') D
  then Ok (SD (sd_start d) (e' ++ repeat 1 (D - length e')) (s' ++ repeat 1 (D - length s')))
  else UB.

(** [vector_mapper(extents, indexes)] (array/mapper.hpp:50-55). *)
Definition t_mk_vec (es idx : list Z) : outcome mapper :=
  let* d := t_sd_infer 0 es in
  let* _ := tassert (Z.of_nat (length idx) =? sd_size d) in
  Ok (MVec d idx).

(** [map(index)] (array/mapper.hpp:22 and 57-61). *)
Definition t_m_map (m : mapper) (i : Z) : outcome Z :=
  match m with
  | MId _ => Ok i
  | MVec _ idx => let* _ := tassert (i <? Z.of_nat (length idx)) in get idx i
  end.

(** [drop_first_dimension(i)] (array/mapper.hpp:28-33 and 83-95): [noexcept]. *)
Definition t_m_drop_first (fuel : nat) (m : mapper) (i : Z) : outcome mapper :=
  match m with
  | MId d =>
      let nd := sd_discard d in
      Ok (MId (SD (w64 (sd_start d + w64 (hd 0 (sd_strs d) * i))) (sd_exts nd) (sd_strs nd)))
  | MVec d idx =>
      let nd := sd_discard d in
      let nd := SD (w64 (sd_start d + i)) (sd_exts nd) (sd_strs nd) in
      noexceptO (let* ps := sd_walk fuel nd in
                 let* idx' := mapO (t_m_map m) ps in
                 t_mk_vec (sd_exts nd) idx')
  end.

(** [detail::do_slice], default slicing (array/slicing.hpp:51-84), with CHECK_STRIDE, CHECK_EXTENT and CHECK_BOUNDS
    (slicing.hpp:13-20).  An index range never reaches this overload. *)
Fixpoint t_do_slice (start : Z) (es ss : list Z) (args : list rarg) : outcome (Z * list Z * list Z) :=
  match args, es, ss with
  | [], [], [] => Ok (start, [], [])
  | RSl s n t :: args', e :: es', st :: ss' =>
      let* _ := tassert (0 <? t) in
      let* _ := tassert (0 <? n) in
      let* _ := tassert (w64 (s + w64 (w64 (n - 1) * t)) <? e) in
      let* (start', es'', ss'') := t_do_slice (w64 (start + w64 (st * s))) es' ss' args' in
      Ok (start', n :: es'', w64 (st * t) :: ss'')
  | RIdx i :: args', e :: es', st :: ss' =>
      let* _ := tassert (i <? e) in
      let* (start', es'', ss'') := t_do_slice (w64 (start + w64 (st * i))) es' ss' args' in
      Ok (start', 1 :: es'', 1 :: ss'')
  | _, _, _ => UB
  end.

(** [detail::default_slicing] (array/slicing.hpp:86-95). *)
Definition t_default_slicing (d : sdesc) (args : list rarg) : outcome sdesc :=
  let* (start', es', ss') := t_do_slice (sd_start d) (sd_exts d) (sd_strs d) args in
  Ok (SD start' es' ss').

(** [detail::do_slice], indirect slicing (array/slicing.hpp:110-165).  [rargs] are the
    remaining arguments, last dimension first (slicing.hpp:175); [ix] the indexes already chosen for the
    later dimensions ([array_cat(i, ix)]); the state is ([extents], [indexes]). *)
Fixpoint t_do_ind (d : sdesc) (rargs : list rarg) (ix : list Z)
    (acc : list Z * list Z) {struct rargs} : outcome (list Z * list Z) :=
  match rargs with
  | [] => Ok (fst acc, snd acc ++ [sd_at d ix])
  | a :: rest =>
      let I := length rest in
      let e := nth I (sd_exts d) 0 in
      match a with
      | RIdx i =>
          let* _ := tassert (i <? e) in
          t_do_ind d rest (i :: ix) (upd_nat (fst acc) I 1, snd acc)
      | RSl s n t =>
          let* _ := tassert (0 <? t) in
          let* _ := tassert (0 <? n) in
          let* _ := tassert (w64 (s + w64 (w64 (n - 1) * t)) <? e) in
          foldO (fun acc k => t_do_ind d rest (w64 (s + w64 (k * t)) :: ix) acc)
                (map Z.of_nat (seq 0 (Z.to_nat n))) (upd_nat (fst acc) I n, snd acc)
      | RRng l =>
          let* _ := tassert (max_idx l <? e) in
          foldO (fun acc i => t_do_ind d rest (i :: ix) acc)
                l (upd_nat (fst acc) I (Z.of_nat (length l)), snd acc)
      end
  end.

(** [detail::indirect_slicing] (array/slicing.hpp:167-184). *)
Definition t_indirect_slicing (d : sdesc) (args : list rarg) : outcome (list Z * list Z) :=
  t_do_ind d (rev args) [] (map (fun _ => 0) (sd_exts d), []).

(** [detail::array_slice] (array/slicing.hpp:188-209): the mapper of the resulting view. *)
Definition t_array_slice (fuel : nat) (m : mapper) (args : list rarg) : outcome mapper :=
  if existsb is_rng args then
    let* (es, ps) := t_indirect_slicing (m_desc m) args in
    match m with
    | MId _ => t_mk_vec es ps
    | MVec _ _ => let* idx := mapO (t_m_map m) ps in t_mk_vec es idx
    end
  else
    let* nd := t_default_slicing (m_desc m) args in
    match m with
    | MId _ => Ok (MId nd)
    | MVec _ _ =>
        let* ps := sd_walk fuel nd in
        let* idx := mapO (t_m_map m) ps in
        t_mk_vec (sd_exts nd) idx
    end.

(** [strided_ref_array_proxy::at] (array/slicing.hpp:331-345).  Before the last dimension the new proxy stores an
    argument given by name as a reference ([IndexType] is an lvalue reference type, slicing.hpp:341-343) to the parameter of
    [operator[]], which does not exist any more when the proxy is indexed again and reads it (slicing.hpp:339).
    Simplification: undefined already when that proxy is returned; a proxy has no other use than being indexed. *)
Definition t_proxy_at (fuel : nat) (off : Z) (m : mapper) (args : list rarg) (named : bool) (r : rarg) : outcome st :=
  if Nat.eqb (S (length args)) (length (sd_exts (m_desc m)))
  then let* m' := t_array_slice fuel m (args ++ [r]) in Ok (SView off m')
  else if named then UB
  else Ok (SProxy off m (args ++ [r])).

(** [strided_ref_array_proxy::operator[]] (array/slicing.hpp:309-328). *)
Definition t_proxy_index (fuel : nat) (off : Z) (m : mapper) (args : list rarg) (u : uarg) : outcome st :=
  let* r := resolve u (nth (length args) (sd_exts (m_desc m)) 0) in
  t_proxy_at fuel off m args (by_name u) r.

(** [detail::array_at(T*, Mapper, ...)] (array/slicing.hpp:211-242). *)
Definition t_view_index (fuel : nat) (off : Z) (m : mapper) (u : uarg) : outcome st :=
  let es := sd_exts (m_desc m) in
  let order1 := Nat.eqb (length es) 1 in
  match u with
  | UIdx i =>
      let* _ := tassert (i <? hd 0 es) in
      if order1
      then let* p := t_m_map m (sd_at (m_desc m) [i]) in Ok (SElem (off + p))
      else let* m' := t_m_drop_first fuel m i in Ok (SView off m')
  | UEvery =>
      if order1 then Ok (SView off m) else Ok (SProxy off m [RSl 0 (hd 0 es) 1])
  | _ =>
      let* r := resolve u (hd 0 es) in
      if order1
      then let* m' := t_array_slice fuel m [r] in Ok (SView off m')
      else Ok (SProxy off m [r])
  end.

(** [detail::array_at(U*, descriptor<M>, absolute_slice)] (array/slicing.hpp:276-285). *)
Definition t_ref_abs (off : Z) (es : list Z) (s n : Z) : outcome st :=
  match es with
  | [e] =>
      let* _ := tassert (w64 (w64 (s + n) - 1) <? e) in
      Ok (SRef (off + s) [n])
  | _ => let* d := t_sd_infer 0 es in Ok (SProxy off (MId d) [RSl s n 1])
  end.

(** [array_at] with an absolute strided slice through an identity mapper (array/slicing.hpp:287-290, 234-242). *)
Definition t_ref_strided (fuel : nat) (off : Z) (es : list Z) (s n t : Z) : outcome st :=
  let* d := t_sd_infer 0 es in
  if Nat.eqb (length es) 1
  then let* m' := t_array_slice fuel (MId d) [RSl s n t] in Ok (SView off m')
  else Ok (SProxy off (MId d) [RSl s n t]).

(** [ref_array::operator[]] (array/ref_array.hpp:99-161) through [detail::array_at] for
    [descriptor<M>] (array/slicing.hpp:244-290).  For M = 1 a range is kept as an [index_view]
    (slicing.hpp:266-270). *)
Definition t_ref_index (fuel : nat) (off : Z) (es : list Z) (u : uarg) : outcome st :=
  let order1 := Nat.eqb (length es) 1 in
  match u with
  | UIdx i =>
      let* _ := tassert (i <? hd 0 es) in
      if order1 then Ok (SElem (off + i))
      else let* d := t_sd_infer i es in Ok (SView off (MId (sd_discard d)))
  | UEvery => if order1 then Ok (SRef off es) else Ok (SEvery off es 1)
  | URange l =>
      if order1
      then let* _ := tassert (max_idx l <? hd 0 es) in
           let* m := t_mk_vec [Z.of_nat (length l)] l in Ok (SView off m)
      else let* d := t_sd_infer 0 es in Ok (SProxy off (MId d) [RRng l])
  | USlice s n => t_ref_abs off es s n
  | UStrided s n t => t_ref_strided fuel off es s n t
  | UBound s m => let (s', n) := eval_bounded s m (hd 0 es) in t_ref_abs off es s' n
  | UBoundS s m t =>
      let* (s', n, t') := eval_bounded_strided s m t (hd 0 es) in t_ref_strided fuel off es s' n t'
  end.

(** [ref_array_every_proxy::at] (array/slicing.hpp:413-424): generic path, the M leading dimensions
    are full slices.  [proxy_type{...}[index]] calls [strided_ref_array_proxy::operator[]], whose parameter is a copy of [index]
    unless it is a range. *)
Definition t_every_at (fuel : nat) (off : Z) (es : list Z) (M : nat) (r : rarg) : outcome st :=
  let* d := t_sd_infer 0 es in
  t_proxy_at fuel off (MId d) (map (fun e => RSl 0 e 1) (firstn M es)) (negb (is_rng r)) r.

(** [ref_array_every_proxy::operator[]] (array/slicing.hpp:360-410).  With an index and M < N-1 the C++ is
    ill-formed ([at(slice)] with the overloaded function [slice], slicing.hpp:371): modelled as [UB]. *)
Definition t_every_index (fuel : nat) (off : Z) (es : list Z) (M : nat) (u : uarg) : outcome st :=
  let is_last := Nat.eqb (S M) (length es) in
  let last_dim := last es 0 in
  match u with
  | UIdx i =>
      if is_last then
        let* _ := tassert (i <? last_dim) in
        if last_dim =? 0 then UB else
        let stride := prod_arr es / last_dim in
        Ok (SRef (off + w64 (i * stride)) (set_last es 1))
      else UB
  | USlice s n =>
      if is_last then
        let* _ := tassert (w64 (w64 (s + n) - 1) <? last_dim) in
        if last_dim =? 0 then UB else
        let stride := prod_arr es / last_dim in
        Ok (SRef (off + w64 (s * stride)) (set_last es n))
      else t_every_at fuel off es M (RSl s n 1)
  | UEvery => if is_last then Ok (SRef off es) else Ok (SEvery off es (S M))
  | _ => let* r := resolve u (nth M es 0) in t_every_at fuel off es M r
  end.

(** One application of [operator[]]. *)
Definition t_op_index (fuel : nat) (s : st) (u : uarg) : outcome st :=
  match s with
  | SElem _ => UB (* not an array *)
  | SRef off es => t_ref_index fuel off es u
  | SEvery off es M => t_every_index fuel off es M u
  | SView off m => t_view_index fuel off m u
  | SProxy off m args => t_proxy_index fuel off m args u
  end.

(** A chain [a[u0][u1]...]. *)
Definition t_run (fuel : nat) (s : st) (us : list uarg) : outcome st :=
  foldO (t_op_index fuel) us s.

(** [drop_to<D>], D >= 1 (array/ref_array.hpp:196-203, array/strided_ref_array.hpp:180-188,
    array/mapper.hpp:35-38).  [vector_mapper::drop_one_level_dimensions] (mapper.hpp:97-100) is ill-formed
    when instantiated: modelled as [UB]. *)
Definition t_drop_to (D : nat) (s : st) : outcome st :=
  match s with
  | SRef off es => let* es' := t_drop_one_level_extents D es in Ok (SRef off es')
  | SView off (MId d) => let* d' := t_sd_drop D d in Ok (SView off (MId d'))
  | _ => UB
  end.

(** [drop_to<0>] (array/ref_array.hpp:198-201, array/strided_ref_array.hpp:182-184): returns the element the
    [data] pointer designates. *)
Definition t_drop_to_scalar (s : st) : outcome Z :=
  match s with
  | SRef off es => let* _ := tassert (prod_arr es =? 1) in Ok off
  | SView off m => let* _ := tassert (sd_size (m_desc m) =? 1) in Ok off
  | _ => UB
  end.

(** [axis_at<Axis>(arr, i)] (array/axis.hpp:17-35): index with [every] except in dimension [Axis],
    then [drop_to<N-1>]. *)
Definition t_axis_at (fuel : nat) (axis : nat) (s : st) (i : Z) : outcome st :=
  match dims s with
  | None => UB
  | Some es =>
      let N := length es in
      let* s' := t_run fuel s (map (fun k => if Nat.eqb k axis then UIdx i else UEvery) (seq 0 N)) in
      match dims s' with
      | Some es' => if Nat.eqb (length es') (N - 1)
                    then Ok s' (* drop_to<N-1> of an order N-1 array: nothing to drop *)
                    else t_drop_to (N - 1) s'
      | None => UB
      end
  end.

(** Items of [axis_array] (array/axis.hpp:137, 151-153): dereferencing every position
    from 0 to [dimensions()[Axis]]. *)
Definition t_axis_items (fuel : nat) (axis : nat) (s : st) : outcome (list st) :=
  match dims s with
  | None => UB
  | Some es => mapO (t_axis_at fuel axis s) (map Z.of_nat (seq 0 (Z.to_nat (nth axis es 0))))
  end.


(** [reshape_to(ref_array, descriptor)], [reshape], [reshape_as] (array/ref_array.hpp:212-217, array/reshape.hpp:33-43): [noexcept]. *)
Definition t_reshape_ref (s : st) (es' : list Z) : outcome st :=
  match s with
  | SRef off es => noexceptO (let* _ := tassert (prod_arr es =? prod_arr es') in Ok (SRef off es'))
  | _ => UB
  end.

(** [seq(start, stop, step)] (array/numeric.hpp:24-39). *)
Definition t_seq_model (start stop step : Z) : outcome (list Z) :=
  let* _ := tassert (negb (step =? 0)) in
  let* _ := tassert ((start <=? stop) || (step <? 0)) in
  let* _ := tassert ((stop <=? start) || (0 <? step)) in
  let* diff := sres (s64 stop - s64 start) in
  if step =? 0 then UB else
  let* q := sres (Z.quot diff step) in
  let* n := sres (q + 1) in
  let size := w64 n in
  if vec_max <? size then Throw LogicError
  else Ok (seq_loop (Z.to_nat size) start step).

(** *** expressions and assignments

    An exception can be caught: what was already written matters, so the assignments return the memory in every case. *)
Section Expressions.
Context {V : Type}.
Notation mem := (@mem V).
Notation expr := (@expr V).
Notation heap := (@heap V).
Notation src := (@src).

(** [apply] and the operators (array/functional.hpp:46-71, array/math.hpp): see [build] in Expr.v. *)
Fixpoint t_build (e : expr) (h : heap) : outcome (src * heap) :=
  match e with
  | ELeaf sid s =>
      let* r := leaf_range s in
      match dims s with
      | Some es => Ok (Src (XLeaf sid (fst r)) (XLeaf sid (snd r)) es, h)
      | None => UB
      end
  | EUn f e' => let* r := t_build e' h in Ok (mk_un (snd r) (F1 f) (fst r) (sdim (fst r)))
  | ELeft f c e' => let* r := t_build e' h in Ok (mk_un (snd r) (F1 (left_operation c f)) (fst r) (sdim (fst r)))
  | ERight f e' c => let* r := t_build e' h in Ok (mk_un (snd r) (F1 (right_operation c f)) (fst r) (sdim (fst r)))
  | EBin f e1 e2 =>
      let* r1 := t_build e1 h in
      let* r2 := t_build e2 (snd r1) in
      let* _ := tassert (Zlist_eqb (sdim (fst r1)) (sdim (fst r2))) in
      let h' := snd r2 in
      Ok (Src (XBin (length h') (sbeg (fst r1)) (sbeg (fst r2))) (XBin (length h') (send (fst r1)) (send (fst r2))) (sdim (fst r1)),
          h' ++ [Some (F2 f)])
  | EDrop D e' =>
      let* r := t_build e' h in
      let* es := t_drop_one_level_extents D (sdim (fst r)) in
      Ok (mk_un (snd r) FFwd (fst r) es)
  end.

(** [array(expression)], [as_vector(expression)] (array/array.hpp:218-233): evaluating into a new array. *)
Definition t_eval_expr (m : mem) (e : expr) : outcome (list Z * list V * list (list (nat * Z))) :=
  let* r := t_build e [] in materialise (snd r) m (fst r).

(** Sequencing with the memory kept; only operations without effect on it are sequenced this way. *)
Definition pure {A B} (m : mem) (x : outcome A) (k : A -> outcome B * mem) : outcome B * mem :=
  match x with
  | Ok a => k a
  | Throw e => (Throw e, m)
  | Abort => (Abort, m)
  | UB => (UB, m)
  | Timeout => (Timeout, m)
  end.

(** [detail::array_assign] (array/detail/common.hpp:22-36).  The memory after [assign_loop] is only known when the loop ends, which is the only case in
    which the second check is reached; otherwise the run is undefined. *)
Definition t_array_assign (fuel : nat) (h : heap) (sid : nat) (s : st) (x : src) (m : mem) : outcome unit * mem :=
  match dims s with
  | None => (UB, m)
  | Some es =>
      pure m (tassert (Zlist_eqb (sdim x) es)) (fun _ =>
      pure m (leaf_range s) (fun r =>
      pure m (assign_loop fuel h sid (fst r) (snd r) (sbeg x) m) (fun q =>
      pure (fst q) (tassert (xeqb (snd q) (send x))) (fun _ =>
      (Ok tt, fst q)))))
  end.

(** [view = expression] (array/ref_array.hpp:70-74, array/strided_ref_array.hpp:76-80). *)
Definition t_view_assign (fuel : nat) (m : mem) (sid : nat) (s : st) (e : expr) : outcome unit * mem :=
  pure m (t_build e []) (fun r => t_array_assign fuel (snd r) sid s (fst r) m).

(** [view op= expression] (array/functional.hpp:80-94). *)
Definition t_view_inplace (fuel : nat) (m : mem) (sid : nat) (s : st) (f : V -> V -> V) (e : expr) : outcome unit * mem :=
  pure m (t_build e []) (fun r =>
  match dims s with
  | None => (UB, m)
  | Some es =>
      pure m (tassert (Zlist_eqb es (sdim (fst r)))) (fun _ =>
      pure m (leaf_range s) (fun l =>
      pure m (inplace_loop fuel (snd r) sid (fst l) (snd l) (sbeg (fst r)) f m) (fun q =>
      (Ok tt, fst q))))
  end).

(** [overlap(view) = expression] (array/overlap.hpp:17-22): the temporary array is destroyed in every case. *)
Definition t_overlap_assign (fuel : nat) (m : mem) (sid : nat) (s : st) (e : expr) : outcome unit * mem :=
  pure m (t_eval_expr m e) (fun r =>
  match r with
  | (es, vs, _) =>
      let new := length m in
      let q := t_view_assign fuel (m ++ [vs]) sid s (ELeaf new (SRef 0 es)) in
      (fst q, firstn new (snd q))
  end).

(** [array = expression] (array/array.hpp:318-344): the extents of the array and the memory afterwards. *)
Definition t_array_set (fuel : nat) (m : mem) (sid : nat) (es : list Z) (e : expr) : outcome (list Z) * mem :=
  pure m (t_build e []) (fun r =>
  let size := prod_arr (sdim (fst r)) in
  if prod_arr es =? size then
    pure m (copy_to fuel (snd r) (sbeg (fst r)) (send (fst r)) sid 0 m) (fun m' => (Ok (sdim (fst r)), m'))
  else
    pure m (copy_n (Z.to_nat size) (snd r) m (sbeg (fst r))) (fun q => (Ok (sdim (fst r)), upd_nat m sid (fst q)))).

Section Products.
Variables (zero : V) (add mul : V -> V -> V).

(** [sum(lhs[i][every] * drop(rhs[every][j]))] (array/numeric.hpp:59). *)
Definition t_product_elem (fuel : nat) (m : mem) (sa : nat) (a : st) (sb : nat) (b : st) (i j : Z) : outcome V :=
  let* r := t_run fuel a [UIdx i; UEvery] in
  let* c0 := t_run fuel b [UEvery; UIdx j] in
  let* c := t_drop_to 1 c0 in
  let* q := t_build (EBin mul (ELeaf sa r) (ELeaf sb c)) [] in
  sum_loop add fuel (snd q) m (sbeg (fst q)) (send (fst q)) zero.

(** The loops of [product] (array/numeric.hpp:57-59): see [product_loop] in Numeric.v. *)
Definition t_product_loop (fuel : nat) (m : mem) (sa : nat) (a : st) (sb : nat) (b : st) (rows cols : Z) : outcome (list V) :=
  let* cs := mapO (fun j => mapO (fun i => t_product_elem fuel m sa a sb b i j) (map Z.of_nat (seq 0 (Z.to_nat rows))))
                  (map Z.of_nat (seq 0 (Z.to_nat cols))) in
  Ok (concat cs).

(** [product(lhs, rhs)] (array/numeric.hpp:43-63, 65-70). *)
Definition t_product (fuel : nat) (m : mem) (sa : nat) (a : st) (sb : nat) (b : st) : outcome (list Z * list V) :=
  match dims a, dims b with
  | Some [r; c], Some [r'; c'] =>
      let* _ := tassert ((0 <? prod_arr [r; c]) && (0 <? prod_arr [r'; c'])) in
      let* _ := tassert (c =? r') in
      let* vs := t_product_loop fuel m sa a sb b r c' in
      Ok ([r; c'], vs)
  | _, _ => UB
  end.

(** [safe_int_cast] (array/blas.hpp:36-41). *)
Definition t_safe_int_cast (v : Z) : outcome Z :=
  let* _ := tassert (v <=? 2 ^ 31 - 1) in Ok (s32 v).

(** [blas::product(ref_array, ref_array, alpha)] (array/blas.hpp:43-65). *)
Definition t_blas_product (m : mem) (sa : nat) (offa : Z) (ea : list Z) (sb : nat) (offb : Z) (eb : list Z) (alpha : V) (junk : list V)
  : outcome (list Z * list V) :=
  match ea, eb with
  | [r; c], [r'; c'] =>
      let* _ := tassert ((0 <? prod_arr ea) && (0 <? prod_arr eb)) in
      let* _ := tassert (c =? r') in
      let m1 := m ++ [junk] in
      let* k := t_safe_int_cast c in
      let* rr := t_safe_int_cast r in
      let* rc := t_safe_int_cast c' in
      let* lr := t_safe_int_cast r in
      let* rhr := t_safe_int_cast r' in
      let* m2 := gemm zero add mul m1 rr rc k alpha (sa, offa) lr (sb, offb) rhr (length m, 0) rr in
      match nth_error m2 (length m) with
      | Some vs => Ok ([r; c'], vs)
      | None => UB
      end
  | _, _ => UB
  end.
End Products.
End Expressions.
