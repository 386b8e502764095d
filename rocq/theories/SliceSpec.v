(** * SliceSpec: what indexing and slicing should mean.  Independent of the slicing code. *)

From Coq Require Import ZArith List Bool.
From Verif Require Import Base Spec Slice.
Import ListNotations.
Open Scope Z_scope.

(** PTRDIFF_MAX: no storage has more elements. *)
Definition MAXSZ : Z := 2 ^ 63 - 1.

(** Extents of an existing non-empty array. *)
Definition good_shape (es : list Z) : Prop := es <> [] /\ all_pos es /\ zprod es <= MAXSZ.

(** The subscript is not an index range. *)
Definition no_range (u : uarg) : bool := match u with URange _ => false | _ => true end.

(** Indices selected, in order, by one subscript in a dimension of extent [e].
    A bounded slice takes at most [m] indices and keeps those that exist. *)
Definition sel (u : uarg) (e : Z) : list Z :=
  match u with
  | UIdx i => [i]
  | USlice s n => map (fun k => s + k) (iota n)
  | UStrided s n t => map (fun k => s + k * t) (iota n)
  | UEvery => iota e
  | UBound s m => filter (fun x => x <? e) (map (fun k => s + k) (iota m))
  | UBoundS s m t => filter (fun x => x <? e) (map (fun k => s + k * t) (iota m))
  | URange l => l
  end.

(** Strided bounded slices for which the code computes the right number of indices (see
    [bounded_strided_count_refuted]: in the other cases it loses the last one): the remainder of the available length by the
    stride is 0 or stride-1, or the bound [m] cuts earlier anyway.  In particular every stride <= 2 is fine. *)
Definition bounded_stride_ok (s m t e : Z) : Prop :=
  (e - s) mod t = 0 \/ (e - s) mod t = t - 1 \/ m <= (e - s) / t.

(** The subscript is meaningful for a dimension of extent [e]: it selects at least one index,
    only existing ones, and a stride is not longer than the dimension. *)
Definition ok_arg (u : uarg) (e : Z) : Prop :=
  match u with
  | UIdx i => 0 <= i < e
  | USlice s n => 0 <= s /\ 0 < n /\ s + n <= e
  | UStrided s n t => 0 <= s /\ 0 < n /\ 0 < t <= e /\ s + (n - 1) * t < e
  | UEvery => True
  | UBound s m => 0 <= s < e /\ 0 < m
  | UBoundS s m t => 0 <= s < e /\ 0 < m /\ 0 < t <= e /\ bounded_stride_ok s m t e
  | URange l => l <> [] /\ Forall (fun i => 0 <= i < e) l
  end.

Fixpoint sels (us : list uarg) (es : list Z) : list (list Z) :=
  match us, es with
  | u :: us', e :: es' => sel u e :: sels us' es'
  | _, _ => []
  end.

(** Extents of [a[u0]...[uk]]: leading single indices remove their dimension, later
    ones keep it with extent 1, slices keep it with the number of selected indices. *)
Fixpoint result_shape (us : list uarg) (es : list Z) : list Z :=
  match us, es with
  | UIdx _ :: us', _ :: es' => result_shape us' es'
  | _, _ => map (fun s => Z.of_nat (length s)) (sels us es)
  end.

(** An abstract view: its extents and, in column-major order, the storage positions of its elements. *)
Definition aview : Type := (list Z * list Z)%type.

(** Element of an abstract view at an index tuple. *)
Definition aview_at (v : aview) (ix : list Z) : Z := nth (Z.to_nat (cm_pos (fst v) ix)) (snd v) 0.

(** The view obtained by subscripting every dimension of [v]. *)
Definition aselect (v : aview) (us : list uarg) : aview :=
  (result_shape us (fst v), map (aview_at v) (cart (sels us (fst v)))).

(** The whole owning array with extents [es]. *)
Definition afull (es : list Z) : aview := (es, iota (zprod es)).

(** The subscripts [us] are valid for [v]: one per dimension, each valid, at least one is not a single
    index, and the result has a representable size.  *)
Definition is_index (u : uarg) : bool := match u with UIdx _ => true | _ => false end.
Definition ok_step (v : aview) (us : list uarg) : Prop :=
  Forall2 ok_arg us (fst v) /\ forallb is_index us = false /\
  zprod (result_shape us (fst v)) <= MAXSZ.

(** Subscripts the C++ loses.  While the subscripts of a slicing are collected, an index or a plain slice that is neither
    the first nor the last one is kept as a reference to a parameter that no longer exists (array/slicing.hpp:309-313, 341-343).
    On a contiguous array this also happens to a bounded slice that follows leading [every]s (slicing.hpp:402-404, 423), and an
    index there does not compile (slicing.hpp:371).  Leading indices are not collected: each one gives a (non-contiguous) view. *)
Definition kept_by_reference (u : uarg) : bool :=
  match u with UIdx _ | USlice _ _ | UStrided _ _ _ => true | _ => false end.
Fixpoint middle_lost (us : list uarg) : bool :=
  match us with
  | u :: r => match r with [] => false | _ => kept_by_reference u || middle_lost r end
  | [] => false
  end.
Fixpoint lost_after_every (us : list uarg) : bool :=
  match us with
  | UEvery :: r => lost_after_every r
  | URange _ :: r => middle_lost r
  | _ :: _ :: _ => true
  | _ => false
  end.
Fixpoint loses (contiguous : bool) (us : list uarg) : bool :=
  match us with
  | UIdx _ :: r => loses false r
  | UEvery :: r => if contiguous then lost_after_every r else middle_lost r
  | _ :: r => middle_lost r
  | [] => false
  end.

(** The source is an array or a [ref_array], not a [strided_ref_array]. *)
Definition contiguous (s : st) : bool := match s with SRef _ _ => true | _ => false end.

(** A history of slicings of slicings, none of which loses a subscript. *)
Fixpoint aselects (v : aview) (steps : list (list uarg)) : aview :=
  match steps with [] => v | us :: r => aselects (aselect v us) r end.
Fixpoint ok_steps (v : aview) (steps : list (list uarg)) : Prop :=
  match steps with
  | [] => True
  | us :: r => ok_step v us /\ loses true us = false /\ ok_steps (aselect v us) r
  end.

(** A history of valid slicings, including those that lose a subscript. *)
Fixpoint valid_steps (v : aview) (steps : list (list uarg)) : Prop :=
  match steps with
  | [] => True
  | us :: r => ok_step v us /\ valid_steps (aselect v us) r
  end.

(** Source index designated by index tuple [ix] of the sub-array [a[u0]...[uk]] (one coordinate per subscript). *)
Definition src_coord (u : uarg) (k : Z) : Z :=
  match u with
  | UIdx i => i
  | USlice s _ | UBound s _ => s + k
  | UStrided s _ t | UBoundS s _ t => s + k * t
  | UEvery => k
  | URange l => nth (Z.to_nat k) l 0
  end.
Fixpoint src_index (us : list uarg) (ix : list Z) : list Z :=
  match us, ix with
  | u :: us', k :: ix' => src_coord u k :: src_index us' ix'
  | _, _ => []
  end.

(** Two slicings (start, extent, stride) done one after the other, and the single one with the composed
    start and stride. *)
Definition triple : Type := (Z * Z * Z)%type.
Definition strided (p : triple) : uarg := match p with (s, n, t) => UStrided s n t end.
Definition compose (p q : triple) : triple :=
  match p, q with (s1, n1, t1), (s2, n2, t2) => (s1 + s2 * t1, n2, t1 * t2) end.
Fixpoint compose_all (ps qs : list triple) : list triple :=
  match ps, qs with
  | p :: ps', q :: qs' => compose p q :: compose_all ps' qs'
  | _, _ => []
  end.

(** Indices of a slice (start, extent, stride). *)
Definition indices (p : triple) : list Z := match p with (s, n, t) => map (fun k => s + k * t) (iota n) end.

(** The subscripts [us], the first of which is not a single index, select the indices of the slices [ps] in dimensions [es]:
    [slice(s, n, t)], [slice(s, at_most(n), t)], [every], ... *)
Definition selects (us : list uarg) (es : list Z) (ps : list triple) : Prop :=
  sels us es = map indices ps /\ match us with UIdx _ :: _ => False | _ => True end.

(** A subscript that designates an index outside the dimension although all its fields are
    representable and start + (extent-1)*stride does not overflow. *)
Definition bad_arg (u : uarg) (e : Z) : Prop :=
  match u with
  | UIdx i => e <= i
  | USlice s n => 0 <= s /\ 0 < n /\ e < s + n /\ s + n <= W
  | UStrided s n t => 0 <= s /\ 0 < n /\ 0 < t /\ e <= s + (n - 1) * t < W
  | URange l => Forall (fun i => 0 <= i) l /\ Exists (fun i => e <= i) l
  | UEvery | UBound _ _ | UBoundS _ _ _ => False
  end.

(** Digits of [k] in the mixed radix system given by the extents, first dimension first. *)
Fixpoint digits (es : list Z) (k : Z) : list Z :=
  match es with
  | [] => []
  | e :: es' => k mod e :: digits es' (k / e)
  end.
