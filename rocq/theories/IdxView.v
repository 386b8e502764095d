(** * IdxView: model of views by an index container: which of them keep referring to the container.  Definitions only. *)

From Coq Require Import ZArith List Bool.
From Verif Require Import Base Desc Slice.
Import ListNotations.
Open Scope Z_scope.

(** The buffers of the program's containers of [index_t]; [None]: released (the container was destroyed, or reallocated its elements). *)
Definition bufs : Type := list (option (list Z)).

(** How [index_view(rng)] (base/index_view.hpp:35-55) gets at the indices of a range:
    [KRefer b]: the iterators are pointers into buffer [b]: only they are kept (l.37: std::vector<index_t>; l.44-46: jules arrays of index_t, std::array, ...);
    [KKeep l]: the elements [l] are copied into a new const_vector (l.47-52), or the range is a const_vector, e.g. the result of
    [which], whose immutable elements are shared (l.35). *)
Inductive container : Type :=
| KRefer (b : nat)
| KKeep (l : list Z).

(** The program's later actions on its containers: write an element, release a buffer, make a new one. *)
Inductive icmd : Type :=
| CSet (b : nat) (k : nat) (x : Z)
| CFree (b : nat)
| CNew (l : list Z).

(** Simplification: operations of std::vector that reallocate are [CFree] and [CNew]. *)
Definition iexec (c : icmd) (bs : bufs) : outcome bufs :=
  match c with
  | CSet b k x => match nth_error bs b with
                  | Some (Some l) => if Nat.ltb k (length l) then Ok (upd_nat bs b (Some (upd_nat l k x))) else UB
                  | _ => UB
                  end
  | CFree b => match nth_error bs b with Some (Some _) => Ok (upd_nat bs b None) | _ => UB end
  | CNew l => Ok (bs ++ [Some l])
  end.

(** The elements of buffer [b]; reading a released buffer is undefined. *)
Definition buf (bs : bufs) (b : nat) : outcome (list Z) :=
  match nth_error bs b with Some (Some l) => Ok l | _ => UB end.

(** A view: one that keeps all it needs, or [strided_ref_array<T, vector_mapper<1>>] on [data] = [off] whose index_view refers to the
    [n] elements of buffer [b] (array/slicing.hpp:266-270, array/mapper.hpp:50-55). *)
Inductive iview : Type :=
| IV (s : st)
| IB (off : Z) (b : nat) (n : nat).

(** The view as it is now: what its mapper reads ([map], [index_begin], array/mapper.hpp:57-61, 80-81) through the pointers of the index_view. *)
Definition current (bs : bufs) (v : iview) : outcome st :=
  match v with
  | IV s => Ok s
  | IB off b n => let* l := buf bs b in if Nat.leb n (length l) then Ok (SView off (MVec (SD 0 [Z.of_nat n] [1]) (firstn n l))) else UB
  end.

(** A subscript: one of [uarg] that is not a range, or a range. *)
Inductive iarg : Type :=
| APlain (u : uarg)
| ARng (k : container).

(** The subscript with the indices as they are during the call. *)
Definition now (bs : bufs) (a : iarg) : outcome uarg :=
  match a with
  | APlain u => Ok u
  | ARng (KRefer b) => let* l := buf bs b in Ok (URange l)
  | ARng (KKeep l) => Ok (URange l)
  end.

(** A chain of subscripts.  A contiguous one-dimensional array subscripted by a container keeps an index_view of it (array/slicing.hpp:263-271);
    [every] copies a one-dimensional view, index_view included (slicing.hpp:224-228); every other chain computes the positions during the call
    ([indirect_slicing], slicing.hpp:167-184; [vector_mapper::map], array/mapper.hpp:63-78; [drop_first_dimension], mapper.hpp:83-95) and keeps these. *)
Definition isubs (chk : bool) (fuel : nat) (bs : bufs) (v : iview) (args : list iarg) : outcome iview :=
  match v, args with
  | IV (SRef off [e]), [ARng (KRefer b)] =>
      let* l := buf bs b in
      let* _ := run chk fuel (SRef off [e]) [URange l] in
      Ok (IB off b (length l))
  | IB off b n, [APlain UEvery] => Ok (IB off b n)
  | _, _ =>
      let* s := current bs v in
      let* us := mapO (now bs) args in
      let* s' := run chk fuel s us in
      Ok (IV s')
  end.
