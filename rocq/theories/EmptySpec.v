(** * EmptySpec: subscripts that select nothing.  Vocabulary of C52. *)

From Coq Require Import ZArith List Bool.
From Verif Require Import Base Spec Slice SliceSpec.
Import ListNotations.
Open Scope Z_scope.

(** The subscript asks for no index at all in a dimension of extent [e]: extent 0, a bounded slice that
    starts at or after the end or takes at most 0 indices, an empty index range. *)
Definition selects_nothing (u : uarg) (e : Z) : Prop :=
  match u with
  | UIdx _ | UEvery => False
  | USlice s n => 0 <= s < W /\ n = 0
  | UStrided s n t => 0 <= s /\ n = 0 /\ 0 < t
  | UBound s m => 0 <= s < W /\ 0 <= m /\ (e <= s \/ m = 0)
  | UBoundS s m t => 0 <= s /\ 0 <= m /\ 0 < t /\ (e <= s \/ m = 0)
  | URange l => l = []
  end.

(** One subscript per dimension, each of them valid or empty, at least one of them empty. *)
Definition empty_request (us : list uarg) (shape : list Z) : Prop :=
  Forall2 (fun u e => ok_arg u e \/ selects_nothing u e) us shape /\ ~ Forall2 ok_arg us shape.

(** [every]...[every] followed by [slice(s,n)] in the last position (possibly [slice(s,n)] alone). *)
Fixpoint every_then_slice (us : list uarg) : bool :=
  match us with
  | [USlice _ _] => true
  | UEvery :: us' => every_then_slice us'
  | _ => false
  end.

(** Subscripts which on a contiguous array do not go through the general code: those above and, in one dimension, a bounded
    slice or an index range. *)
Definition contiguous_shortcut (us : list uarg) : bool :=
  match us with
  | [UBound _ _] | [URange _] => true
  | _ => every_then_slice us
  end.

(** Does the chain contain an index range? *)
Definition has_range (us : list uarg) : bool := negb (forallb no_range us).
