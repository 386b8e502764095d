(** * LifeSpec: what programs over arrays and builders should do, stated on values. *)

From Coq Require Import ZArith List Bool.
From Verif Require Import Base Spec Life.
Import ListNotations.
Open Scope Z_scope.

(** ** nested lists *)
(** All lists of the same level have the same length, given by the extents, none is empty. *)
Fixpoint rect {V} (N : nat) (es : list Z) : @nested V N -> Prop :=
  match N with
  | O => fun _ => es = []
  | S N' => fun l => match es with
                     | [] => False
                     | e :: es' => 0 < e /\ Z.of_nat (length l) = e /\ Forall (rect N' es') l
                     end
  end.

(** [l[i0][i1]...] *)
Fixpoint nested_at {V} (N : nat) (ix : list Z) : @nested V N -> option V :=
  match N with
  | O => fun v => Some v
  | S N' => fun l => match ix with
                     | [] => None
                     | i :: ix' => match nth_error l (Z.to_nat i) with
                                   | Some x => nested_at N' ix' x
                                   | None => None
                                   end
                     end
  end.

(** The lengths along the first elements. *)
Fixpoint nested_lens {V} (N : nat) : @nested V N -> list Z :=
  match N with
  | O => fun _ => []
  | S N' => fun l => Z.of_nat (length l) :: match l with [] => [] | a :: _ => nested_lens N' a end
  end.

(** ** values of variables *)
Inductive aobj (V : Type) : Type :=
| AArr (es : list Z) (vs : list V)   (* an array with these extents and elements (column-major) *)
| AMoved (es : list Z)               (* a moved-from array that was not empty *)
| ABld (es : list Z) (vs : list V)   (* a builder that received [vs] *)
| ABldMoved (es : list Z)            (* a moved-from builder *).
Arguments AArr {V} _ _. Arguments AMoved {V} _. Arguments ABld {V} _ _. Arguments ABldMoved {V} _.
Definition astore (V : Type) : Type := list (option (aobj V)).

Definition fits (es : list Z) : Prop := es <> [] /\ all_nonneg es /\ zprod es < W.
Definition dim_max (t : dimty) : Z := match t with DInt => 2 ^ 31 | DUInt => 2 ^ 32 | DLong => 2 ^ 63 | DSize => W end.
(** The dimensions [es] are given as values of the types [ts], and the product of every suffix of them is a value of the widest
    type of that suffix. *)
Definition widest (ts : list dimty) : Z := fold_right Z.max 0 (map dim_max ts).
Fixpoint dims_fit (ts : list dimty) (es : list Z) : Prop :=
  match ts, es with
  | [], [] => True
  | t :: ts', e :: es' => e < dim_max t /\ zprod (e :: es') < widest (t :: ts') /\ dims_fit ts' es'
  | _, _ => False
  end.

Section Spec.
Context {V : Type}.
Definition avar (st : astore V) (x : nat) : option (aobj V) := match nth_error st x with Some o => o | None => None end.
Definition afree (st : astore V) (x : nat) : Prop := nth_error st x = Some None.
Definition aset (st : astore V) (x : nat) (o : option (aobj V)) : astore V := upd_nat st x o.

Definition src_vals (s : @source V) (n : Z) : list V :=
  match s with
  | SrcValue v => repeat v (Z.to_nat n)
  | SrcSeq vs => firstn (Z.to_nat n) vs
  end.
Definition src_ok (s : @source V) (n : Z) : Prop :=
  match s with SrcValue _ => True | SrcSeq vs => n <= Z.of_nat (length vs) end.

(** A moved-from array: not distinguishable from an empty one when it was empty. *)
Definition moved_of (es : list Z) : aobj V := if zprod es =? 0 then AArr es [] else AMoved es.

(** What a program may do: variables are alive when used and not when created, dimensions fit
    in their type, sources have enough elements, nested lists are rectangular, builders are neither overfilled nor
    released early, a moved-from non-empty array is neither copied from nor
    assigned a value of its former size. *)
Definition ok_op (o : @op V) (st : astore V) : Prop :=
  match o with
  | ONew x t s es => afree st x /\ fits es /\ dims_fit t es /\ src_ok s (zprod es)
  | ODefault x N => afree st x /\ (1 <= N)%nat
  | OConv x vs es => afree st x /\ fits es /\ Z.of_nat (length vs) = zprod es
  | OList x N l => afree st x /\ (1 <= N)%nat /\ exists es, rect N es l /\ zprod es < W
  | OCopy x y => afree st x /\ exists es vs, avar st y = Some (AArr es vs)
  | OMove x y => afree st x /\ avar st y <> None
  | OAssign x y =>
      (x = y /\ exists es, (exists vs, avar st x = Some (AArr es vs)) \/ avar st x = Some (AMoved es)) \/
      (exists es vs, avar st y = Some (AArr es vs) /\
        exists es', ((exists vs', avar st x = Some (AArr es' vs')) \/ (avar st x = Some (AMoved es') /\ zprod es' <> zprod es)))
  | OAssignMove x y => x <> y /\
      (exists es, (exists vs, avar st x = Some (AArr es vs)) \/ avar st x = Some (AMoved es)) /\
      (exists es, (exists vs, avar st y = Some (AArr es vs)) \/ avar st y = Some (AMoved es))
  | OAssignConv x vs es =>
      fits es /\ Z.of_nat (length vs) = zprod es /\
      exists es', ((exists vs', avar st x = Some (AArr es' vs')) \/ (avar st x = Some (AMoved es') /\ zprod es' <> zprod es))
  | ODestroy x => avar st x <> None
  | OBuilder x es => afree st x /\ fits es
  | OPush x nx v => exists es vs, avar st x = Some (ABld es vs) /\ Z.of_nat (length vs) < zprod es
  | OFinish x y => afree st x /\ exists es vs, avar st y = Some (ABld es vs) /\ Z.of_nat (length vs) = zprod es
  | OReshape x y es => afree st x /\ fits es /\
      exists es', ((exists vs, avar st y = Some (AArr es' vs)) \/ avar st y = Some (AMoved es')) /\ zprod es' = zprod es
  end.

(** Effect of an operation that does not throw. *)
Definition astep (o : @op V) (st : astore V) : astore V :=
  match o with
  | ONew x t s es => aset st x (Some (AArr es (src_vals s (zprod es))))
  | ODefault x N => aset st x (Some (AArr (repeat 0 N) []))
  | OConv x vs es => aset st x (Some (AArr es vs))
  | OList x N l => aset st x (Some (AArr (nested_lens N l)
      (flat_map (fun ix => match nested_at N ix l with Some v => [v] | None => [] end) (colmajor (nested_lens N l)))))
  | OCopy x y => aset st x (avar st y)
  | OMove x y =>
      match avar st y with
      | Some (AArr es vs) => aset (aset st y (Some (moved_of es))) x (Some (AArr es vs))
      | Some (AMoved es) => aset (aset st y (Some (AMoved es))) x (Some (AMoved es))
      | Some (ABld es vs) => aset (aset st y (Some (ABldMoved es))) x (Some (ABld es vs))
      | Some (ABldMoved es) => aset (aset st y (Some (ABldMoved es))) x (Some (ABldMoved es))
      | None => st
      end
  | OAssign x y => aset st x (avar st y)
  | OAssignMove x y => aset (aset st y (avar st x)) x (avar st y)
  | OAssignConv x vs es => aset st x (Some (AArr es vs))
  | ODestroy x => aset st x None
  | OBuilder x es => aset st x (Some (ABld es []))
  | OPush x _ v => match avar st x with Some (ABld es vs) => aset st x (Some (ABld es (vs ++ [v]))) | _ => st end
  | OFinish x y => match avar st y with
                   | Some (ABld es vs) => aset (aset st y (Some (ABldMoved es))) x (Some (AArr es vs))
                   | _ => st
                   end
  | OReshape x y es => match avar st y with
                       | Some (AArr es' vs) => aset (aset st y (Some (moved_of es'))) x (Some (AArr es vs))
                       | Some (AMoved es') => aset (aset st y (Some (AMoved es'))) x (Some (AMoved es))
                       | _ => st
                       end
  end.

(** Effect of an operation that throws: nothing changes, except that an assignment between arrays of the same size may
    already have replaced some of the elements. *)
Definition athrow (o : @op V) (st st' : astore V) : Prop :=
  st' = st \/
  match o with
  | OAssign x y => exists es vs es' vs' k, avar st y = Some (AArr es vs) /\ avar st x = Some (AArr es' vs') /\
      zprod es = zprod es' /\ st' = aset st x (Some (AArr es' (firstn k vs ++ skipn k vs')))
  | OAssignConv x vs es => exists es' vs' k, avar st x = Some (AArr es' vs') /\
      zprod es = zprod es' /\ st' = aset st x (Some (AArr es' (firstn k vs ++ skipn k vs')))
  | _ => False
  end.

(** Every operation of the program is allowed when it is reached, whatever threw before. *)
Fixpoint ok_prog (p : @prog V) (st : astore V) : Prop :=
  match p with
  | PEnd => True
  | PDo o p1 p2 => ok_op o st /\ ok_prog p1 (astep o st) /\ (forall st', athrow o st st' -> ok_prog p2 st')
  end.

(** Execution on values with the log of the operations that threw. *)
Inductive aexec : @prog V -> list bool -> astore V -> astore V -> Prop :=
| aexec_end st : aexec PEnd [] st st
| aexec_ok o p1 p2 log st st' : aexec p1 log (astep o st) st' -> aexec (PDo o p1 p2) (false :: log) st st'
| aexec_throw o p1 p2 log st st1 st' : athrow o st st1 -> aexec p2 log st1 st' -> aexec (PDo o p1 p2) (true :: log) st st'.

(** ** relation to the world *)
Definition repr (w : world) (o : obj) (a : aobj V) : Prop :=
  match o, a with
  | OArr (Arr (Some b) es), AArr es' vs => es = es' /\ fits es /\ Z.of_nat (length vs) = zprod es /\ cells w b = Some (map Some vs)
  | OArr (Arr None es), AArr es' vs => es = es' /\ fits es /\ zprod es = 0 /\ vs = []
  | OArr (Arr None es), AMoved es' => es = es' /\ fits es /\ zprod es <> 0
  | OBld (Bld (Some b) es n), ABld es' vs => es = es' /\ fits es /\ n = length vs /\ Z.of_nat n <= zprod es /\
      cells w b = Some (map Some vs ++ repeat None (Z.to_nat (zprod es) - n))
  | OBld (Bld None es n), ABldMoved es' => es = es' /\ fits es /\ n = 0%nat
  | _, _ => False
  end.
Definition repr' (w : world) (o : option obj) (a : option (aobj V)) : Prop :=
  match o, a with
  | None, None => True
  | Some o, Some a => repr w o a
  | _, _ => False
  end.

(** Storage owned by a variable. *)
Definition owner (o : option obj) : option nat :=
  match o with Some (OArr a) => adata a | Some (OBld b) => bdata b | None => None end.
Definition owns (st : store) (x b : nat) : Prop := exists o, nth_error st x = Some o /\ owner o = Some b.
Definition owned (st : store) (b : nat) : Prop := exists x, owns st x b.
Definition no_sharing (st : store) : Prop := forall x y b, owns st x b -> owns st y b -> x = y.
(** Objects that belong to no variable, storage that belongs to no variable. *)
Definition no_lost_object (w : @world V) (st : store) : Prop :=
  forall b c, cells w b = Some c -> ~ owned st b -> Forall (fun x => x = None) c.
Definition no_lost_storage (w : @world V) (st : store) : Prop :=
  forall b c, cells w b = Some c -> owned st b.

Definition is_assign (o : @op V) : bool := match o with OAssign _ _ | OAssignConv _ _ _ => true | _ => false end.
(** Some copy or converting assignment threw. *)
Fixpoint assign_threw (p : @prog V) (log : list bool) : bool :=
  match p, log with
  | PDo o p1 p2, t :: log' => (is_assign o && t) || assign_threw (if t then p2 else p1) log'
  | _, _ => false
  end.

(** Block [b] is allocated with content [c]; array [a] holds the elements [vs]. *)
Definition blk (bs : list (@block V)) (b : nat) (c : list (option V)) : Prop := nth_error bs b = Some (Some c).
Definition holds (bs : list (@block V)) (a : arr) (vs : list V) : Prop :=
  fits (aexts a) /\ Z.of_nat (length vs) = zprod (aexts a) /\
  match adata a with Some b => blk bs b (map Some vs) | None => vs = [] end.

(** [m], when it succeeds, performed exactly [c] operations that may throw and none of them threw. *)
Definition ticks {A} (thr : nat -> bool) (c : nat) (m : @M V A) : Prop := forall w a w', m w = (ROk a, w') ->
  clock w' = (clock w + c)%nat /\ forall j, (clock w <= j < clock w + c)%nat -> thr j = false.
(** Evaluations per element of a source that may throw. *)
Definition src_ticks (s : @source V) : nat := match s with SrcValue _ => 0 | SrcSeq _ => 1 end.

(** [push_back(T&&)] is only used with types that are nothrow constructible. *)
Definition push_safe (nt : bool) (o : @op V) : Prop := match o with OPush _ true _ => nt = true | _ => True end.
Fixpoint pushes_safe (nt : bool) (p : @prog V) : Prop :=
  match p with PEnd => True | PDo o p1 p2 => push_safe nt o /\ pushes_safe nt p1 /\ pushes_safe nt p2 end.

(** A client that pushes the values in turn and goes on when a push throws. *)
Fixpoint push_all (thr : nat -> bool) (nt chk : bool) (b : bld) (vs : list V) : @M V bld :=
  match vs with
  | [] => ret b
  | v :: vs' => fun w =>
      match bld_push thr nt chk false b v w with
      | (ROk b', w') => push_all thr nt chk b' vs' w'
      | (RThrow, w') => push_all thr nt chk b vs' w'
      | r => r
      end
  end.
Inductive subseq : list V -> list V -> Prop :=
| sub_nil : subseq [] []
| sub_keep v l l' : subseq l l' -> subseq (v :: l) (v :: l')
| sub_drop v l l' : subseq l l' -> subseq l (v :: l').
End Spec.
