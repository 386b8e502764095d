(** * ColHeapSpec: programs over columns and dataframes as values, and what a failing operation may leave behind. *)

From Coq Require Import ZArith Bool List.
From Verif Require Import Base Coerce Frame FrameSpec ColHeap.
Import ListNotations.
Open Scope Z_scope.
Open Scope list_scope.

(** Values of variables: a column (Frame.v), a dataframe, or destroyed. *)
Inductive aval : Type := AC (c : column) | AF (d : df) | ADead.
Definition avals : Type := list aval.

Definition acol (a : avals) (x : nat) : option column := match nth_error a x with Some (AC c) => Some c | _ => None end.
Definition adf (a : avals) (x : nat) : option df := match nth_error a x with Some (AF d) => Some d | _ => None end.

(** End of a command: the outcome decides whether the new state or the old one is left. *)
Definition fin {A} (a : avals) (o : outcome A) (f : A -> avals) : avals * outcome unit :=
  match o with
  | Ok v => (f v, Ok tt)
  | Throw e => (a, Throw e) | Abort => (a, Abort) | UB => (a, UB) | Timeout => (a, Timeout)
  end.
Definition addc (a : avals) (c : column) : avals := a ++ [AC c].
Definition addf (a : avals) (d : df) : avals := a ++ [AF d].
Definition setc (a : avals) (x : nat) (c : column) : avals := upd_nat a x (AC c).
Definition setf (a : avals) (x : nat) (d : df) : avals := upd_nat a x (AF d).

Fixpoint acols (a : avals) (l : list (text * nat)) : option (list ncol) :=
  match l with
  | [] => Some []
  | (n, x) :: l' =>
      match acol a x, acols a l' with Some c, Some r => Some (mkN n c :: r) | _, _ => None end
  end.

Section Values.
Variable rs : rules.
Variable ex : exn.

(** The meaning of a command on values when no allocation fails: the functions of Frame.v. *)
Definition aexec (c : cop) (a : avals) : avals * outcome unit :=
  match c with
  | KNull => (addc a col_default, Ok tt)
  | KNew t l => (addc a (col_of t l), Ok tt)
  | KCopy y => match acol a y with Some s => fin a (col_copy s) (addc a) | None => (a, UB) end
  | KPartial y first size => match acol a y with Some s => fin a (col_partial s first size) (addc a) | None => (a, UB) end
  | KMove y => match acol a y with Some s => (addc (setc a y None) s, Ok tt) | None => (a, UB) end
  | KAssign x y =>
      match acol a x, acol a y with Some _, Some s => (setc a x (col_assign s), Ok tt) | _, _ => (a, UB) end
  | KMoveAssign x y =>
      match acol a x, acol a y with
      | Some _, Some s => (if Nat.eqb x y then a else setc (setc a y None) x s, Ok tt)
      | _, _ => (a, UB)
      end
  | KCoerce t x => match acol a x with Some s => let '(s', o) := col_coerce rs t s in (setc a x s', o) | None => (a, UB) end
  | KToColumn t y => match acol a y with Some s => fin a (to_column rs t s) (addc a) | None => (a, UB) end
  | KToColumnMove t y =>
      match acol a y with
      | Some s => let '(s', o) := to_column_move rs t s in fin (setc a y s') o (addc (setc a y s'))
      | None => (a, UB)
      end
  | KToView t x =>
      match acol a x with
      | Some s => let '(s', o) := to_view rs t s in fin (setc a x s') o (fun _ => setc a x s')
      | None => (a, UB)
      end
  | KSet t x i v =>
      match acol a x with
      | Some s => fin a (let* l := col_data t s in let* l' := put l i v in Ok (col_of t l')) (setc a x)
      | None => (a, UB)
      end
  | KDestroy x => match nth_error a x with Some ADead | None => (a, UB) | Some _ => (upd_nat a x ADead, Ok tt) end
  | FNull => (addf a df_default, Ok tt)
  | FList l => match acols a l with Some cs => fin a (let* tmp := mapO ncol_copy cs in ctor_range tmp) (addf a) | None => (a, UB) end
  | FCopy g => match adf a g with Some d => fin a (df_copy d) (addf a) | None => (a, UB) end
  | FMove g => match adf a g with Some d => (addf (setf a g (fst (df_move d))) (snd (df_move d)), Ok tt) | None => (a, UB) end
  | FAssign cap _ f g =>
      match adf a f, adf a g with
      | Some d, Some s => if Nat.eqb f g then (a, Ok tt) else fin a (df_assign cap d s) (setf a f)
      | _, _ => (a, UB)
      end
  | FMoveAssign f g =>
      match adf a f, adf a g with
      | Some d, Some s => if Nat.eqb f g then (a, UB) else (setf (setf a g (fst (df_move s))) f (snd (df_move s)), Ok tt)
      | _, _ => (a, UB)
      end
  | FBindCopy f g =>
      match adf a f, adf a g with
      | Some d, Some s =>
          match df_copy s with
          | Ok o => let '(d', r) := bind d o in (setf a f d', r)
          | Throw e => (a, Throw e) | Abort => (a, Abort) | UB => (a, UB) | Timeout => (a, Timeout)
          end
      | _, _ => (a, UB)
      end
  | FBindMove f g =>
      match adf a f, adf a g with
      | Some _, Some s =>
          let a1 := setf a g (fst (df_move s)) in
          match adf a1 f with Some d => let '(d', r) := bind d s in (setf a1 f d', r) | None => (a, UB) end
      | _, _ => (a, UB)
      end
  | FBindCol f n x =>
      match adf a f, acol a x with
      | Some d, Some s => let '(d', r) := bind d (ctor_named (mkN n s)) in (setf (setc a x None) f d', r)
      | _, _ => (a, UB)
      end
  | FColumn g pos =>
      match adf a g with
      | Some d => fin a (let* nc := at_pos d pos in col_copy (ncolumn nc)) (addc a)
      | None => (a, UB)
      end
  end.

(** A failing bind: the columns of [other] before the k-th are bound; [entry]: the name of the k-th is already in the name index. *)
Definition bind_stop (k : nat) (entry : bool) (d other : df) : df :=
  let d0 := if df_bool d then d else mkDf (rows other) (elems d) (index d) in
  let d1 := bind_loop (firstn k (elems other)) d0 in
  match nth_error (elems other) k with
  | Some nc => if entry && negb (tempty (nname nc)) then mkDf (rows d1) (elems d1) (idx_set (index d1) (nname nc) (column_count d1)) else d1
  | None => d1
  end.
Definition bind_failed (d other d' : df) : Prop :=
  d' = d \/ snd (bind d other) = Ok tt /\ exists k entry, (k < length (elems other))%nat /\ d' = bind_stop k entry d other.

(** A failing assignment [d = s]: the row count is the new one; the elements are the old ones, or the old ones of which the first [k] have been
    replaced and possibly the next one renamed, or the first ones of [s] without the rest, or all of [s]; the index is the old one or, at the end, empty. *)
Definition assign_failed (cap : nat) (keep : bool) (d s d' : df) : Prop :=
  rows d' = rows s /\
  (elems d' = elems d /\ index d' = index d \/
   (length (elems s) <= cap)%nat /\ index d' = index d /\
     (exists k, (k < Nat.min (length (elems d)) (length (elems s)))%nat /\
        (elems d' = firstn k (elems s) ++ skipn k (elems d) \/
         exists nc nc', nth_error (elems s) k = Some nc /\ nth_error (elems d) k = Some nc' /\
           elems d' = firstn k (elems s) ++ mkN (nname nc) (ncolumn nc') :: skipn (S k) (elems d))) \/
   (length (elems d) < length (elems s) <= cap)%nat /\ elems d' = firstn (length (elems d)) (elems s) /\ index d' = index d \/
   elems d' = elems s /\ index d' = if keep then index d else []).

(** What a command may leave behind when an allocation fails. *)
Definition afail (c : cop) (a a' : avals) : Prop :=
  match c with
  | KMove _ | KMoveAssign _ _ | KDestroy _ | KNull | FNull | FMove _ | FMoveAssign _ _ => False   (* never fail *)
  | KNew _ _ | KCopy _ | KPartial _ _ _ | KAssign _ _ | KCoerce _ _ | KToColumn _ _ | KToColumnMove _ _ | KToView _ _ | KSet _ _ _ _
  | FList _ | FCopy _ | FColumn _ _ => a' = a
  | FBindCopy f g => exists d s d', adf a f = Some d /\ adf a g = Some s /\ bind_failed d s d' /\ a' = setf a f d'
  | FBindMove f g =>
      exists s d d', adf a g = Some s /\ adf (setf a g (fst (df_move s))) f = Some d /\ bind_failed d s d' /\
        a' = setf (setf a g (fst (df_move s))) f d'
  | FBindCol f n x =>
      exists d s, adf a f = Some d /\ acol a x = Some s /\
        (a' = a \/ exists d', bind_failed d (ctor_named (mkN n s)) d' /\ a' = setf (setc a x None) f d')
  | FAssign cap keep f g => exists d s d', adf a f = Some d /\ adf a g = Some s /\ assign_failed cap keep d s d' /\ a' = setf a f d'
  end.

(** One command as seen by the program: it returns or throws. *)
Definition astep (c : cop) (a : avals) (r : outcome unit) (a' : avals) : Prop :=
  aexec c a = (a', r) /\ (r = Ok tt \/ exists e, r = Throw e) \/ r = Throw ex /\ afail c a a'.

(** Every command has a meaning in every state in which it can be executed. *)
Fixpoint meaningful (cs : list cop) (a : avals) : Prop :=
  match cs with
  | [] => True
  | c :: cs' => (snd (aexec c a) = Ok tt \/ exists e, snd (aexec c a) = Throw e) /\ forall r a', astep c a r a' -> meaningful cs' a'
  end.
End Values.

(** *** reading a heap *)
Definition col_value (h : list (option model)) (c : hcol) : option column :=
  match c with
  | None => Some None
  | Some b => match nth_error h b with Some (Some m) => Some (Some m) | _ => None end
  end.
Fixpoint elems_value (h : list (option model)) (l : list hncol) : option (list ncol) :=
  match l with
  | [] => Some []
  | (n, c) :: l' =>
      match col_value h c, elems_value h l' with Some v, Some r => Some (mkN n v :: r) | _, _ => None end
  end.
(** Value of a variable; [None] if it refers to released storage. *)
Definition value_of (h : list (option model)) (v : hvar) : option aval :=
  match v with
  | HCol c => match col_value h c with Some x => Some (AC x) | None => None end
  | HDf d => match elems_value h (helems d) with Some es => Some (AF (mkDf (hrows d) es (hindex d))) | None => None end
  | HDead => Some ADead
  end.

(** Storage that a variable refers to. *)
Definition col_blocks (c : hcol) : list nat := match c with Some b => [b] | None => [] end.
Definition blocks_of (v : hvar) : list nat :=
  match v with HCol c => col_blocks c | HDf d => flat_map (fun nc => col_blocks (snd nc)) (helems d) | HDead => [] end.

(** *** states of programs *)
(** The variables of [w] have the values [a]. *)
Definition agrees (a : avals) (w : world) : Prop := map (value_of (hmem w)) (hvars w) = map Some a.
(** The command has a meaning on these values. *)
Definition defined (rs : rules) (c : cop) (a : avals) : Prop :=
  snd (aexec rs c a) = Ok tt \/ exists e, snd (aexec rs c a) = Throw e.
(** States reached by commands that have a meaning; exceptions are caught and the program goes on.  [ok]: further restrictions on the
    commands and on their results. *)
Inductive kreach (rs : rules) (ex : exn) (thr : nat -> bool) (ok : cop -> avals -> outcome unit -> Prop) : world -> Prop :=
| kreach_init : kreach rs ex thr ok kinit
| kreach_step w a c r w1 : kreach rs ex thr ok w -> agrees a w -> defined rs c a -> ok c a r -> kexec rs ex thr c w = (r, w1) ->
    kreach rs ex thr ok w1.
Definition any_step (c : cop) (a : avals) (r : outcome unit) : Prop := True.

(** Some operation of the execution from [w] to [w'] fails. *)
Definition fails_between (thr : nat -> bool) (w w' : world) : Prop := exists k, (hclock w <= k < hclock w')%nat /\ thr k = true.

(** The variables a command may change. *)
Definition changes (c : cop) : list nat :=
  match c with
  | KMove y | KToColumnMove _ y => [y]
  | KAssign x _ | KCoerce _ x | KToView _ x | KSet _ x _ _ | KDestroy x => [x]
  | KMoveAssign x y => [x; y]
  | FMove g => [g]
  | FAssign _ _ f _ | FBindCopy f _ => [f]
  | FMoveAssign f g | FBindMove f g => [f; g]
  | FBindCol f _ x => [f; x]
  | KNull | KNew _ _ | KCopy _ | KPartial _ _ _ | KToColumn _ _ | FNull | FList _ | FCopy _ | FColumn _ _ => []
  end.

(** *** consistency of dataframes *)
(** Every column has row_count() rows, lookup by name is right, and names are unique (FrameSpec.v). *)
Definition consistent (d : df) : Prop := rect d /\ lookup_ok d /\ unique_names (names d).
Definition all_frames (P : df -> Prop) (a : avals) : Prop := forall x d, nth_error a x = Some (AF d) -> P d.

(** Histories in which list constructors put named columns first and no copy assignment or bind of dataframes fails for want of memory. *)
Definition careful (ex : exn) (c : cop) (a : avals) (r : outcome unit) : Prop :=
  match c with
  | FList l => named_first (map fst l)
  | FAssign _ _ _ _ | FBindCopy _ _ | FBindMove _ _ | FBindCol _ _ _ => r <> Throw ex
  | _ => True
  end.
(** Only copy assignments of dataframes do not fail. *)
Definition no_failed_assignment (ex : exn) (c : cop) (a : avals) (r : outcome unit) : Prop :=
  match c with FAssign _ _ _ _ => r <> Throw ex | _ => True end.
