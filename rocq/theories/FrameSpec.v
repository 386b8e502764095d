(** * FrameSpec: what the properties of columns and dataframes mean. *)

From Coq Require Import ZArith Bool Ascii String List.
From Verif Require Import Base Coerce CoerceSpec Frame.
Import ListNotations.
Open Scope Z_scope.
Open Scope list_scope.

(** Every column has exactly row_count() rows. *)
Definition rect (d : df) : Prop := Forall (fun nc => col_size (ncolumn nc) = rows d) (elems d).

(** No two columns carry the same non-empty name. *)
Definition unique_names (l : list text) : Prop :=
  forall i j n, nth_error l i = Some n -> nth_error l j = Some n -> n <> [] -> i = j.

(** Lookup by name: what at(name) returns carries the name; a name that a column carries is found;
    other names (and the empty name) make it throw. *)
Definition lookup_ok (d : df) : Prop :=
  forall n,
    (forall nc, at_name d n = Ok nc -> In nc (elems d) /\ nname nc = n /\ n <> [])
    /\ (n <> [] -> In n (names d) -> exists nc, at_name d n = Ok nc)
    /\ (n = [] \/ ~ In n (names d) -> at_name d n = Throw LogicError).

(** Named columns first, unnamed columns last. *)
Definition named_first (l : list text) : Prop :=
  exists a b, l = a ++ b /\ Forall (fun n => n <> []) a /\ Forall (fun n => n = []) b.

(** ** Histories *)

(** Environments reachable from no variables by commands allowed by [ok], as long as no command
    has undefined behaviour (exceptions are caught and the program goes on). *)
Inductive reach (ok : cmd -> env -> Prop) : env -> Prop :=
| reach_nil : reach ok []
| reach_step e c e' r : reach ok e -> ok c e -> exec c e = (e', r) ->
    (r = Ok tt \/ exists x, r = Throw x) -> reach ok e'.

(** Any command. *)
Definition any_cmd (c : cmd) (e : env) : Prop := True.

(** Every command but the constructor from a single named column (which can still be used for
    the argument of bind). *)
Definition no_named (c : cmd) (e : env) : Prop := match c with CNamed _ => False | _ => True end.

(** As [no_named]; moreover range constructors list named columns first, and so does the
    dataframe head is applied to. *)
Definition named_first_cmd (c : cmd) (e : env) : Prop :=
  match c with
  | CNamed _ => False
  | CRange l => named_first (map nname l)
  | CHead _ j => forall d, nth_error e j = Some d -> named_first (names d)
  | _ => True
  end.

(** ** Text *)

(** Cutting a text at the characters satisfying [sep]. *)
Inductive Split (sep : ascii -> bool) : text -> list text -> Prop :=
| split_last s : (forall c, In c s -> sep c = false) -> Split sep s [s]
| split_more s c rest segs :
    (forall x, In x s -> sep x = false) -> sep c = true -> Split sep rest segs ->
    Split sep (s ++ c :: rest) (s :: segs).

(** The fields of a line: its segments, without the last one if that is empty and not alone. *)
Definition Fields (sep : ascii -> bool) (line : text) (fs : list text) : Prop :=
  exists segs, Split sep line segs
    /\ ((fs = segs /\ (last segs [] <> [] \/ length segs = 1%nat))
        \/ (segs = fs ++ [[]] /\ fs <> [])).

(** The table of a text: the fields of its non-empty lines. *)
Definition Table (lsep csep : ascii -> bool) (t : text) (tbl : list (list text)) : Prop :=
  exists lines, Split lsep t lines
    /\ Forall2 (Fields csep) (filter (fun l => negb (tempty l)) lines) tbl.

(** A text column of the given cells. *)
Definition text_column (l : list text) : column := Some (mkModel TStr (map CStr l)).

(** Column j of a table. *)
Definition tcolumn (tbl : list (list text)) (j : nat) : list text := map (fun r => nth j r []) tbl.

(** ** Cells *)

(** Every cell of a column has the column's element type. *)
Definition col_wt (c : column) : Prop :=
  match c with Some m => Forall (fun x => type_of x = mty m) (mcells m) | None => True end.

(** The texts of the cells of a column: the cells themselves for a column of text, their
    coercions to text otherwise. *)
Definition texts (rs : rules) (nc : ncol) (l : list text) : Prop :=
  exists m, ncolumn nc = Some m
    /\ ((mty m = TStr /\ mcells m = map CStr l)
        \/ (mty m <> TStr /\ exists f, rs TStr (mty m) = Some f
            /\ Forall2 (fun c s => f c = Ok (CStr s)) (mcells m) l)).

(** A text without line or column separators. *)
Definition clean (lsep csep : ascii -> bool) (s : text) : Prop :=
  forall c, In c s -> lsep c = false /\ csep c = false.

(** The cells of a column coerced to T. *)
Definition coerced_to (rs : rules) (t : ty) (c : column) (l : list cell) : Prop :=
  exists m, c = Some m
    /\ ((mty m = t /\ l = mcells m)
        \/ (mty m <> t /\ rs t (mty m) <> None /\ Forall2 (fun x y => coerce1 rs t x = Ok y) (mcells m) l)).
