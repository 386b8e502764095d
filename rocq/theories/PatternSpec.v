(** * PatternSpec: what cutting a text with a pattern means. *)

From Coq Require Import ZArith Bool Ascii String List Lia.
From Verif Require Import Base Coerce Frame FrameSpec Pattern.
Import ListNotations.
Open Scope list_scope.

(** What [std::regex_search] promises: what it reports is a decomposition of the searched text; a match is not empty when
    that is asked for, and is at the beginning when that is asked for. *)
Definition search_ok (p : pattern) : Prop := forall not_null continuous before s pre m post,
  p not_null continuous before s = Some (pre, m, post) ->
  s = pre ++ m ++ post /\ (not_null = true -> m <> []) /\ (continuous = true -> pre = []).

(** A pattern that never matches the empty text. *)
Definition proper (p : pattern) : Prop := search_ok p /\ forall not_null continuous before s pre m post,
  p not_null continuous before s = Some (pre, m, post) -> m <> [].

(** [t0 m0 t1 m1 ... tn] *)
Fixpoint weave (ts ms : list text) : text :=
  match ts, ms with
  | t :: ts', m :: ms' => t ++ m ++ weave ts' ms'
  | _, _ => concat ts
  end.

(** Successive matches of a pattern, each the first one after the previous: the text between them and the matches. *)
Inductive Segments (p : pattern) : option ascii -> text -> list text -> list text -> Prop :=
| seg_last b s : p false false b s = None -> Segments p b s [s] []
| seg_more b s pre m post ts ms :
    p false false b s = Some (pre, m, post) -> Segments p (last_char None m) post ts ms ->
    Segments p b s (pre :: ts) (m :: ms).

(** The pieces [ts] without the last one, if that is empty and not alone. *)
Definition trimmed (ts fs : list text) : Prop :=
  (fs = ts /\ (last ts [] <> [] \/ length ts = 1%nat)) \/ (ts = fs ++ [[]] /\ fs <> []).

(** The rows that count: the leading ones without cells do not. *)
Fixpoint from_first_cell (rows : list (list text)) : list (list text) :=
  match rows with [] :: r => from_first_cell r | _ => rows end.

(** The table of a text: the cells of its non-empty lines, from the first line that has a cell. *)
Definition Table_by (o : read_options) (t : text) (tbl : list (list text)) : Prop :=
  exists lines rows, re_tokens (line_regex o) (line_separator o) t = Ok lines
    /\ Forall2 (fun line cells => re_tokens (cell_regex o) (cell_separator o) line = Ok cells)
               (filter (fun l => negb (tempty l)) lines) rows
    /\ tbl = from_first_cell rows.

(** [w] occurs in [f ++ w] only at its end: a field [f] followed by the separator [w] ends there. *)
Definition ends_at (w f : text) : Prop := forall pre post, f ++ w = pre ++ w ++ post -> pre = f.

(** Successive matches of any pattern, as std::regex_iterator defines them.  [Cuts p av b e s ts ms]: what follows a match in the text [s]; [b] is the
    character before [s], [e] tells whether that match was empty, [av] whether a search at the same place may look at [b].  After a match that is not empty:
    the first match.  After an empty match: nothing at the end of the text; otherwise a match of at least one character right here; otherwise one character is
    passed, which belongs to the next piece, and the first match behind it counts. *)
Inductive Cuts (p : pattern) : bool -> option ascii -> bool -> text -> list text -> list text -> Prop :=
| cuts_last (av : bool) (b : option ascii) s : p false false b s = None -> Cuts p av b false s [s] []
| cuts_more (av : bool) (b : option ascii) s pre m post ts ms : p false false b s = Some (pre, m, post) ->
    Cuts p true (last_char (last_char b pre) m) (tempty m) post ts ms -> Cuts p av b false s (pre :: ts) (m :: ms)
| cuts_end (av : bool) (b : option ascii) : Cuts p av b true [] [[] : text] []
| cuts_here (av : bool) (b : option ascii) c s m post ts ms : p true true (if av then b else None) (c :: s) = Some ([], m, post) ->
    Cuts p av (last_char b m) false post ts ms -> Cuts p av b true (c :: s) ([] :: ts) (m :: ms)
| cuts_pass_last (av : bool) (b : option ascii) c s : p true true (if av then b else None) (c :: s) = None -> p false false (Some c) s = None ->
    Cuts p av b true (c :: s) [c :: s] []
| cuts_pass (av : bool) (b : option ascii) c s pre m post ts ms : p true true (if av then b else None) (c :: s) = None -> p false false (Some c) s = Some (pre, m, post) ->
    Cuts p true (last_char (last_char (Some c) pre) m) (tempty m) post ts ms -> Cuts p av b true (c :: s) ((c :: pre) :: ts) (m :: ms).

(** From the beginning of a text. *)
Inductive Cut_text (p : pattern) (s : text) : list text -> list text -> Prop :=
| cut_none : p false false None s = None -> Cut_text p s [s] []
| cut_first pre m post ts ms : p false false None s = Some (pre, m, post) ->
    Cuts p false (last_char (last_char None pre) m) (tempty m) post ts ms -> Cut_text p s (pre :: ts) (m :: ms).
