(** * Pattern: reading a dataframe with any regular expressions for lines and cells.  Definitions only. *)

From Coq Require Import ZArith Bool Ascii String List Lia.
From Verif Require Import Base Coerce Frame.
Import ListNotations.
Open Scope Z_scope.
Open Scope list_scope.

(** A regular expression with its match flags (dataframe/dataframe.hpp:41-53), as [std::regex_search] sees it:
    [p not_null continuous before s] is the match found in [s], as the text before it, the matched text and the text after
    it.  [before] is the character that precedes [s] when the search may look at it ([match_prev_avail]). *)
Definition pattern := bool -> bool -> option ascii -> text -> option (text * text * text).

(** The last character of [t], or [d]. *)
Definition last_char (d : option ascii) (t : text) : option ascii :=
  match rev t with c :: _ => Some c | [] => d end.

(** A [std::regex_iterator] that is not at its end: prefix, match and suffix of its [match_results], whether
    [match_prev_avail] is among its flags, and the character before the suffix. *)
Record found : Type := Found { fpre : text; fmatch : text; fpost : text; favail : bool; fbefore : option ascii }.

Definition found_of (av : bool) (before : option ascii) (skipped : text) (r : option (text * text * text)) : option found :=
  match r with
  | Some (a, b, c) => Some (Found (skipped ++ a) b c av (last_char (last_char before a) b))
  | None => None
  end.

(** Its constructor. *)
Definition re_begin (p : pattern) (s : text) : option found := found_of false None [] (p false false None s).

(** Its increment: after an empty match it first looks for a non-empty match at the same place, then skips a character;
    the prefix always begins where the previous match ended. *)
Definition re_next (p : pattern) (x : found) : option found :=
  let start := fpost x in
  if tempty (fmatch x) then
    match start with
    | [] => None
    | c :: s' =>
        let before := if favail x then fbefore x else None in
        match p true true before start with
        | Some r => found_of (favail x) (fbefore x) [] (Some r)
        | None => found_of true (Some c) [c] (p false false (Some c) s')
        end
    end
  else found_of true (fbefore x) [] (p false false (fbefore x) start).

(** [std::regex_token_iterator], the range made by [views::tokenize] (dataframe/dataframe.hpp:154, 161): with submatch -1
    ([separator]) the prefixes of the matches and then the suffix of the last one unless it is empty, or the whole text if
    there is no match; with submatch 0 the matches. *)
Fixpoint re_rest (fuel : nat) (p : pattern) (separator : bool) (x : found) : outcome (list text) :=
  match fuel with
  | O => Timeout
  | S f =>
      let token := if separator then fpre x else fmatch x in
      match re_next p x with
      | Some y => let* l := re_rest f p separator y in Ok (token :: l)
      | None => Ok (token :: if separator && negb (tempty (fpost x)) then [fpost x] else [])
      end
  end.
Definition re_tokens (p : pattern) (separator : bool) (s : text) : outcome (list text) :=
  match re_begin p s with
  | Some x => re_rest (2 * length s + 2) p separator x
  | None => Ok (if separator then [s] else [])
  end.

(** The options of [read] (dataframe/dataframe.hpp:35-56). *)
Record read_options : Type := Options { line_regex : pattern; line_separator : bool; cell_regex : pattern; cell_separator : bool; has_header : bool }.

(** The loop over lines (dataframe.hpp:157-171): (cells so far, number of columns). *)
Fixpoint read_lines_by (o : read_options) (ls : list text) (data : list text) (ncol last : Z) : outcome (list text * Z) :=
  match ls with
  | [] => Ok (data, ncol)
  | line :: ls' =>
      if tempty line then read_lines_by o ls' data ncol last
      else
        let* cells := re_tokens (cell_regex o) (cell_separator o) line in
        let data' := data ++ cells in
        let size := Z.of_nat (length data') in
        let ncol' := if ncol =? 0 then size - last else ncol in
        if (ncol' =? 0) || (size - last =? ncol')
        then read_lines_by o ls' data' ncol' size
        else Throw LogicError
  end.

(** The columns bound to the result (dataframe.hpp:173-195). *)
Definition read_columns (header : bool) (data : list text) (nc : Z) : outcome df :=
  if nc =? 0 then Ok df_default
  else
    let n := Z.to_nat nc in
    let name j := nth j data [] in
    if header && (Z.of_nat (length data) / nc =? 1)
    then bind_columns (map (fun j => mkN (name j) col_default) (seq 0 n)) df_default
    else
      let skip := if header then n else O in
      bind_columns
        (map (fun j => mkN (if header then name j else [])
                           (col_of TStr (map CStr (stride n 0 (skipn (j + skip) data)))))
             (seq 0 n))
        df_default.

(** read(is, opt) (dataframe.hpp:139-196) of a good stream whose remaining content is [t]. *)
Definition read_by (o : read_options) (t : text) : outcome df :=
  let* lines := re_tokens (line_regex o) (line_separator o) t in
  let* (data, nc) := read_lines_by o lines [] 0 0 in
  read_columns (has_header o) data nc.

(** ** Some patterns *)

(** A literal text [w]: its leftmost occurrence.  [not_null] and [continuous] as [std::regex_search] takes them. *)
Fixpoint strip (w s : text) : option text :=
  match w, s with
  | [], _ => Some s
  | c :: w', d :: s' => if Ascii.eqb c d then strip w' s' else None
  | _ :: _, [] => None
  end.
Fixpoint literal_at (w s : text) : option (text * text) :=
  match strip w s with
  | Some r => Some ([], r)
  | None => match s with
            | [] => None
            | c :: s' => match literal_at w s' with Some (a, r) => Some (c :: a, r) | None => None end
            end
  end.
Definition literal (w : text) : pattern := fun not_null continuous _ s =>
  if not_null && tempty w then None
  else match literal_at w s with
       | Some (a, r) => if continuous && negb (tempty a) then None else Some (a, w, r)
       | None => None
       end.

(** A maximal run of one or more ([star = false]) or zero or more ([star = true]) characters satisfying [f]:
    [[...]+] and [[...]*]. *)
Fixpoint span (f : ascii -> bool) (s : text) : text * text :=
  match s with
  | c :: s' => if f c then let '(a, b) := span f s' in (c :: a, b) else ([], s)
  | [] => ([], [])
  end.
Definition run_of (star : bool) (f : ascii -> bool) : pattern := fun not_null continuous _ s =>
  let '(a, b) := if continuous || (star && negb not_null) then ([], s) else span (fun c => negb (f c)) s in
  let '(m, r) := span f b in
  if tempty m && (not_null || negb star) then None else Some (a, m, r).

(** One character satisfying [f]: [[...]]. *)
Definition one_of (f : ascii -> bool) : pattern := fun _ continuous _ s =>
  let '(a, b) := if continuous then ([], s) else span (fun c => negb (f c)) s in
  match b with
  | c :: r => if f c then Some (a, [c], r) else None
  | [] => None
  end.
