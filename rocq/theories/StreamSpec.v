(** * StreamSpec: what the properties of reading from and writing to streams mean. *)

From Coq Require Import ZArith Bool Ascii String List.
From Verif Require Import Base Coerce Frame FrameSpec Stream.
Import ListNotations.
Open Scope list_scope.

(** ** Output *)

(** A text padded to a width. *)
Definition padded (w : nat) (fill : ascii) (left : bool) (s : text) : text :=
  if left then s ++ repeat fill (w - length s) else repeat fill (w - length s) ++ s.

(** The device takes all of [s]; the part of [s] it takes. *)
Definition enough (os : ostream) (s : text) : Prop :=
  match room os with None => True | Some r => (length s <= r)%nat end.
Definition taken (os : ostream) (s : text) : text :=
  match room os with None => s | Some r => firstn r s end.

(** [s] was sent to the stream: as much as the device takes has reached it.  If that is not
    everything, badbit is set, and there is an exception if badbit is in the mask and none if the
    mask is empty. *)
Record Sent (s : text) (os os' : ostream) (o : outcome unit) : Prop := mkSent {
  sent_sunk : sunk os' = sunk os ++ taken os s;
  sent_room : room os' = option_map (fun r => (r - length s)%nat) (room os);
  sent_mask : omask os' = omask os;
  sent_all : enough os s -> oflags os' = oflags os /\ o = Ok tt;
  sent_short : ~ enough os s ->
    badbit (oflags os') = true /\ (o = Ok tt \/ o = Throw RuntimeError)
    /\ (badbit (omask os) = true -> o = Throw RuntimeError)
    /\ (omask os = no_flags -> o = Ok tt) }.

(** ** Input that was cut off *)

(** [p] is a beginning of [t]. *)
Definition starts (p t : text) : Prop := exists s, t = p ++ s.

(** What is left of a row that was cut: some of the first fields, and possibly a non-empty
    beginning of the next one. *)
Definition cut_row (r p : list text) : Prop :=
  (exists i, (i <= length r)%nat /\ p = firstn i r)
  \/ (exists i c a, nth_error r i = Some c /\ a <> [] /\ starts a c /\ p = firstn i r ++ [a]).

(** A dataframe that can be written and read back (as in C34): its cells have the texts [L]
    (column by column), neither names nor texts contain separators, and neither the last name nor
    a text of the last column is empty. *)
Record plain (rs : rules) (lsep csep : ascii -> bool) (d : df) (L : list (list text)) : Prop := mkPlain {
  plain_columns : elems d <> [];
  plain_rect : rect d;
  plain_names : unique_names (names d);
  plain_texts : Forall2 (texts rs) (elems d) L;
  plain_clean_names : Forall (clean lsep csep) (names d);
  plain_clean : Forall (Forall (clean lsep csep)) L;
  plain_last_name : last (names d) [] <> [];
  plain_last : Forall (fun s => s <> []) (last L []) }.

(** The text of some rows: the fields separated by [cc], every row ended by [lc]. *)
Definition lines_text (cc lc : ascii) (tbl : list (list text)) : text :=
  concat (map (fun r => write_fields [cc] r ++ [lc]) tbl).

(** The first [n] rows of the columns with the texts [L]. *)
Definition first_rows (L : list (list text)) (n : nat) : list (list text) :=
  map (fun i => map (fun l => nth i l []) L) (seq 0 n).
