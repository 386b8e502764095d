(** * Stream: the streams that dataframes are read from and written to: their state flags, the
    end of the input, failing devices, and field widths. *)

From Coq Require Import ZArith Bool Ascii String List.
From Verif Require Import Base Coerce Frame.
Import ListNotations.
Open Scope list_scope.

(** ** State flags of std::ios_base (library model): eofbit, failbit, badbit; [exceptions] is the
    mask set by ios::exceptions(mask). *)
Record flags : Type := mkF { eofbit : bool; failbit : bool; badbit : bool }.
Definition no_flags : flags := mkF false false false.
Definition or_flags (a b : flags) : flags :=
  mkF (eofbit a || eofbit b) (failbit a || failbit b) (badbit a || badbit b).
Definition meets (a b : flags) : bool :=
  (eofbit a && eofbit b) || (failbit a && failbit b) || (badbit a && badbit b).

(** fail(), the meaning of [!is] (dataframe.hpp:143), and good(). *)
Definition fails (f : flags) : bool := failbit f || badbit f.
Definition is_good (f : flags) : bool := negb (eofbit f || fails f).

(** ** Input *)

(** An input stream: the characters its buffer will still deliver, whether the device fails after
    them (instead of ending), and the state flags. *)
Record istream : Type := mkIs { content : text; broken : bool; iflags : flags }.

(** raw_data.assign(istreambuf_iterator(is), istreambuf_iterator()) (dataframe.hpp:148-149): works
    on the buffer, consumes everything and leaves the flags of the stream alone; an error of
    the device is an exception. *)
Definition slurp (is : istream) : istream * outcome text :=
  (mkIs [] (broken is) (iflags is), if broken is then Throw RuntimeError else Ok (content is)).

(** read(is, opt) (dataframe.hpp:139-196), from the test of the stream on. *)
Definition read_from (header : bool) (lsep csep : ascii -> bool) (is : istream) : istream * outcome df :=
  if fails (iflags is) then (is, Ok df_default)
  else let '(is', o) := slurp is in (is', let* t := o in read header lsep csep t).

(** operator>>(is, df) (dataframe.hpp:312-316): the stream, the dataframe and how the call ended. *)
Definition extract (is : istream) (d : df) : istream * df * outcome unit :=
  match read_from true is_nl is_tab is with
  | (is', Ok d') => (is', d', Ok tt)
  | (is', Throw e) => (is', d, Throw e)
  | (is', Abort) => (is', d, Abort)
  | (is', UB) => (is', d, UB)
  | (is', Timeout) => (is', d, Timeout)
  end.

(** n rounds of [while (is >> df) ...]: [None] if the loop has ended before (the stream does not
    test true, or an exception). *)
Fixpoint rounds (n : nat) (is : istream) (d : df) : option (istream * df) :=
  match n with
  | O => Some (is, d)
  | S n' =>
      match extract is d with
      | (is', d', Ok _) => if fails (iflags is') then None else rounds n' is' d'
      | _ => None
      end
  end.

(** ** Output *)

(** An output stream: what has reached the device, how many more characters the device takes
    ([None]: no limit), the state flags, the mask of exceptions, and the width, fill character and
    adjustment (left or not) for the next formatted output. *)
Record ostream : Type := mkOs {
  sunk : text; room : option nat; oflags : flags; omask : flags;
  owidth : nat; ofill : ascii; oleft : bool }.

Definition set_out (os : ostream) (s : text) (r : option nat) : ostream :=
  mkOs s r (oflags os) (omask os) (owidth os) (ofill os) (oleft os).
Definition set_flags (os : ostream) (f : flags) : ostream :=
  mkOs (sunk os) (room os) f (omask os) (owidth os) (ofill os) (oleft os).
Definition set_width (os : ostream) (w : nat) : ostream :=
  mkOs (sunk os) (room os) (oflags os) (omask os) w (ofill os) (oleft os).

(** ios::setstate (library model): an exception if a flag that is set is in the mask. *)
Definition setstate (f : flags) (os : ostream) : ostream * outcome unit :=
  let os' := set_flags os (or_flags (oflags os) f) in
  (os', if meets (oflags os') (omask os) then Throw RuntimeError else Ok tt).

Definition thenS (p : ostream * outcome unit) (k : ostream -> ostream * outcome unit) : ostream * outcome unit :=
  match p with (os, Ok _) => k os | _ => p end.

(** Handing the characters [s] to the buffer (sputn; library model): the device takes as many as
    it has room for; a short count sets badbit. *)
Definition put (s : text) (os : ostream) : ostream * outcome unit :=
  match room os with
  | None => (set_out os (sunk os ++ s) None, Ok tt)
  | Some r =>
      let os' := set_out os (sunk os ++ firstn r s) (Some (r - length s)%nat) in
      if (length s <=? r)%nat then (os', Ok tt) else setstate (mkF false false true) os'
  end.

(** put, if the stream is good. *)
Definition put_good (s : text) (os : ostream) : ostream * outcome unit :=
  if is_good (oflags os) then put s os else (os, Ok tt).

(** operator<<(os, string) of the standard library (used in dataframe.hpp:223-233; library model,
    after libstdc++'s __ostream_insert): on a stream that is not good failbit is set and nothing
    is written; the string is padded to the width, and the width is cleared. *)
Definition insert (s : text) (os : ostream) : ostream * outcome unit :=
  if is_good (oflags os) then
    let fill := repeat (ofill os) (owidth os - length s)%nat in
    thenS (if oleft os then thenS (put_good s os) (put_good fill)
           else thenS (put_good fill os) (put_good s))
          (fun os' => (set_width os' 0, Ok tt))
  else setstate (mkF false true false) os.

Section WITH_RULES.
Variable rs : rules.

(** The rest of a line of the header (dataframe.hpp:224-225). *)
Fixpoint insert_names (cs : text) (l : list text) (os : ostream) : ostream * outcome unit :=
  match l with
  | [] => (os, Ok tt)
  | n :: l' => thenS (thenS (insert cs os) (insert n)) (insert_names cs l')
  end.

(** os << data[j][i] *)
Definition insert_cell (col : list cell) (i : nat) (os : ostream) : ostream * outcome unit :=
  match (let* c := get col (Z.of_nat i) in cell_text c) with
  | Ok s => insert s os
  | Throw e => (os, Throw e) | Abort => (os, Abort) | UB => (os, UB) | Timeout => (os, Timeout)
  end.

(** The rest of line i (dataframe.hpp:231-232). *)
Fixpoint insert_cells (cs : text) (l : list (list cell)) (i : nat) (os : ostream) : ostream * outcome unit :=
  match l with
  | [] => (os, Ok tt)
  | col :: l' => thenS (thenS (insert cs os) (insert_cell col i)) (insert_cells cs l' i)
  end.

(** The header (dataframe.hpp:222-227); the first element exists (dataframe.hpp:202-203). *)
Definition insert_header (ls cs : text) (ns : list text) (os : ostream) : ostream * outcome unit :=
  match ns with
  | [] => (os, UB)
  | n :: ns' => thenS (thenS (insert n os) (insert_names cs ns')) (insert ls)
  end.

(** Line i (dataframe.hpp:230-233). *)
Definition insert_row (ls cs : text) (data : list (list cell)) (i : nat) (os : ostream) : ostream * outcome unit :=
  match data with
  | [] => (os, UB)
  | col :: data' => thenS (thenS (insert_cell col i os) (insert_cells cs data' i)) (insert ls)
  end.

(** The loop over the rows (dataframe.hpp:229-234). *)
Fixpoint insert_rows (ls cs : text) (data : list (list cell)) (is : list nat) (os : ostream) : ostream * outcome unit :=
  match is with
  | [] => (os, Ok tt)
  | i :: is' => thenS (insert_row ls cs data i os) (insert_rows ls cs data is')
  end.

(** write(os, opt) (dataframe.hpp:198-237). *)
Definition write_to (header : bool) (ls cs : text) (d : df) (os : ostream) : ostream * outcome unit :=
  if negb (df_bool d) then (os, Ok tt)
  else
    match mapO (write_data rs) (elems d) with
    | Ok data =>
        thenS (if header then insert_header ls cs (names d) os else (os, Ok tt))
              (insert_rows ls cs data (seq 0 (Z.to_nat (rows d))))
    | Throw e => (os, Throw e) | Abort => (os, Abort) | UB => (os, UB) | Timeout => (os, Timeout)
    end.

End WITH_RULES.

(** operator<<(os, df) (dataframe.hpp:307-310), with the default options (dataframe.hpp:60). *)
Definition insert_df (rs : rules) (d : df) (os : ostream) : ostream * outcome unit :=
  write_to rs true ["010"%char] ["009"%char] d os.
