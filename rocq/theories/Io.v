(** * Io: printing arrays (array/io.hpp). *)

From Coq Require Import ZArith Ascii List Bool.
From Verif Require Import Base Spec Desc Slice.
Import ListNotations.
Open Scope Z_scope.

Definition text : Type := list ascii.

(** [basic_dim_fmt] (array/io.hpp:17-20) with its default member initialisers. *)
Record dim_fmt : Type := Fmt { before : text; separator : text; after : text }.
Definition default_fmt : dim_fmt := Fmt ["{"%char] [" "%char] ["}"%char].

Definition newline : ascii := ascii_of_nat 10.
Definition tab : ascii := ascii_of_nat 9.

(** What an array_ostream is constructed with (io.hpp:28-33): without formats one default format
    is added.  The same test is at the start of every printing (io.hpp:47-48). *)
Definition ensure (fmts : list dim_fmt) : list dim_fmt :=
  match fmts with [] => [default_fmt] | _ => fmts end.

(** [dimensions_format(fmts)] (io.hpp:37): the new formats and, returned, the old ones. *)
Definition exchange_fmts (fmts new : list dim_fmt) : list dim_fmt * list dim_fmt := (new, fmts).

(** The format chosen for an array of order [n] (io.hpp:49). *)
Definition fmt_for (fmts : list dim_fmt) (n : nat) : dim_fmt :=
  nth (if (n <=? length fmts)%nat then (length fmts - n)%nat else O) fmts default_fmt.

(** [operator<<(array_ostream&, dimensions_format)] (io.hpp:96-113). *)
Definition set_dim_fmt (fmts : list dim_fmt) (dim : nat) (f : dim_fmt) : list dim_fmt :=
  let fmts1 := if (length fmts <? dim)%nat then fmts ++ repeat default_fmt (dim - length fmts) else fmts in
  if (length fmts1 =? dim)%nat then fmts1 ++ [f] else upd_nat fmts1 dim f.

(** [comma_separated], [space_separated], [tab_separated] (io.hpp:115-131). *)
Definition sep_fmts (c : ascii) : list dim_fmt := [Fmt [] [newline] []; Fmt [] [c] []].
Definition comma_fmts : list dim_fmt := sep_fmts ","%char.
Definition space_fmts : list dim_fmt := sep_fmts " "%char.
Definition tab_fmts : list dim_fmt := sep_fmts tab.

Section P.
Context {V : Type}.
(** The text of an element: what [os << element] writes. *)
Variable show : V -> text.
(** The storage of the array. *)
Variable cells : list V.
Variables (chk : bool) (fuel : nat).

(** The loop of the printing functions (io.hpp:59-63, 151-153): the items from [i] on, each one
    after a separator. *)
Fixpoint print_rest (item : Z -> outcome text) (sep : text) (n : nat) (i : Z) : outcome text :=
  match n with
  | O => Ok []
  | S n' => let* t := item i in let* r := print_rest item sep n' (i + 1) in Ok (sep ++ t ++ r)
  end.

(** [array_ostream::operator<<(RefArray)] (io.hpp:43-65); [n] is the order.  [a[i]] is an element
    for n = 1, otherwise an array of order n - 1. *)
Fixpoint aos_print (n : nat) (fmts : list dim_fmt) (s : st) {struct n} : outcome text :=
  match n with
  | O => UB
  | S n' =>
      match dims s with
      | Some (e :: _) =>
          let fmts := ensure fmts in
          let fmt := fmt_for fmts n in
          let item i :=
            let* s' := op_index chk fuel s (UIdx i) in
            match s' with
            | SElem p => let* v := get cells p in Ok (show v)
            | _ => aos_print n' fmts s'
            end in
          if e =? 0 then Ok (before fmt ++ after fmt)
          else let* t := item 0 in
               let* r := print_rest item (separator fmt) (Z.to_nat (e - 1)) 1 in
               Ok (before fmt ++ t ++ r ++ after fmt)
      | _ => UB
      end
  end.

(** [operator<<(std::basic_ostream&, RefArray)] (io.hpp:139-155) when the stream is not an
    array_ostream. *)
Fixpoint os_print (n : nat) (s : st) {struct n} : outcome text :=
  match n with
  | O => UB
  | S n' =>
      match dims s with
      | Some (e :: _) =>
          let item i :=
            let* s' := op_index chk fuel s (UIdx i) in
            match s' with
            | SElem p => let* v := get cells p in Ok (show v)
            | _ => os_print n' s'
            end in
          if e =? 0 then Ok (["{"%char] ++ ["}"%char])
          else let* t := item 0 in
               let* r := print_rest item [" "%char] (Z.to_nat (e - 1)) 1 in
               Ok (["{"%char] ++ t ++ r ++ ["}"%char])
      | _ => UB
      end
  end.

(** Streams: an ordinary one, or an array_ostream with its formats; the [dynamic_cast]
    (io.hpp:143-144).  The formats that the stream has afterwards come with the text. *)
Inductive stream : Type := Plain | Formatted (fmts : list dim_fmt).
Definition order (s : st) : nat := match dims s with Some es => length es | None => O end.
Definition stream_print (o : stream) (s : st) : outcome (text * stream) :=
  match o with
  | Plain => let* t := os_print (order s) s in Ok (t, Plain)
  | Formatted fmts => let* t := aos_print (order s) fmts s in Ok (t, Formatted (ensure fmts))
  end.

End P.
