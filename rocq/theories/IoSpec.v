(** * IoSpec: the text of an array. *)

From Coq Require Import ZArith Ascii List Bool.
From Verif Require Import Spec Io.
Import ListNotations.
Open Scope Z_scope.

(** Texts one after the other with a separator between each two of them. *)
Definition join (sep : text) (ts : list text) : text :=
  match ts with
  | [] => []
  | t :: ts' => t ++ concat (map (fun t => sep ++ t) ts')
  end.

(** Nested text of an array with the given extents, one format per dimension; [f] gives the
    text of the element at an index tuple. *)
Fixpoint nested (fs : list dim_fmt) (shape : list Z) (f : list Z -> text) : text :=
  match shape, fs with
  | e :: es, x :: fs' =>
      before x ++ join (separator x) (map (fun i => nested fs' es (fun ix => f (i :: ix))) (iota e)) ++ after x
  | _, _ => f []
  end.

(** Braces and spaces in every dimension. *)
Definition braces (shape : list Z) (f : list Z -> text) : text :=
  nested (repeat default_fmt (length shape)) shape f.

(** The formats of an array_ostream belong to the innermost dimensions, the last format to the
    innermost; dimensions further out than there are formats have the first format. *)
Definition formats_for (fmts : list dim_fmt) (n : nat) : list dim_fmt :=
  if (n <=? length fmts)%nat then skipn (length fmts - n) fmts
  else repeat (hd default_fmt fmts) (n - length fmts) ++ fmts.

(** A text without any of the characters [cs]. *)
Definition free_of (cs : list ascii) (t : text) : Prop := forall c, In c t -> ~ In c cs.

(** The element texts of a matrix by rows, separated by [c], the rows by newlines. *)
Definition table (c : ascii) (rows : list (list text)) : text := join [newline] (map (join [c]) rows).
