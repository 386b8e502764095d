(** * ReadHeap: reading dataframes from text into the heap of ColHeap.v.  Definitions only.

    Frame.v gives [read] on values.  Here the dataframe that is read is a local variable whose columns are blocks of the heap, it is filled by
    one [bind] after another, and every allocation and every construction of a string may throw. *)

From Coq Require Import ZArith Bool Ascii List.
From Verif Require Import Base Coerce Frame ColHeap Export.
Import ListNotations.
Open Scope Z_scope.
Open Scope list_scope.

Section ReadHeap.
Variable rs : rules.
Variable ex : exn.
Variable thr : nat -> bool.
Notation tick := (tick ex thr).
Notation ticks := (ticks ex thr).

(** The elements of a std::vector<std::string> constructed from an input range (dataframe/dataframe.hpp:187-191; dataframe/column.hpp:37-39;
    [view::transform] makes it single pass, so the vector grows): the string is constructed, the vector may grow, the string is moved in. *)
Fixpoint grow_fill (b : nat) (l : list text) : M unit :=
  match l with [] => ret tt | s :: l' => tick ;;' tick ;;' push_cell b (CStr s) ;;' grow_fill b l' end.
(** [column_type(col_data | view::move)] (dataframe/dataframe.hpp:191, dataframe/column.hpp:37-39): as [make_model]. *)
Definition read_model (l : list text) : M nat :=
  b <- new_model ex thr (mkModel TStr []) ;; on_throw (grow_fill b l) (free (Some b)) ;;' ret b.

(** A local variable: the last one of the list while its block runs. *)
Definition enter (d : hdf) : M nat := fun w => (Ok (length (hvars w)), World (hmem w) (hvars w ++ [HDf d]) (hclock w)).
Definition leave : M hdf := fun w =>
  match nth_error (hvars w) (length (hvars w) - 1) with
  | Some (HDf d) => (Ok d, World (hmem w) (firstn (length (hvars w) - 1) (hvars w)) (hclock w))
  | _ => (UB, w)
  end.

(** [df.bind(named_column_type{string(...), {}})] (dataframe/dataframe.hpp:181): the name, the conversion to a dataframe (129), bind. *)
Fixpoint bind_names (f : nat) (ns : list text) : M unit :=
  match ns with
  | [] => ret tt
  | n :: ns' => tick ;;' o <- hctor_named ex thr n None ;; hbind ex thr f o ;;' bind_names f ns'
  end.
(** The loop over columns (dataframe/dataframe.hpp:186-193): the column, its name, the conversion to a dataframe, bind. *)
Fixpoint bind_cols (f : nat) (cs : list (text * list text)) : M unit :=
  match cs with
  | [] => ret tt
  | (n, l) :: cs' =>
      b <- read_model l ;;
      on_throw tick (free (Some b)) ;;'
      o <- hctor_named ex thr n (Some b) ;;
      hbind ex thr f o ;;'
      bind_cols f cs'
  end.

(** [read(is, opt)] (dataframe/dataframe.hpp:139-196) of a good stream with remaining content [t].  [splits]: how many allocations are made
    while the text is read and split; they do not concern columns.  When the local dataframe is not returned, it is destroyed. *)
Definition hread (splits : nat) (header : bool) (lsep csep : ascii -> bool) (t : text) : M hdf :=
  ticks splits ;;'
  r <- lift (read_lines csep (tokens lsep t) [] 0 0) ;;
  let data := fst r in let nc := snd r in
  if nc =? 0 then ret (mkH 0 [] [])
  else
    let n := Z.to_nat nc in
    let name j := nth j data [] in
    f <- enter (mkH 0 [] []) ;;
    on_throw
      (if header && (Z.of_nat (length data) / nc =? 1)
       then bind_names f (map name (seq 0 n))
       else bind_cols f (map (fun j => (if header then name j else [], stride n 0 (skipn (j + (if header then n else O)) data))) (seq 0 n)))
      (d <- leave ;; free_all (helems d)) ;;'
    leave.

Inductive yop : Type :=
| YOp (x : xop)                                                                  (* a command of Export.v *)
| YRead (splits : nat) (header : bool) (lsep csep : ascii -> bool) (t : text)   (* dataframe d = dataframe::read(is, opt); *)
| YExtract (splits : nat) (t : text) (f : nat).                                  (* is >> f; *)

(** Execution of a command (lines as above; dataframe/dataframe.hpp:312-316; the move assignment destroys the old columns). *)
Definition yexec (left_in : text -> text) (y : yop) : M xval :=
  match y with
  | YOp x => xexec rs ex thr left_in x
  | YRead splits header lsep csep t => d <- hread splits header lsep csep t ;; addv (HDf d) ;;' ret VUnit
  | YExtract splits t f =>
      _ <- getd f ;;
      n <- hread splits true is_nl is_tab t ;;
      d <- getd f ;; setv f (HDf n) ;;' free_all (helems d) ;;' ret VUnit
  end.
End ReadHeap.
