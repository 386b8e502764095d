(** * Export: reading columns and dataframes out of the heap of ColHeap.v: to_vector, to_matrix, write and head.  Definitions only.

    Frame.v gives these functions on values.  Here they hold temporary columns and raw pointers into them, every pointer is
    followed when the code follows it, and every allocation, copy or output may throw (as in ColHeap.v).  The memory of the array
    that is returned is that of Life.v and ThrowsLife.v and is not part of this heap. *)

From Coq Require Import ZArith Bool List.
From Verif Require Import Base Coerce Frame ColHeap.
Import ListNotations.
Open Scope Z_scope.
Open Scope list_scope.

Section Export.
Variable rs : rules.
Variable ex : exn.
Variable thr : nat -> bool.
(** What a move leaves in a [std::string] (valid, unspecified). *)
Variable left_in : text -> text.

Notation tick := (tick ex thr).

(** [data<T>()] (dataframe/column.hpp:82-96): the pointer, here the block of the model; it throws without data or with another type. *)
Definition hdata (t : ty) (c : hcol) : M nat :=
  match c with
  | None => lift (Throw LogicError)
  | Some b => m <- peek b ;; if ty_eqb (mty m) t then ret b else lift (Throw LogicError)
  end.

(** [data[i]]: the pointer is followed. *)
Definition cell_at (p : nat) (i : nat) : M cell := m <- peek p ;; lift (get (mcells m) (Z.of_nat i)).

(** Copies of the elements [is] behind a pointer, into an array or a builder; each copy may throw. *)
Fixpoint copy_out (p : nat) (is : list nat) : M (list cell) :=
  match is with
  | [] => ret []
  | i :: is' => v <- cell_at p i ;; tick ;;' r <- copy_out p is' ;; ret (v :: r)
  end.

(** [to_vector<T>(const base_column&)] (dataframe/numeric.hpp:39-51): with another type through a converted temporary column, destroyed at
    the end, also when the construction of the array throws. *)
Definition hto_vector (t : ty) (c : hcol) : M (list cell) :=
  size <- hcol_size c ;;
  u <- hcol_type c ;;
  if ty_eqb u t
  then p <- hdata t c ;; tick ;;' copy_out p (seq 0 (Z.to_nat size))
  else
    n <- hto_column rs ex thr t c ;;
    l <- on_throw (p <- hdata t n ;; tick ;;' copy_out p (seq 0 (Z.to_nat size))) (free n) ;;
    free n ;;' ret l.

(** A cell after a move from it: only strings change. *)
Definition moved (c : cell) : cell := match c with CStr s => CStr (left_in s) | _ => c end.

(** Moves of the elements [is] behind a pointer through [std::make_move_iterator]; each construction may throw, and then does not change
    the source. *)
Fixpoint move_out (p : nat) (is : list nat) : M (list cell) :=
  match is with
  | [] => ret []
  | i :: is' =>
      v <- cell_at p i ;; tick ;;'
      m <- peek p ;; l <- lift (put (mcells m) (Z.of_nat i) (moved v)) ;; poke p (mkModel (mty m) l) ;;'
      r <- move_out p is' ;; ret (v :: r)
  end.

(** [to_vector<T>(base_column&&)] (dataframe/numeric.hpp:53-63) of variable [x]: coerced in place if needed, then moved from. *)
Definition hto_vector_move (t : ty) (x : nat) : M (list cell) :=
  s <- getc x ;;
  size <- hcol_size s ;;
  n <- hensure rs ex thr t s ;; setv x (HCol n) ;;'
  p <- hdata t n ;; tick ;;' move_out p (seq 0 (Z.to_nat size)).

(** Destruction of a [std::vector<base_column>]. *)
Fixpoint free_cols (l : list hcol) : M unit :=
  match l with [] => ret tt | c :: l' => free c ;;' free_cols l' end.

(** The vector [temp] grows: the columns are moved to the new buffer, because their move constructor is noexcept
    (dataframe/column.hpp:52), and a moved column keeps its model. *)
Definition regrow (temp : list hcol) : M (list hcol) := tick ;;' ret temp.

(** The loops that gather pointers to the columns' data, converting where needed (dataframe/numeric.hpp:75-83; dataframe/dataframe.hpp:213-220).
    [grow]: [push_back] on [temp] may allocate (to_matrix), or its capacity was reserved (write).  The capacity of the vector of pointers is
    reserved in both. *)
Fixpoint gather (grow : bool) (t : ty) (els : list hncol) (temp : list hcol) (ptrs : list nat) : M (list hcol * list nat) :=
  match els with
  | [] => ret (temp, ptrs)
  | (_, c) :: els' =>
      tc <- on_throw
        (u <- hcol_type c ;;
         if ty_eqb u t then ret (temp, c)
         else
           n <- hto_column rs ex thr t c ;;
           temp' <- on_throw (if grow then regrow temp else ret temp) (free n) ;;
           ret (temp' ++ [n], n))
        (free_cols temp) ;;
      p <- on_throw (hdata t (snd tc)) (free_cols (fst tc)) ;;
      gather grow t els' (fst tc) (ptrs ++ [p])
  end.

(** The loops over the pointers and the rows (dataframe/numeric.hpp:87-92).  [data] points to const elements, so [std::move(data[i])] is
    a copy too. *)
Fixpoint copy_cols (ptrs : list nat) (nrow : nat) : M (list cell) :=
  match ptrs with
  | [] => ret []
  | p :: ptrs' => l <- copy_out p (seq 0 nrow) ;; r <- copy_cols ptrs' nrow ;; ret (l ++ r)
  end.

(** [to_matrix<T>(df)] (dataframe/numeric.hpp:65-95). *)
Definition hto_matrix (t : ty) (d : hdf) : M (Z * Z * list cell) :=
  tick ;;'                                             (* data_vector.reserve *)
  g <- gather true t (helems d) [] [] ;;
  l <- on_throw (tick ;;' copy_cols (snd g) (Z.to_nat (hrows d))) (free_cols (fst g)) ;;
  free_cols (fst g) ;;' ret (hrows d, Z.of_nat (length (helems d)), l).

(** *** output *)
(** Output statements: the text so far, then the text after and how the statement ended. *)
Definition outs : Type := text -> M (text * outcome unit).
Definition skip : outs := fun out => ret (out, Ok tt).
Definition seqo (f g : outs) : outs := fun out =>
  r <- f out ;; match snd r with Ok _ => g (fst r) | _ => ret r end.
(** [os << s]; the stream may throw, and then has not taken anything of [s]. *)
Definition say (s : text) : outs := fun out w =>
  match tick w with
  | (Ok _, w') => (Ok (out ++ s, Ok tt), w')
  | (o, w') => (Ok (out, o), w')
  end.
(** [os << data[j][i]] *)
Definition say_cell (p i : nat) : outs := fun out => c <- cell_at p i ;; s <- lift (cell_text c) ;; say s out.
(** A line: [os << first; for (...) os << separator << next;] (dataframe/dataframe.hpp:223-225, 230-232). *)
Fixpoint say_rest (cs : text) (l : list outs) : outs :=
  match l with [] => skip | f :: l' => seqo (say cs) (seqo f (say_rest cs l')) end.
Definition say_line (ls cs : text) (l : list outs) : outs :=
  seqo (match l with [] => skip | f :: l' => seqo f (say_rest cs l') end) (say ls).
Fixpoint say_rows (ls cs : text) (ptrs : list nat) (is : list nat) : outs :=
  match is with
  | [] => skip
  | i :: is' => seqo (say_line ls cs (map (fun p => say_cell p i) ptrs)) (say_rows ls cs ptrs is')
  end.

(** [write(os, opt)] (dataframe/dataframe.hpp:198-237): what is appended to the stream and how the call ended.  The coerced columns are destroyed at
    the end in any case. *)
Definition hwrite (header : bool) (ls cs : text) (d : hdf) : M (text * outcome unit) := fun w =>
  match helems d with
  | [] => (Ok ([], Ok tt), w)
  | _ =>
      match (tick ;;' on_throw tick (ret tt) ;;' gather false TStr (helems d) [] []) w with
      | (Ok g, w1) =>
          (r <- seqo (if header then say_line ls cs (map (fun nc => say (fst nc)) (helems d)) else skip)
                     (say_rows ls cs (snd g) (seq 0 (Z.to_nat (hrows d)))) [] ;;
           free_cols (fst g) ;;' ret r) w1
      | (Throw e, w1) => (Ok ([], Throw e), w1)
      | (Abort, w1) => (Abort, w1) | (UB, w1) => (UB, w1) | (Timeout, w1) => (Timeout, w1)
      end
  end.

(** *** head *)
(** The lambda of [head] (dataframe/action.hpp:49-51): a temporary named column with a partial copy; it is returned by value from a const
    reference, so it is copied, and then destroyed. *)
Definition head_elem (n : Z) (nc : hncol) : M hncol :=
  tick ;;' c <- hpartial ex thr (snd nc) 0 n ;;
  c' <- on_throw (tick ;;' hcopy ex thr c) (free c) ;;
  free c ;;' ret (fst nc, c').
(** The all_of of the range constructor (dataframe/dataframe.hpp:108-114) over such temporaries: they are moved into the vector. *)
Fixpoint hpush_head (n rc : Z) (acc : list hncol) (els : list hncol) : M (list hncol * bool) :=
  match els with
  | [] => ret (acc, true)
  | nc :: els' =>
      e <- on_throw (head_elem n nc) (free_all acc) ;;
      let acc' := acc ++ [e] in
      s <- hcol_size (snd e) ;;
      if s =? rc then hpush_head n rc acc' els' else ret (acc', false)
  end.
(** The dataframe [head] constructs from the view (dataframe/dataframe.hpp:83-87, 101-127). *)
Definition hctor_head (n : Z) (els : list hncol) : M hdf :=
  match els with
  | [] => lift UB
  | nc :: els' =>
      tick ;;'
      e <- head_elem n nc ;;
      rc <- hcol_size (snd e) ;;
      r <- hpush_head n rc [e] els' ;;
      ix <- on_throw (if snd r : bool then hbuild_index ex thr (fst r) 0 [] else lift (Throw LogicError)) (free_all (fst r)) ;;
      ret (mkH rc (fst r) ix)
  end.
(** [df | action::head(n)] (dataframe/action.hpp:41-53): the temporary dataframe is copied out and destroyed. *)
Definition hhead (n : Z) (d : hdf) : M hdf :=
  if hrows d <? n then lift (Throw OutOfRange)
  else
    tmp <- hctor_head n (helems d) ;;
    r <- on_throw (hdf_copy ex thr tmp) (free_all (helems tmp)) ;;
    free_all (helems tmp) ;;' ret r.

(** *** programs *)
Inductive xop : Type :=
| XCmd (c : cop)                                    (* a command of ColHeap.v *)
| XVec (t : ty) (x : nat)                           (* to_vector<T>(x) *)
| XVecMove (t : ty) (x : nat)                       (* to_vector<T>(std::move(x)) *)
| XMat (t : ty) (f : nat)                           (* to_matrix<T>(f) *)
| XWrite (header : bool) (ls cs : text) (f : nat)   (* f.write(os, opt) *)
| XHead (n : Z) (g : nat).                          (* dataframe d = g | action::head(n); *)
Inductive xval : Type :=
| VUnit | VVec (l : list cell) | VMat (m : Z * Z * list cell) | VText (s : text) (o : outcome unit).

(** Execution of a command (lines as above). *)
Definition xexec (x : xop) : M xval :=
  match x with
  | XCmd c => kexec rs ex thr c ;;' ret VUnit
  | XVec t y => s <- getc y ;; l <- hto_vector t s ;; ret (VVec l)
  | XVecMove t y => l <- hto_vector_move t y ;; ret (VVec l)
  | XMat t f => d <- getd f ;; m <- hto_matrix t d ;; ret (VMat m)
  | XWrite header ls cs f => d <- getd f ;; r <- hwrite header ls cs d ;; ret (VText (fst r) (snd r))
  | XHead n g => d <- getd g ;; d' <- hhead n d ;; addv (HDf d') ;;' ret VUnit
  end.
End Export.
