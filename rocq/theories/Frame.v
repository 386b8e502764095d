(** * Frame: columns and dataframes (dataframe/column.hpp, dataframe/dataframe.hpp,
    dataframe/action.hpp, dataframe/numeric.hpp, dataframe/detail/column_model.hpp).

    All functions are parameterised by the coercion rules ([Coercion] template
    parameter).  Allocation failure is not modelled in this file. *)

From Coq Require Import ZArith Bool Ascii String List.
From Verif Require Import Base Coerce.
Import ListNotations.
Open Scope Z_scope.
Open Scope list_scope.

(** ** Columns *)

(** column_model<T> (column_model.hpp:203-238): an element type and a vector of cells. *)
Record model : Type := mkModel { mty : ty; mcells : list cell }.

(** base_column (column.hpp:21-102): a possibly null pointer to a model. *)
Definition column : Type := option model.

(** base_column() (column.hpp:31). *)
Definition col_default : column := None.

(** base_column(initializer_list<T>), (const Rng&), (Iter, Sent) (column.hpp:33-44): the
    column of the given cells, of the static element type [t]. *)
Definition col_of (t : ty) (l : list cell) : column := Some (mkModel t l).

(** base_column(const T& value, index_t size) (column.hpp:35). *)
Definition col_repeat (t : ty) (v : cell) (n : Z) : column := Some (mkModel t (repeat v (Z.to_nat n))).

(** size() / length() (column.hpp:78-80; column_model.hpp:237). *)
Definition col_size (c : column) : Z :=
  match c with Some m => Z.of_nat (length (mcells m)) | None => 0 end.

(** base_column(const base_column&) (column.hpp:50): dereferences the model of the source,
    null or not; clone (column_model.hpp:221-224). *)
Definition col_copy (c : column) : outcome column :=
  match c with Some m => Ok (Some m) | None => UB end.

(** operator=(const base_column&) (column.hpp:54-58): a null source gives a null column. *)
Definition col_assign (src : column) : column := src.

(** partial_clone (column_model.hpp:226-231).  [first + size] is computed modulo 2^64;
    a vector built from an iterator range outside the vector is undefined. *)
Definition partial_clone (m : model) (first size : Z) : outcome model :=
  let len := Z.of_nat (length (mcells m)) in
  if (len <=? first) || (len <? w64 (first + size)) then Throw OutOfRange
  else if first + size <=? len
  then Ok (mkModel (mty m) (firstn (Z.to_nat size) (skipn (Z.to_nat first) (mcells m))))
  else UB.

(** base_column(const base_column& source, index_t first, index_t size) (column.hpp:46-48). *)
Definition col_partial (c : column) (first size : Z) : outcome column :=
  match c with
  | Some m => let* m' := partial_clone m first size in Ok (Some m')
  | None => UB
  end.

(** elements_type() (column.hpp:71-76; column_model.hpp:219). *)
Definition elements_type (c : column) : outcome ty :=
  match c with Some m => Ok (mty m) | None => Throw LogicError end.

(** data<T>() (column.hpp:82-96): throws without data or with another element type. *)
Definition col_data (t : ty) (c : column) : outcome (list cell) :=
  match c with
  | None => Throw LogicError
  | Some m => if ty_eqb (mty m) t then Ok (mcells m) else Throw LogicError
  end.

Section Rules.
Variable rs : rules.

(** column_interface::coerce<T> (column_model.hpp:81, 93, 97-139, 158): bad_cast without a
    rule, else the vector of the coerced cells; an exception of a rule leaves the source
    model untouched (it is const). *)
Definition model_coerce (t : ty) (m : model) : outcome model :=
  match rs t (mty m) with
  | None => Throw BadCast
  | Some f => let* l := mapO f (mcells m) in Ok (mkModel t l)
  end.

(** base_column::coerce<T>() & (column.hpp:62-67): the column after the call and how the call
    ended. *)
Definition col_coerce (t : ty) (c : column) : column * outcome unit :=
  match c with
  | None => (c, Throw LogicError)
  | Some m =>
      match model_coerce t m with
      | Ok m' => (Some m', Ok tt)
      | Throw e => (c, Throw e)
      | Abort => (c, Abort) | UB => (c, UB) | Timeout => (c, Timeout)
      end
  end.

(** can_coerce<T>() (column.hpp:69; column_model.hpp:82, 94, 111, 138). *)
Definition can_coerce (t : ty) (c : column) : bool :=
  match c with
  | None => false
  | Some m => match rs t (mty m) with Some _ => true | None => false end
  end.

(** to_column<T>(const base_column&) (dataframe/numeric.hpp:12-16): dereferences the model, null or not. *)
Definition to_column (t : ty) (c : column) : outcome column :=
  match c with
  | None => UB
  | Some m => let* m' := model_coerce t m in Ok (Some m')
  end.

(** to_column<T>(base_column&&) (dataframe/numeric.hpp:18-23): the argument after the call, the result. *)
Definition to_column_move (t : ty) (c : column) : column * outcome column :=
  match elements_type c with
  | Ok u =>
      if ty_eqb u t then (None, Ok c)
      else let '(c', o) := col_coerce t c in
           match o with
           | Ok _ => (None, Ok c')
           | Throw e => (c', Throw e) | Abort => (c', Abort) | UB => (c', UB) | Timeout => (c', Timeout)
           end
  | Throw e => (c, Throw e) | Abort => (c, Abort) | UB => (c, UB) | Timeout => (c, Timeout)
  end.

(** to_view<T>(base_column&) (dataframe/numeric.hpp:25-30): coerces the column in place when needed; the
    cells seen through the view. *)
Definition to_view (t : ty) (c : column) : column * outcome (list cell) :=
  match elements_type c with
  | Ok u =>
      let '(c', o) := if ty_eqb u t then (c, Ok tt) else col_coerce t c in
      (c', let* _ := o in col_data t c')
  | Throw e => (c, Throw e) | Abort => (c, Abort) | UB => (c, UB) | Timeout => (c, Timeout)
  end.

(** to_view<T>(const base_column&) (dataframe/numeric.hpp:32-35): no coercion. *)
Definition to_view_const (t : ty) (c : column) : outcome (list cell) := col_data t c.

(** to_vector<T>(const base_column&) (dataframe/numeric.hpp:39-51). *)
Definition to_vector (t : ty) (c : column) : outcome (list cell) :=
  let* u := elements_type c in
  if ty_eqb u t then col_data t c
  else let* c' := to_column t c in col_data t c'.

(** ** Dataframes *)

(** named_column_type (dataframe.hpp:29-33). *)
Record ncol : Type := mkN { nname : text; ncolumn : column }.

(** base_dataframe (dataframe.hpp:299-302): row count, columns, name index.  The
    unordered_map is an association list without repeated keys. *)
Record df : Type := mkDf { rows : Z; elems : list ncol; index : list (text * Z) }.

(** indexes_.find(name) (dataframe.hpp:122, 243, 270). *)
Fixpoint idx_find (i : list (text * Z)) (n : text) : option Z :=
  match i with
  | [] => None
  | (k, v) :: i' => if text_eqb k n then Some v else idx_find i' n
  end.

(** indexes_[name] = v (dataframe.hpp:124, 254). *)
Fixpoint idx_set (i : list (text * Z)) (n : text) (v : Z) : list (text * Z) :=
  match i with
  | [] => [(n, v)]
  | (k, w) :: i' => if text_eqb k n then (k, v) :: i' else (k, w) :: idx_set i' n v
  end.

(** name.empty(). *)
Definition tempty (t : text) : bool := match t with [] => true | _ => false end.

(** base_dataframe() (dataframe.hpp:77, 299-302). *)
Definition df_default : df := mkDf 0 [] [].

(** column_count() (dataframe.hpp:278), operator bool (281). *)
Definition column_count (d : df) : Z := Z.of_nat (length (elems d)).
Definition df_bool (d : df) : bool := 0 <? column_count d.

(** names() (dataframe.hpp:287-291). *)
Definition names (d : df) : list text := map nname (elems d).

(** column_types() (dataframe.hpp:280-285): throws if a column has no data. *)
Definition column_types (d : df) : outcome (list ty) :=
  mapO (fun nc => elements_type (ncolumn nc)) (elems d).

(** The all_of of the range constructor (dataframe.hpp:111-114): pushes each element and
    stops after the first one whose size differs from the row count. *)
Fixpoint push_all (rc : Z) (acc : list ncol) (els : list (outcome ncol)) : outcome (list ncol * bool) :=
  match els with
  | [] => Ok (acc, true)
  | o :: els' =>
      let* nc := o in
      let acc' := acc ++ [nc] in
      if col_size (ncolumn nc) =? rc then push_all rc acc' els' else Ok (acc', false)
  end.

(** The index loop of the range constructor (dataframe.hpp:118-126): the counter advances only
    at named columns. *)
Fixpoint build_index (es : list ncol) (i : Z) (ix : list (text * Z)) : outcome (list (text * Z)) :=
  match es with
  | [] => Ok ix
  | nc :: es' =>
      if tempty (nname nc) then build_index es' i ix
      else match idx_find ix (nname nc) with
           | Some _ => Throw LogicError
           | None => build_index es' (i + 1) (idx_set ix (nname nc) i)
           end
  end.

(** base_dataframe(Iter first, Sent last, index_t size_hint) (dataframe.hpp:101-127).  [els] are
    the elements produced by dereferencing the iterator (copies for an lvalue range or an
    initializer list, temporaries for a generated range); an empty range is dereferenced. *)
Definition ctor_from (els : list (outcome ncol)) : outcome df :=
  match els with
  | [] => UB
  | o :: els' =>
      let* nc := o in
      let rc := col_size (ncolumn nc) in
      let* (es, ok) := push_all rc [nc] els' in
      if ok then let* ix := build_index es 0 [] in Ok (mkDf rc es ix)
      else Throw LogicError
  end.

(** Copy constructor of named_column_type (implicit; dataframe.hpp:29-33, column.hpp:50). *)
Definition ncol_copy (nc : ncol) : outcome ncol :=
  let* c := col_copy (ncolumn nc) in Ok (mkN (nname nc) c).

(** base_dataframe(initializer_list) and base_dataframe(const Rng&) for a range of lvalues
    (dataframe.hpp:79-87): the columns are copied. *)
Definition ctor_range (cols : list ncol) : outcome df := ctor_from (map ncol_copy cols).

(** base_dataframe(named_column_type) (dataframe.hpp:129): no entry in the name index. *)
Definition ctor_named (nc : ncol) : df := mkDf (col_size (ncolumn nc)) [nc] [].

(** base_dataframe(column_type) (dataframe.hpp:131): the element goes through an
    initializer list, hence is copied. *)
Definition ctor_column (c : column) : outcome df :=
  let* c' := col_copy c in Ok (mkDf (col_size c) [mkN [] c'] []).

(** base_dataframe(const base_dataframe&) = default (dataframe.hpp:133). *)
Definition df_copy (d : df) : outcome df :=
  let* es := mapO ncol_copy (elems d) in Ok (mkDf (rows d) es (index d)).

(** base_dataframe(base_dataframe&&) = default (dataframe.hpp:134): (source after, result).
    The row count of the source keeps its value. *)
Definition df_move (d : df) : df * df := (mkDf (rows d) [] [], d).

(** operator=(const base_dataframe&) = default (dataframe.hpp:136) between distinct objects.
    [cap] is the capacity of the destination's vector: with enough capacity the existing elements
    are assigned (null columns are fine), the others are copy constructed; otherwise all are
    copy constructed. *)
Definition df_assign (cap : nat) (dst src : df) : outcome df :=
  let n := length (elems src) in
  let k := if Nat.ltb cap n then O else Nat.min (length (elems dst)) n in
  let kept := map (fun nc => mkN (nname nc) (col_assign (ncolumn nc))) (firstn k (elems src)) in
  let* fresh := mapO ncol_copy (skipn k (elems src)) in
  Ok (mkDf (rows src) (kept ++ fresh) (index src)).

(** bind (dataframe.hpp:240-259): the loop that appends the elements of the argument. *)
Fixpoint bind_loop (es : list ncol) (d : df) : df :=
  match es with
  | [] => d
  | nc :: es' =>
      let ix := if tempty (nname nc) then index d
                else idx_set (index d) (nname nc) (column_count d) in
      bind_loop es' (mkDf (rows d) (elems d ++ [nc]) ix)
  end.

(** bind(base_dataframe other) (dataframe.hpp:240-259): the dataframe after the call and how the
    call ended. *)
Definition bind (d other : df) : df * outcome unit :=
  if existsb (fun n => negb (tempty n || match idx_find (index d) n with Some _ => false | None => true end))
             (names other)
  then (d, Throw LogicError)
  else if df_bool d
  then if rows d =? rows other then (bind_loop (elems other) d, Ok tt) else (d, Throw LogicError)
  else (bind_loop (elems other) (mkDf (rows other) (elems d) (index d)), Ok tt).

(** at(index_t) (dataframe.hpp:262-266). *)
Definition at_pos (d : df) (pos : Z) : outcome ncol :=
  if pos <? column_count d then get (elems d) pos else Throw LogicError.

(** at(const string&) (dataframe.hpp:268-273). *)
Definition at_name (d : df) (n : text) : outcome ncol :=
  match idx_find (index d) n with
  | Some v => get (elems d) v
  | None => Throw LogicError
  end.

(** ** Text input and output *)

(** std::regex_token_iterator with submatch -1 (dataframe.hpp:154, 161) for a regular expression
    that matches exactly the one-character strings satisfying [sep]: the text between
    consecutive matches; the rest after the last match only if it is not empty (or if
    there was no match at all).  [acc] is the current token, reversed. *)
Fixpoint tokens_from (sep : ascii -> bool) (matched : bool) (acc s : text) : list text :=
  match s with
  | [] => if matched && tempty acc then [] else [rev acc]
  | c :: s' =>
      if sep c then rev acc :: tokens_from sep true [] s'
      else tokens_from sep matched (c :: acc) s'
  end.
Definition tokens (sep : ascii -> bool) (s : text) : list text := tokens_from sep false [] s.

(** The loop over lines (dataframe.hpp:157-171): (cells so far, number of columns). *)
Fixpoint read_lines (csep : ascii -> bool) (ls : list text) (data : list text) (ncol last : Z)
  : outcome (list text * Z) :=
  match ls with
  | [] => Ok (data, ncol)
  | line :: ls' =>
      if tempty line then read_lines csep ls' data ncol last
      else
        let data' := data ++ tokens csep line in
        let size := Z.of_nat (length data') in
        let ncol' := if ncol =? 0 then size - last else ncol in
        if (ncol' =? 0) || (size - last =? ncol')
        then read_lines csep ls' data' ncol' size
        else Throw LogicError
  end.

(** view::stride(k): elements 0, k, 2k, ... (dataframe.hpp:187); [skip] elements are dropped
    first. *)
Fixpoint stride (k skip : nat) (l : list text) : list text :=
  match l with
  | [] => []
  | a :: l' => match skip with
               | O => a :: stride k (pred k) l'
               | S s => stride k s l'
               end
  end.

(** Successive binds of single named columns (dataframe.hpp:179-183, 186-193). *)
Fixpoint bind_columns (cols : list ncol) (d : df) : outcome df :=
  match cols with
  | [] => Ok d
  | c :: cols' =>
      let '(d', o) := bind d (ctor_named c) in
      let* _ := o in bind_columns cols' d'
  end.

(** read(is, opt) (dataframe.hpp:139-196) of a good stream whose remaining content is [t]; the
    separators are one-character regular expressions given by predicates. *)
Definition read (header : bool) (lsep csep : ascii -> bool) (t : text) : outcome df :=
  let* (data, nc) := read_lines csep (tokens lsep t) [] 0 0 in
  if nc =? 0 then Ok df_default
  else
    let n := Z.to_nat nc in
    let name j := nth j data [] in
    if header && (Z.of_nat (length data) / nc =? 1)
    then bind_columns (map (fun j => mkN (name j) col_default) (seq 0 n)) df_default
    else
      let skip := if header then n else O in
      bind_columns
        (map (fun j => mkN (if header then name j else [])
                           (col_of TStr (map CStr (stride n 0 (skipn (j + skip) data)))))
             (seq 0 n))
        df_default.

(** The default separators (dataframe.hpp:37): newline and tab. *)
Definition is_nl (c : ascii) : bool := Ascii.eqb c "010"%char.
Definition is_tab (c : ascii) : bool := Ascii.eqb c "009"%char.

(** A cell of a string column as text. *)
Definition cell_text (c : cell) : outcome text :=
  match c with CStr s => Ok s | _ => UB end.

(** The column data gathered by write (dataframe.hpp:213-220). *)
Definition write_data (nc : ncol) : outcome (list cell) :=
  let* u := elements_type (ncolumn nc) in
  if ty_eqb u TStr then col_data TStr (ncolumn nc)
  else let* c := to_column TStr (ncolumn nc) in col_data TStr c.

(** One line: the fields separated by [cs] (dataframe.hpp:222-234). *)
Fixpoint write_fields (cs : text) (l : list text) : text :=
  match l with
  | [] => []
  | a :: l' => a ++ match l' with [] => [] | _ => cs ++ write_fields cs l' end
  end.

Definition write_row (cs ls : text) (data : list (list cell)) (i : nat) : outcome text :=
  let* fs := mapO (fun col => let* c := get col (Z.of_nat i) in cell_text c) data in
  Ok (write_fields cs fs ++ ls).

(** write(os, opt) (dataframe.hpp:198-237): what is appended to the stream and how the call
    ended; all coercions happen before the first output. *)
Definition write (header : bool) (ls cs : text) (d : df) : text * outcome unit :=
  if negb (df_bool d) then ([], Ok tt)
  else
    match mapO write_data (elems d) with
    | Ok data =>
        let h := if header then write_fields cs (names d) ++ ls else [] in
        match mapO (write_row cs ls data) (seq 0 (Z.to_nat (rows d))) with
        | Ok lines => (h ++ concat lines, Ok tt)
        | Throw e => (h, Throw e) | Abort => (h, Abort) | UB => (h, UB) | Timeout => (h, Timeout)
        end
    | Throw e => ([], Throw e) | Abort => ([], Abort) | UB => ([], UB) | Timeout => ([], Timeout)
    end.

(** ** Actions and conversions *)

(** action::head(n) (action.hpp:41-53): the columns restricted to n rows, through the range
    constructor, then copied out of the temporary. *)
Definition head (n : Z) (d : df) : outcome df :=
  if rows d <? n then Throw OutOfRange
  else
    let* d' := ctor_from (map (fun nc => let* c := col_partial (ncolumn nc) 0 n in Ok (mkN (nname nc) c)) (elems d)) in
    df_copy d'.

(** The column data gathered by to_matrix<T> (dataframe/numeric.hpp:75-83). *)
Definition matrix_data (t : ty) (nc : ncol) : outcome (list cell) :=
  let* u := elements_type (ncolumn nc) in
  if ty_eqb u t then col_data t (ncolumn nc)
  else let* c := to_column t (ncolumn nc) in col_data t c.

(** to_matrix<T> (dataframe/numeric.hpp:65-95): (rows, columns, elements in storage order). *)
Definition to_matrix (t : ty) (d : df) : outcome (Z * Z * list cell) :=
  let* data := mapO (matrix_data t) (elems d) in
  let* cols := mapO (fun col => mapO (fun i => get col (Z.of_nat i)) (seq 0 (Z.to_nat (rows d)))) data in
  Ok (rows d, column_count d, concat cols).

(** ** Histories: programs over dataframe variables *)

(** The ways to pass an argument to bind by value (dataframe.hpp:240): a copy or a move of a
    variable, or a temporary converted from a named column, a column, or a list. *)
Inductive barg : Type :=
| BCopy (j : nat) | BMove (j : nat) | BNamed (c : ncol) | BColumn (c : column) | BRange (l : list ncol).

Inductive cmd : Type :=
| CDefault | CRange (l : list ncol) | CNamed (c : ncol) | CColumn (c : column)
| CCopy (j : nat) | CMove (j : nat)
| CAssign (cap : nat) (i j : nat) | CMoveAssign (i j : nat)
| CBind (i : nat) (a : barg)
| CRead (header : bool) (lsep csep : ascii -> bool) (t : text)
| CReadInto (i : nat) (t : text)
| CHead (n : Z) (j : nat).

Definition env : Type := list df.

Definition var (e : env) (i : nat) : outcome df :=
  match nth_error e i with Some d => Ok d | None => UB end.

(** A new variable for a constructed dataframe; a throwing constructor makes no variable. *)
Definition new (e : env) (o : outcome df) : env * outcome unit :=
  match o with
  | Ok d => (e ++ [d], Ok tt)
  | Throw x => (e, Throw x) | Abort => (e, Abort) | UB => (e, UB) | Timeout => (e, Timeout)
  end.

(** Evaluating the argument of bind: the environment after (a move empties its source). *)
Definition eval_arg (e : env) (a : barg) : env * outcome df :=
  match a with
  | BCopy j => (e, let* d := var e j in df_copy d)
  | BMove j => match nth_error e j with
               | Some d => let '(d0, d1) := df_move d in (upd_nat e j d0, Ok d1)
               | None => (e, UB)
               end
  | BNamed c => (e, Ok (ctor_named c))
  | BColumn c => (e, ctor_column c)
  | BRange l => (e, ctor_range l)
  end.

(** One command (dataframe.hpp:77-137, 139, 240, 312-316; action.hpp:41). *)
Definition exec (c : cmd) (e : env) : env * outcome unit :=
  match c with
  | CDefault => new e (Ok df_default)
  | CRange l => new e (ctor_range l)
  | CNamed nc => new e (Ok (ctor_named nc))
  | CColumn c => new e (ctor_column c)
  | CCopy j => new e (let* d := var e j in df_copy d)
  | CMove j => match nth_error e j with
               | Some d => let '(d0, d1) := df_move d in (upd_nat e j d0 ++ [d1], Ok tt)
               | None => (e, UB)
               end
  | CAssign cap i j =>
      match nth_error e i, nth_error e j with
      | Some di, Some dj =>
          if Nat.eqb i j then (e, Ok tt)
          else match df_assign cap di dj with
               | Ok d => (upd_nat e i d, Ok tt)
               | Throw x => (e, Throw x) | Abort => (e, Abort) | UB => (e, UB) | Timeout => (e, Timeout)
               end
      | _, _ => (e, UB)
      end
  | CMoveAssign i j =>
      match nth_error e i, nth_error e j with
      | Some di, Some dj =>
          if Nat.eqb i j then (e, UB)
          else let '(d0, d1) := df_move dj in (upd_nat (upd_nat e j d0) i d1, Ok tt)
      | _, _ => (e, UB)
      end
  | CBind i a =>
      let '(e1, o) := eval_arg e a in
      match o with
      | Ok other =>
          match nth_error e1 i with
          | Some d => let '(d', r) := bind d other in (upd_nat e1 i d', r)
          | None => (e1, UB)
          end
      | Throw x => (e1, Throw x) | Abort => (e1, Abort) | UB => (e1, UB) | Timeout => (e1, Timeout)
      end
  | CRead h ls cs t => new e (read h ls cs t)
  | CReadInto i t =>
      match nth_error e i, read true is_nl is_tab t with
      | Some _, Ok d => (upd_nat e i d, Ok tt)
      | Some _, Throw x => (e, Throw x)
      | Some _, Abort => (e, Abort) | Some _, UB => (e, UB) | Some _, Timeout => (e, Timeout)
      | None, _ => (e, UB)
      end
  | CHead n j => new e (let* d := var e j in head n d)
  end.

End Rules.
