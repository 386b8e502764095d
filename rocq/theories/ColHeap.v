(** * ColHeap: columns and dataframes as objects that own storage, with operations that may fail.  Definitions only.

    Frame.v gives columns and dataframes as values; here a column is a [std::unique_ptr] to a column model in a heap
    of models, and every allocation, every copy of a cell or of a string and every coercion of a cell may throw.
    A model object and the buffer of its [std::vector] are one heap block (they live and die together).  Using or releasing a
    released model is undefined.  [thr k]: the k-th such operation throws [ex] ([std::bad_alloc], or any other exception). *)

From Coq Require Import ZArith Bool List.
From Verif Require Import Base Coerce Frame.
Import ListNotations.
Open Scope Z_scope.
Open Scope list_scope.

(** [base_column::model_] (dataframe/column.hpp:101). *)
Definition hcol : Type := option nat.
(** [named_column_type] and the members of a dataframe (dataframe/dataframe.hpp:29-33, 299-302). *)
Definition hncol : Type := (text * hcol)%type.
Record hdf : Type := mkH { hrows : Z; helems : list hncol; hindex : list (text * Z) }.
(** Variables of a program; a destroyed variable stays in the list. *)
Inductive hvar : Type := HCol (c : hcol) | HDf (d : hdf) | HDead.
Record world : Type := World { hmem : list (option model); hvars : list hvar; hclock : nat }.
Definition M (A : Type) : Type := world -> outcome A * world.

Definition ret {A} (a : A) : M A := fun w => (Ok a, w).
Definition lift {A} (o : outcome A) : M A := fun w => (o, w).
Definition bindM {A B} (m : M A) (f : A -> M B) : M B := fun w =>
  match m w with
  | (Ok a, w') => f a w'
  | (Throw e, w') => (Throw e, w') | (Abort, w') => (Abort, w') | (UB, w') => (UB, w') | (Timeout, w') => (Timeout, w')
  end.
Notation "x <- m ;; k" := (bindM m (fun x => k)) (at level 61, m at next level, right associativity).
Notation "m ;;' k" := (bindM m (fun _ => k)) (at level 61, right associativity).

(** Destruction during stack unwinding: when [m] throws, [h] is run and the exception goes on. *)
Definition on_throw {A} (m : M A) (h : M unit) : M A := fun w =>
  match m w with
  | (Throw e, w') => bindM h (fun _ => lift (Throw e)) w'
  | r => r
  end.

Section Heap.
Variable rs : rules.
Variable ex : exn.
Variable thr : nat -> bool.

(** An operation that may throw. *)
Definition tick : M unit := fun w =>
  (if thr (hclock w) then Throw ex else Ok tt, World (hmem w) (hvars w) (S (hclock w))).
Fixpoint ticks (n : nat) : M unit := match n with O => ret tt | S n' => tick ;;' ticks n' end.

(** *** heap of models *)
Definition set_mem (w : world) (h : list (option model)) : world := World h (hvars w) (hclock w).
Definition peek (b : nat) : M model := fun w =>
  match nth_error (hmem w) b with Some (Some m) => (Ok m, w) | _ => (UB, w) end.
Definition poke (b : nat) (m : model) : M unit := fun w =>
  match nth_error (hmem w) b with Some (Some _) => (Ok tt, set_mem w (upd_nat (hmem w) b (Some m))) | _ => (UB, w) end.
(** [new column_model<T>] *)
Definition new_model (m : model) : M nat :=
  tick ;;' (fun w => (Ok (length (hmem w)), set_mem w (hmem w ++ [Some m]))).
(** [delete p]; deleting a null pointer does nothing. *)
Definition free (p : hcol) : M unit := fun w =>
  match p with
  | None => (Ok tt, w)
  | Some b => match nth_error (hmem w) b with
              | Some (Some _) => (Ok tt, set_mem w (upd_nat (hmem w) b None))
              | _ => (UB, w)
              end
  end.
(** [push_back] of a cell with enough capacity. *)
Definition push_cell (b : nat) (c : cell) : M unit :=
  m <- peek b ;; poke b (mkModel (mty m) (mcells m ++ [c])).

(** Copying the cells [l] into the vector of the model [b], each copy may throw. *)
Fixpoint fill (b : nat) (l : list cell) : M unit :=
  match l with [] => ret tt | c :: l' => tick ;;' push_cell b c ;;' fill b l' end.

(** [new column_model<T>{...}], [std::make_unique<model_t<T>>(...)] with a vector built from [l] (dataframe/column.hpp:33-44,
    dataframe/detail/column_model.hpp:221-231): a new-expression releases the object when its constructor throws. *)
Definition make_model (t : ty) (l : list cell) : M nat :=
  b <- new_model (mkModel t []) ;; on_throw (tick ;;' fill b l) (free (Some b)) ;;' ret b.

(** [clone()] (column_model.hpp:221-224), [partial_clone] (218-223). *)
Definition clone (b : nat) : M nat := m <- peek b ;; make_model (mty m) (mcells m).
Definition hpartial_clone (b : nat) (first size : Z) : M nat :=
  m <- peek b ;; m' <- lift (partial_clone m first size) ;; make_model (mty m') (mcells m').

(** The [std::transform] of [coerce_] (column_model.hpp:132-133). *)
Fixpoint coerce_loop (f : cell -> outcome cell) (r : nat) (l : list cell) : M unit :=
  match l with [] => ret tt | c :: l' => tick ;;' v <- lift (f c) ;; push_cell r v ;;' coerce_loop f r l' end.

(** [JULES_DEFER(delete result)] around [body] (base/async.hpp:11-32, column_model.hpp:129): [body] also gives the final value of
    the variable [result]; it is [r] while [body] can throw. *)
Definition defer_delete {A} (r : nat) (body : M (A * hcol)) : M A := fun w =>
  match body w with
  | (Ok (a, result), w') => (free result ;;' ret a) w'
  | (Throw e, w') => (free (Some r) ;;' lift (Throw e)) w'
  | (Abort, w') => (Abort, w') | (UB, w') => (UB, w') | (Timeout, w') => (Timeout, w')
  end.

(** [coerce<T>()] of a model (column_model.hpp:81, 93, 106-109, 126-136): [std::bad_cast] without a rule; else a new model,
    [reserve], the coerced cells, and [std::exchange(result, nullptr)] hands the model out. *)
Definition coerce_model (t : ty) (b : nat) : M nat :=
  m <- peek b ;;
  match rs t (mty m) with
  | None => lift (Throw BadCast)
  | Some f => r <- new_model (mkModel t []) ;; defer_delete r (tick ;;' coerce_loop f r (mcells m) ;;' ret (r, None))
  end.

(** *** columns *)
(** [size()] (dataframe/column.hpp:78). *)
Definition hcol_size (c : hcol) : M Z :=
  match c with None => ret 0 | Some b => m <- peek b ;; ret (Z.of_nat (length (mcells m))) end.
(** [elements_type()] (column.hpp:71-76). *)
Definition hcol_type (c : hcol) : M ty :=
  match c with None => lift (Throw LogicError) | Some b => m <- peek b ;; ret (mty m) end.
(** Copy constructor (column.hpp:50), partial copy (46-48): the model of the source is dereferenced, null or not. *)
Definition hcopy (c : hcol) : M hcol :=
  match c with None => lift UB | Some b => b' <- clone b ;; ret (Some b') end.
Definition hpartial (c : hcol) (first size : Z) : M hcol :=
  match c with None => lift UB | Some b => b' <- hpartial_clone b first size ;; ret (Some b') end.
(** Copy assignment (column.hpp:54-58): the clone first, then the old model is released. *)
Definition hassign (dst src : hcol) : M hcol :=
  n <- match src with None => ret None | Some b => b' <- clone b ;; ret (Some b') end ;;
  free dst ;;' ret n.
(** [coerce<T>()] (column.hpp:62-67): as assignment. *)
Definition hcoerce (t : ty) (c : hcol) : M hcol :=
  match c with None => lift (Throw LogicError) | Some b => n <- coerce_model t b ;; free c ;;' ret (Some n) end.
(** [to_column<T>(const base_column&)] (dataframe/numeric.hpp:12-16). *)
Definition hto_column (t : ty) (c : hcol) : M hcol :=
  match c with None => lift UB | Some b => n <- coerce_model t b ;; ret (Some n) end.
(** The first lines of [to_column<T>(base_column&&)] and [to_view<T>(base_column&)] (dataframe/numeric.hpp:20-21, 27-28): the column after. *)
Definition hensure (t : ty) (c : hcol) : M hcol :=
  u <- hcol_type c ;; if ty_eqb u t then ret c else hcoerce t c.
(** [data<T>()[i] = v] (column.hpp:82-88). *)
Definition hset (t : ty) (c : hcol) (i : Z) (v : cell) : M unit :=
  match c with
  | None => lift (Throw LogicError)
  | Some b =>
      m <- peek b ;;
      if ty_eqb (mty m) t then tick ;;' l <- lift (put (mcells m) i v) ;; poke b (mkModel (mty m) l)
      else lift (Throw LogicError)
  end.

(** *** dataframes *)
(** Destruction of named columns. *)
Fixpoint free_all (l : list hncol) : M unit :=
  match l with [] => ret tt | (_, c) :: l' => free c ;;' free_all l' end.
(** Copy construction of a sequence of named columns; when a copy throws, the ones before are destroyed. *)
Fixpoint copy_all (l : list hncol) : M (list hncol) :=
  match l with
  | [] => ret []
  | (n, c) :: l' =>
      tick ;;' c' <- hcopy c ;; r <- on_throw (copy_all l') (free c') ;; ret ((n, c') :: r)
  end.

(** [base_dataframe(const base_dataframe&) = default] (dataframe/dataframe.hpp:133): the vector (buffer and elements), then the map. *)
Definition hdf_copy (d : hdf) : M hdf :=
  tick ;;' es <- copy_all (helems d) ;;
  on_throw (ticks (S (length (hindex d)))) (free_all es) ;;' ret (mkH (hrows d) es (hindex d)).

(** The moved-from dataframe (dataframe.hpp:134). *)
Definition hdf_moved (d : hdf) : hdf := mkH (hrows d) [] [].

(** The all_of of the range constructor (dataframe.hpp:108-114): [acc] are the elements so far, destroyed when something throws. *)
Fixpoint hpush_all (rc : Z) (acc : list hncol) (els : list hncol) : M (list hncol * bool) :=
  match els with
  | [] => ret (acc, true)
  | (n, c) :: els' =>
      c' <- on_throw (tick ;;' hcopy c) (free_all acc) ;;
      let acc' := acc ++ [(n, c')] in
      s <- hcol_size c' ;;
      if s =? rc then hpush_all rc acc' els' else ret (acc', false)
  end.
(** The index loop (dataframe.hpp:118-126). *)
Fixpoint hbuild_index (es : list hncol) (i : Z) (ix : list (text * Z)) : M (list (text * Z)) :=
  match es with
  | [] => ret ix
  | (n, _) :: es' =>
      if tempty n then hbuild_index es' i ix
      else match idx_find ix n with
           | Some _ => lift (Throw LogicError)
           | None => tick ;;' hbuild_index es' (i + 1) (idx_set ix n i)
           end
  end.
(** [base_dataframe(first, last, size)] over existing named columns, which are copied (dataframe.hpp:101-127). *)
Definition hctor_copy (els : list hncol) : M hdf :=
  match els with
  | [] => lift UB
  | (n, c) :: els' =>
      tick ;;' (* reserve *)
      tick ;;' c' <- hcopy c ;;
      rc <- hcol_size c' ;;
      r <- hpush_all rc [(n, c')] els' ;;
      ix <- on_throw (if snd r : bool then hbuild_index (fst r) 0 [] else lift (Throw LogicError)) (free_all (fst r)) ;;
      ret (mkH rc (fst r) ix)
  end.
(** [base_dataframe{{name, column}, ...}] (dataframe.hpp:79-81): the array behind the initializer list holds copies of the columns,
    and is destroyed at the end. *)
Definition hctor_list (els : list hncol) : M hdf :=
  tmp <- copy_all els ;;
  d <- on_throw (hctor_copy tmp) (free_all tmp) ;;
  free_all tmp ;;' ret d.

(** [base_dataframe(named_column_type elem)] (dataframe.hpp:129) of a temporary. *)
Definition hctor_named (n : text) (c : hcol) : M hdf :=
  rc <- hcol_size c ;; on_throw tick (free c) ;;' ret (mkH rc [(n, c)] []).

(** *** variables *)
Definition getv (i : nat) : M hvar := fun w =>
  match nth_error (hvars w) i with Some v => (Ok v, w) | None => (UB, w) end.
Definition setv (i : nat) (v : hvar) : M unit := fun w => (Ok tt, World (hmem w) (upd_nat (hvars w) i v) (hclock w)).
Definition addv (v : hvar) : M unit := fun w => (Ok tt, World (hmem w) (hvars w ++ [v]) (hclock w)).
Definition getc (i : nat) : M hcol := v <- getv i ;; match v with HCol c => ret c | _ => lift UB end.
Definition getd (i : nat) : M hdf := v <- getv i ;; match v with HDf d => ret d | _ => lift UB end.

(** The loop of [bind] (dataframe.hpp:252-256) on variable [i]; [rest]: what is left in [other].  Inserting into the map may throw
    (and then does nothing), and so may [push_back]; then [other] is destroyed. *)
Fixpoint hbind_loop (i : nat) (rest : list hncol) : M unit :=
  match rest with
  | [] => ret tt
  | (n, c) :: rest' =>
      on_throw
        (if tempty n then ret tt
         else tick ;;' d <- getd i ;; setv i (HDf (mkH (hrows d) (helems d) (idx_set (hindex d) n (Z.of_nat (length (helems d)))))))
        (free_all rest) ;;'
      on_throw tick (free_all rest) ;;'
      d <- getd i ;;
      setv i (HDf (mkH (hrows d) (helems d ++ [(n, c)]) (hindex d))) ;;'
      hbind_loop i rest'
  end.
(** [bind(other)] (dataframe.hpp:240-259); [names()] allocates. *)
Definition hbind (i : nat) (other : hdf) : M unit :=
  on_throw
    (ticks (S (length (helems other))) ;;'
     d <- getd i ;;
     if existsb (fun n => negb (tempty n || match idx_find (hindex d) n with Some _ => false | None => true end)) (map fst (helems other))
     then lift (Throw LogicError)
     else match helems d with
          | [] => setv i (HDf (mkH (hrows other) (helems d) (hindex d)))
          | _ => if hrows d =? hrows other then ret tt else lift (Throw LogicError)
          end)
    (free_all (helems other)) ;;'
  hbind_loop i (helems other).

(** [elements_ = source.elements_] of [operator=(const base_dataframe&) = default] (dataframe.hpp:136).  [std::vector] with too small a
    capacity copies everything first; else it assigns the existing elements one by one and constructs or destroys the rest.
    The elements of variable [i] change in place. *)
Definition set_elems (i : nat) (es : list hncol) : M unit :=
  d <- getd i ;; setv i (HDf (mkH (hrows d) es (hindex d))).
Fixpoint assign_elems (i k : nat) (src : list hncol) : M unit :=
  match src with
  | [] => ret tt
  | (n, c) :: src' =>
      d <- getd i ;;
      match nth_error (helems d) k with
      | None => lift UB
      | Some (n0, c0) =>
          tick ;;' set_elems i (upd_nat (helems d) k (n, c0)) ;;'
          c' <- hassign c0 c ;;
          d' <- getd i ;; set_elems i (upd_nat (helems d') k (n, c')) ;;'
          assign_elems i (S k) src'
      end
  end.
Definition assign_vector (cap i : nat) (src : list hncol) : M unit :=
  d <- getd i ;;
  let n := length src in
  if Nat.ltb cap n then tick ;;' es <- copy_all src ;; free_all (helems d) ;;' set_elems i es
  else
    let k := Nat.min (length (helems d)) n in
    assign_elems i 0 (firstn k src) ;;'
    d' <- getd i ;;
    free_all (skipn k (helems d')) ;;'
    set_elems i (firstn k (helems d')) ;;'
    es <- copy_all (skipn k src) ;;
    d'' <- getd i ;; set_elems i (helems d'' ++ es).
(** The whole assignment: row count, vector, map.  [keep]: what a failing assignment of the map leaves in it, the old entries or none. *)
Definition hdf_assign (cap : nat) (keep : bool) (i : nat) (s : hdf) : M unit :=
  d <- getd i ;;
  setv i (HDf (mkH (hrows s) (helems d) (hindex d))) ;;'
  assign_vector cap i (helems s) ;;'
  d' <- getd i ;;
  on_throw (ticks (S (length (hindex s)))) (setv i (HDf (mkH (hrows d') (helems d') (if keep then hindex d' else [])))) ;;'
  setv i (HDf (mkH (hrows d') (helems d') (hindex s))).

(** *** commands *)
Inductive cop : Type :=
| KNull | KNew (t : ty) (l : list cell)                       (* column c;  column c{...}; *)
| KCopy (y : nat) | KPartial (y : nat) (first size : Z) | KMove (y : nat)
| KAssign (x y : nat) | KMoveAssign (x y : nat)
| KCoerce (t : ty) (x : nat)                                  (* x.coerce<T>() *)
| KToColumn (t : ty) (y : nat) | KToColumnMove (t : ty) (y : nat)
| KToView (t : ty) (x : nat)                                  (* to_view<T>(x) *)
| KSet (t : ty) (x : nat) (i : Z) (v : cell)                  (* x.data<T>()[i] = v *)
| KDestroy (x : nat)
| FNull | FList (l : list (text * nat))                       (* dataframe d;  dataframe d{{name, column}, ...}; *)
| FCopy (g : nat) | FMove (g : nat)
| FAssign (cap : nat) (keep : bool) (f g : nat) | FMoveAssign (f g : nat)
| FBindCopy (f g : nat) | FBindMove (f g : nat)               (* f.bind(g);  f.bind(std::move(g)); *)
| FBindCol (f : nat) (n : text) (x : nat)                     (* f.bind(named_column_type{n, std::move(x)}); *)
| FColumn (g : nat) (pos : Z).                                (* column c = g.at(pos).column; *)

Fixpoint cols_of (l : list (text * nat)) : M (list hncol) :=
  match l with [] => ret [] | (n, x) :: l' => c <- getc x ;; r <- cols_of l' ;; ret ((n, c) :: r) end.

(** Execution of a command (lines as above; dataframe.hpp:133-137, 240, 262-266; column.hpp:31-67; dataframe/numeric.hpp:12-30). *)
Definition kexec (c : cop) : M unit :=
  match c with
  | KNull => addv (HCol None)
  | KNew t l => b <- make_model t l ;; addv (HCol (Some b))
  | KCopy y => s <- getc y ;; n <- hcopy s ;; addv (HCol n)
  | KPartial y first size => s <- getc y ;; n <- hpartial s first size ;; addv (HCol n)
  | KMove y => s <- getc y ;; setv y (HCol None) ;;' addv (HCol s)
  | KAssign x y => s <- getc y ;; d <- getc x ;; n <- hassign d s ;; setv x (HCol n)
  | KMoveAssign x y =>
      s <- getc y ;; d <- getc x ;;
      if Nat.eqb x y then ret tt else setv y (HCol None) ;;' free d ;;' setv x (HCol s)
  | KCoerce t x => s <- getc x ;; n <- hcoerce t s ;; setv x (HCol n)
  | KToColumn t y => s <- getc y ;; n <- hto_column t s ;; addv (HCol n)
  | KToColumnMove t y => s <- getc y ;; n <- hensure t s ;; setv y (HCol None) ;;' addv (HCol n)
  | KToView t x => s <- getc x ;; n <- hensure t s ;; setv x (HCol n)
  | KSet t x i v => s <- getc x ;; hset t s i v
  | KDestroy x =>
      v <- getv x ;;
      match v with HCol p => free p | HDf d => free_all (helems d) | HDead => lift UB end ;;' setv x HDead
  | FNull => addv (HDf (mkH 0 [] []))
  | FList l => els <- cols_of l ;; d <- hctor_list els ;; addv (HDf d)
  | FCopy g => d <- getd g ;; n <- hdf_copy d ;; addv (HDf n)
  | FMove g => d <- getd g ;; setv g (HDf (hdf_moved d)) ;;' addv (HDf d)
  | FAssign cap keep f g => s <- getd g ;; d <- getd f ;; if Nat.eqb f g then ret tt else hdf_assign cap keep f s
  | FMoveAssign f g =>
      s <- getd g ;; d <- getd f ;;
      if Nat.eqb f g then lift UB else setv g (HDf (hdf_moved s)) ;;' free_all (helems d) ;;' setv f (HDf s)
  | FBindCopy f g => s <- getd g ;; d <- getd f ;; o <- hdf_copy s ;; hbind f o
  | FBindMove f g => s <- getd g ;; d <- getd f ;; setv g (HDf (hdf_moved s)) ;;' hbind f s
  | FBindCol f n x =>
      s <- getc x ;; d <- getd f ;; tick ;;' setv x (HCol None) ;;' o <- hctor_named n s ;; hbind f o
  | FColumn g pos =>
      d <- getd g ;;
      if pos <? Z.of_nat (length (helems d)) then p <- lift (get (helems d) pos) ;; n <- hcopy (snd p) ;; addv (HCol n)
      else lift (Throw LogicError)
  end.

End Heap.

(** Programs: exceptions are caught and the program goes on; undefined behaviour ends it. *)
Fixpoint krun (rs : rules) (ex : exn) (thr : nat -> bool) (cs : list cop) (w : world) : outcome unit * world :=
  match cs with
  | [] => (Ok tt, w)
  | c :: cs' =>
      match kexec rs ex thr c w with
      | (Ok _, w') | (Throw _, w') => krun rs ex thr cs' w'
      | r => r
      end
  end.
Definition kinit : world := World [] [] 0.
