(** * Life: model of storage and object lifetimes of arrays and builders.  Definitions only.

    The world is a list of storage blocks; a cell of a block is raw ([None]) or holds a live object ([Some v]).
    Every operation that C++ leaves undefined or that would lose an object (constructing over a live object,
    destroying or reading a raw cell, releasing a block twice, releasing a block that still holds objects)
    yields [RUB].  [thr k] tells whether the k-th operation that may throw does so: element construction
    and assignment, evaluation of a source element, allocation.  [nt] is
    [std::is_nothrow_constructible_v] of the element type, [ns] tells that evaluating source elements never throws. *)

From Coq Require Import ZArith List Bool.
From Verif Require Import Base Desc.
Import ListNotations.

Inductive res (A : Type) : Type :=
| ROk (a : A)
| RThrow
| RAbort  (* failed DEBUG_ASSERT *)
| RUB
| RTerm   (* std::terminate: an exception leaves a noexcept function *).
Arguments ROk {A} _. Arguments RThrow {A}. Arguments RAbort {A}. Arguments RUB {A}. Arguments RTerm {A}.

(** Type of an argument of [dims...] of a constructor: [int] (or narrower), [unsigned], [long] or [std::size_t]; 64-bit [long]
    (array/array.hpp:44-45 accepts everything convertible to [index_t]).  The arguments are taken to be non-negative. *)
Inductive dimty : Set := DInt | DUInt | DLong | DSize.
(** Usual arithmetic conversions: the common type of the operands of [*]; non-negative operands keep their values. *)
Definition common (a b : dimty) : dimty :=
  match a, b with
  | DSize, _ | _, DSize => DSize
  | DLong, _ | _, DLong => DLong
  | DUInt, _ | _, DUInt => DUInt
  | DInt, DInt => DInt
  end.
(** A product in that type; [None]: signed overflow, undefined. *)
Definition in_type (t : dimty) (p : Z) : option Z :=
  match t with
  | DInt => if (p <? 2 ^ 31)%Z then Some p else None
  | DUInt => Some (p mod 2 ^ 32)%Z
  | DLong => if (p <? 2 ^ 63)%Z then Some p else None
  | DSize => Some (w64 p)
  end.
(** [prod_args(dims...)], a right fold: [a * (b * c)] (base/numeric.hpp:481-484, 39-45). *)
Fixpoint prod_args (ts : list dimty) (es : list Z) : option (dimty * Z) :=
  match ts, es with
  | [t], [e] => Some (t, e)
  | t :: ts', e :: es' =>
      match prod_args ts' es' with
      | Some (t', p) => match in_type (common t t') (e * p)%Z with Some q => Some (common t t', q) | None => None end
      | None => None
      end
  | _, _ => None
  end.

Section Life.
Context {V : Type}.
Variable thr : nat -> bool.
Variable nt : bool.
Variable ns : bool.

Definition block : Type := option (list (option V)).   (* None: released *)
Record world : Type := World { blocks : list block; clock : nat }.
Definition M (A : Type) : Type := world -> res A * world.

Definition ret {A} (a : A) : M A := fun w => (ROk a, w).
Definition ub {A} : M A := fun w => (RUB, w).
Definition abort {A} : M A := fun w => (RAbort, w).
Definition bind {A B} (m : M A) (f : A -> M B) : M B := fun w =>
  match m w with
  | (ROk a, w') => f a w'
  | (RThrow, w') => (RThrow, w')
  | (RAbort, w') => (RAbort, w')
  | (RUB, w') => (RUB, w')
  | (RTerm, w') => (RTerm, w')
  end.
Notation "x <- m ;; k" := (bind m (fun x => k)) (at level 61, m at next level, right associativity).
Notation "m ;;' k" := (bind m (fun _ => k)) (at level 61, right associativity).

(** [try { m } catch (...) { h; throw; }] *)
Definition on_throw {A} (m : M A) (h : M unit) : M A := fun w =>
  match m w with
  | (RThrow, w') => match h w' with
                    | (ROk _, w'') => (RThrow, w'')
                    | (RThrow, w'') => (RThrow, w'')
                    | (RAbort, w'') => (RAbort, w'')
                    | (RUB, w'') => (RUB, w'')
                    | (RTerm, w'') => (RTerm, w'')
                    end
  | r => r
  end.

(** A function declared [noexcept(c)]. *)
Definition noexcept_if {A} (c : bool) (m : M A) : M A := fun w =>
  match m w with (RThrow, w') => if c then (RTerm, w') else (RThrow, w') | r => r end.

(** An operation that may throw (not when [safe]). *)
Definition tick (safe : bool) : M unit := fun w =>
  (if negb safe && thr (clock w) then RThrow else ROk tt, World (blocks w) (S (clock w))).

(** [DEBUG_ASSERT] (core/debug.hpp:20-70). *)
Definition massert (chk c : bool) : M unit := fun w => (if chk && negb c then RAbort else ROk tt, w).

(** *** storage *)

(** [array_allocator::allocate]: [new storage_type[size]] (array/allocator.hpp:23). *)
Definition allocate (n : nat) : M nat :=
  tick false ;;' (fun w => (ROk (length (blocks w)), World (blocks w ++ [Some (repeat None n)]) (clock w))).

Definition cells (w : world) (b : nat) : option (list (option V)) :=
  match nth_error (blocks w) b with Some (Some c) => Some c | _ => None end.
Definition set_cells (w : world) (b : nat) (c : block) : world := World (upd_nat (blocks w) b c) (clock w).

(** [array_allocator::deallocate] (array/allocator.hpp:25); releasing storage with live objects would lose them. *)
Definition is_raw (x : option V) : bool := match x with None => true | Some _ => false end.
Definition deallocate (p : option nat) : M unit := fun w =>
  match p with
  | None => (ROk tt, w)   (* delete[] nullptr *)
  | Some b => match cells w b with
              | Some c => if forallb is_raw c then (ROk tt, set_cells w b None) else (RUB, w)
              | None => (RUB, w)
              end
  end.

(** Placement new at position [i] (e.g. array/allocator.hpp:76, array/builder.hpp:52). *)
Definition construct_at (p : option nat) (i : nat) (v : V) : M unit :=
  tick nt ;;' (fun w =>
    match p with
    | None => (RUB, w)
    | Some b => match cells w b with
                | Some c => match nth_error c i with
                            | Some None => (ROk tt, set_cells w b (Some (upd_nat c i (Some v))))
                            | _ => (RUB, w)
                            end
                | None => (RUB, w)
                end
    end).

(** Destructor call at position [i]. *)
Definition destroy_at (p : option nat) (i : nat) : M unit := fun w =>
  match p with
  | None => (RUB, w)
  | Some b => match cells w b with
              | Some c => match nth_error c i with
                          | Some (Some _) => (ROk tt, set_cells w b (Some (upd_nat c i None)))
                          | _ => (RUB, w)
                          end
              | None => (RUB, w)
              end
  end.

(** Reading element [i]. *)
Definition read_at (p : option nat) (i : nat) : M V := fun w =>
  match p with
  | None => (RUB, w)
  | Some b => match cells w b with
              | Some c => match nth_error c i with Some (Some v) => (ROk v, w) | _ => (RUB, w) end
              | None => (RUB, w)
              end
  end.

(** Assigning to the live element [i]; a throwing assignment leaves the old value. *)
Definition assign_at (p : option nat) (i : nat) (v : V) : M unit :=
  tick false ;;' (fun w =>
    match p with
    | None => (RUB, w)
    | Some b => match cells w b with
                | Some c => match nth_error c i with
                            | Some (Some _) => (ROk tt, set_cells w b (Some (upd_nat c i (Some v))))
                            | _ => (RUB, w)
                            end
                | None => (RUB, w)
                end
    end).

(** [std::destroy_n] from position [k] (array/allocator.hpp:63). *)
Fixpoint destroy_n (p : option nat) (k n : nat) : M unit :=
  match n with
  | O => ret tt
  | S n' => destroy_at p k ;;' destroy_n p (S k) n'
  end.

(** [std::uninitialized_value_construct_n] / [fill_n] / [copy_n] (array/allocator.hpp:30, 37, 43): construct in order;
    when something throws destroy what was constructed and rethrow.  [gen k] evaluates the k-th source element. *)
Fixpoint uninit_from (p : option nat) (gen : nat -> M V) (k n : nat) : M unit :=
  match n with
  | O => ret tt
  | S n' => on_throw (v <- gen k ;; construct_at p k v) (destroy_n p 0 k) ;;' uninit_from p gen (S k) n'
  end.
Definition uninit (p : option nat) (gen : nat -> M V) (n : nat) : M unit := uninit_from p gen 0 n.

(** *** arrays *)

(** [array]: [data_] and [descriptor_] (array/ref_array.hpp:188-191). *)
Record arr : Type := Arr { adata : option nat; aexts : list Z }.
(** [size()] (array/ref_array.hpp:172, array/descriptor.hpp:40). *)
Definition size_of (es : list Z) : nat := Z.to_nat (desc_size es).

(** [allocate(prod_args(dims...))]: the product is converted to [index_t] (array/array.hpp:379). *)
Definition dims_alloc (ts : list dimty) (es : list Z) : option nat :=
  match prod_args ts es with Some (_, p) => Some (Z.to_nat p) | None => None end.

(** Source of the elements of a new array: value initialisation with [v], copies of a value,
    or the elements of an iterator, generator, range or expression; evaluating these may throw. *)
Inductive source : Type :=
| SrcValue (v : V)        (* array(dims...), array(value, dims...) *)
| SrcSeq (vs : list V)    (* array(it, dims...), array(generated, f, dims...), array(expr), array(rng), array(it, end) *).

Definition gen_of (s : source) (k : nat) : M V :=
  match s with
  | SrcValue v => ret v
  | SrcSeq vs => match nth_error vs k with
                 | Some v => tick ns ;;' ret v
                 | None => ub
                 end
  end.

(** [construct(to, size)], [construct(to, size, value)], [construct(to, it, size)] (array/allocator.hpp:27-44):
    all [noexcept] when the element type is nothrow constructible. *)
Definition construct (p : option nat) (s : source) (n : nat) : M unit :=
  noexcept_if nt (uninit p (gen_of s) n).

(** Constructors taking dimensions (array/array.hpp:117-181): allocate by [prod_args(dims...)] (l.377-380), construct
    [size()] elements, release the storage if that throws. *)
Definition ctor_dims (ts : list dimty) (s : source) (es : list Z) : M arr :=
  match dims_alloc ts es with
  | None => ub
  | Some n =>
      b <- allocate n ;;
      on_throw (construct (Some b) s (size_of es)) (deallocate (Some b)) ;;'
      ret (Arr (Some b) es)
  end.

(** Converting constructor and range constructors (array/array.hpp:218-265): [source.size()] elements. *)
Definition ctor_conv (vs : list V) (es : list Z) : M arr :=
  b <- allocate (size_of es) ;;
  on_throw (construct (Some b) (SrcSeq vs) (size_of es)) (deallocate (Some b)) ;;'
  ret (Arr (Some b) es).

(** Copy constructor (array/array.hpp:199-208); [construct(to, const T*, n)]. *)
Definition ctor_copy (a : arr) : M arr :=
  let n := size_of (aexts a) in
  b <- allocate n ;;
  on_throw (noexcept_if nt (uninit (Some b) (read_at (adata a)) n)) (deallocate (Some b)) ;;'
  ret (Arr (Some b) (aexts a)).

(** Default constructor (array/array.hpp:112). *)
Definition ctor_default (N : nat) : arr := Arr None (repeat 0%Z N).

(** [clear] and the destructor (array/array.hpp:383-389, 82). *)
Definition clear (a : arr) : M unit :=
  match adata a with
  | None => ret tt
  | Some _ => destroy_n (adata a) 0 (size_of (aexts a)) ;;' deallocate (adata a)
  end.

(** [std::copy] into live elements (array/array.hpp:284, 323). *)
Fixpoint copy_into (p : option nat) (gen : nat -> M V) (k n : nat) : M unit :=
  match n with
  | O => ret tt
  | S n' => (v <- gen k ;; assign_at p k v) ;;' copy_into p gen (S k) n'
  end.

(** Assignment from [n] source elements [gen] with extents [es] (array/array.hpp:279-305 and 318-345).
    Equal sizes: element-wise; otherwise new storage, and the deferred block
    installs it only on success (when the construction throws nothing releases it). *)
Definition assign_from (a : arr) (gen : nat -> M V) (es : list Z) : M arr :=
  if Nat.eqb (size_of (aexts a)) (size_of es)
  then copy_into (adata a) gen 0 (size_of es) ;;' ret (Arr (adata a) es)
  else
    b <- allocate (size_of es) ;;
    noexcept_if nt (uninit (Some b) gen (size_of es)) ;;'
    clear a ;;'
    ret (Arr (Some b) es).
Definition assign_copy (a src : arr) : M arr := assign_from a (read_at (adata src)) (aexts src).
Definition assign_conv (a : arr) (vs : list V) (es : list Z) : M arr := assign_from a (gen_of (SrcSeq vs)) es.

(** *** nested initializer lists *)

(** [recursive_initializer_list_t<T, N>] (core/type.hpp:209-219). *)
Fixpoint nested (N : nat) : Type := match N with O => V | S N' => list (nested N') end.

(** [calculate_descriptor_fill] (array/array.hpp:404-412). *)
Fixpoint desc_fill (chk : bool) (N : nat) : nested N -> M (list Z) :=
  match N with
  | O => fun _ => ret []
  | S N' => fun l =>
      massert chk (negb (Nat.eqb (length l) 0)) ;;'
      match l with
      | [] => ub   (* *values.begin() of an empty list *)
      | x :: _ => es <- desc_fill chk N' x ;; ret (Z.of_nat (length l) :: es)
      end
  end.

(** [calculate_descriptor_check] (array/array.hpp:416-429). *)
Fixpoint desc_check (N : nat) (es : list Z) : nested N -> bool :=
  match N with
  | O => fun _ => true
  | S N' => fun l => Z.eqb (Z.of_nat (length l)) (hd 0%Z es) && forallb (desc_check N' (tl es)) l
  end.

(** The (index tuple, element) pairs in the order [construct_recursive] visits them
    (array/allocator.hpp:66-93); [*(values.begin() + i)] beyond the list is undefined ([None]). *)
Fixpoint visit (N : nat) (es : list Z) (ix : list Z) : nested N -> option (list (list Z * V)) :=
  match N with
  | O => fun v => Some [(ix, v)]
  | S N' => fun l =>
      let fix go (l : list (nested N')) (i : Z) (n : nat) : option (list (list Z * V)) :=
        match n with
        | O => Some []
        | S n' => match l with
                  | [] => None
                  | x :: l' =>
                      match visit N' (tl es) (ix ++ [i]) x, go l' (i + 1)%Z n' with
                      | Some a, Some b => Some (a ++ b)
                      | _, _ => None
                      end
                  end
        end in go l 0%Z (Z.to_nat (hd 0%Z es))
  end.

(** [destroy_recursive] (array/allocator.hpp:95-109): destroys the first [count] elements in visiting order. *)
Fixpoint destroy_list (p : option nat) (es : list Z) (ps : list (list Z * V)) (count : nat) : M unit :=
  match ps, count with
  | (ix, _) :: ps', S c => destroy_at p (Z.to_nat (desc_at es ix)) ;;' destroy_list p es ps' c
  | _, _ => ret tt
  end.

(** [construct_recursive] with its counter (array/allocator.hpp:79-93); on a throw [destroy_recursive] of that many
    elements (array/allocator.hpp:53-60). *)
Fixpoint construct_rec (p : option nat) (es : list Z) (all rest : list (list Z * V)) (count : nat) : M unit :=
  match rest with
  | [] => ret tt
  | (ix, v) :: rest' =>
      on_throw (construct_at p (Z.to_nat (desc_at es ix)) v) (destroy_list p es all count) ;;'
      construct_rec p es all rest' (S count)
  end.

(** Initializer list constructor (array/array.hpp:184-196). *)
Definition ctor_list (chk : bool) (N : nat) (l : nested N) : M arr :=
  es <- desc_fill chk N l ;;
  massert chk (desc_check N es l) ;;'
  b <- allocate (size_of es) ;;
  match visit N es [] l with
  | None => ub
  | Some ps =>
      on_throw (noexcept_if nt (construct_rec (Some b) es ps ps 0)) (deallocate (Some b)) ;;'
      ret (Arr (Some b) es)
  end.

(** *** builders (array/builder.hpp) *)
Record bld : Type := Bld { bdata : option nat; bexts : list Z; bcount : nat }.

(** l.20 *)
Definition bld_new (es : list Z) : M bld := b <- allocate (size_of es) ;; ret (Bld (Some b) es 0).
(** l.22, used by [reshape_to] (array/array.hpp:440-447) *)
Definition bld_adopt (p : option nat) (es : list Z) : bld := Bld p es (size_of es).
(** l.24-30 *)
Definition bld_destroy (b : bld) : M unit :=
  match bdata b with
  | None => ret tt
  | Some _ => destroy_n (bdata b) 0 (bcount b) ;;' deallocate (bdata b)
  end.
(** l.47 *)
Definition bld_complete (b : bld) : bool := Nat.eqb (bcount b) (size_of (bexts b)).
(** l.49-54; the rvalue overload (l.56-61) is [noexcept] *)
Definition bld_push (chk nx : bool) (b : bld) (v : V) : M bld :=
  noexcept_if nx
   (massert chk (negb (bld_complete b)) ;;'
    construct_at (bdata b) (bcount b) v ;;'
    ret (Bld (bdata b) (bexts b) (S (bcount b)))).
(** l.72-77: returns the pointer and the emptied builder *)
Definition bld_release (chk : bool) (b : bld) : M (option nat * bld) :=
  massert chk (bld_complete b) ;;' ret (bdata b, Bld None (bexts b) 0).

(** *** programs over several array and builder variables *)
Inductive obj : Type := OArr (a : arr) | OBld (b : bld).
Definition store : Type := list (option obj).

Inductive op : Type :=
| ONew (x : nat) (ts : list dimty) (s : source) (es : list Z)   (* array x(dims...), array x(value, dims...), array x(it, dims...) *)
| ODefault (x N : nat)                                     (* array<T,N> x *)
| OConv (x : nat) (vs : list V) (es : list Z)              (* array x(expression) / array x(range) *)
| OList (x N : nat) (l : nested N)                         (* array x = { ... } *)
| OCopy (x y : nat)                                        (* array x(y) *)
| OMove (x y : nat)                                        (* array x(std::move(y)) *)
| OAssign (x y : nat)                                      (* x = y *)
| OAssignMove (x y : nat)                                  (* x = std::move(y) *)
| OAssignConv (x : nat) (vs : list V) (es : list Z)        (* x = expression *)
| ODestroy (x : nat)                                       (* end of the lifetime of x *)
| OBuilder (x : nat) (es : list Z)                         (* array_builder x{es} *)
| OPush (x : nat) (nx : bool) (v : V)                      (* x.push_back(v); nx: rvalue *)
| OFinish (x y : nat)                                      (* array x(std::move(y)), y a builder *)
| OReshape (x y : nat) (es : list Z)                       (* x = reshape_to(std::move(y), es), x new *).

Definition var (st : store) (x : nat) : option obj := match nth_error st x with Some o => o | None => None end.
Definition free_var (st : store) (x : nat) : bool := match nth_error st x with Some None => true | _ => false end.
Definition setv (st : store) (x : nat) (o : option obj) : store := upd_nat st x o.

(** Run [m]; on success continue with the store. *)
Definition upd {A} (m : M A) (st : store) (f : A -> store) (w : world) : res unit * (world * store) :=
  match m w with
  | (ROk a, w') => (ROk tt, (w', f a))
  | (RThrow, w') => (RThrow, (w', st))
  | (RAbort, w') => (RAbort, (w', st))
  | (RUB, w') => (RUB, (w', st))
  | (RTerm, w') => (RTerm, (w', st))
  end.

Definition step (chk : bool) (o : op) (ws : world * store) : res unit * (world * store) :=
  let (w, st) := ws in
  let bad := (RUB, ws) in
  match o with
  | ONew x t s es => if free_var st x then upd (ctor_dims t s es) st (fun a => setv st x (Some (OArr a))) w else bad
  | ODefault x N => if free_var st x then (ROk tt, (w, setv st x (Some (OArr (ctor_default N))))) else bad
  | OConv x vs es => if free_var st x then upd (ctor_conv vs es) st (fun a => setv st x (Some (OArr a))) w else bad
  | OList x N l => if free_var st x then upd (ctor_list chk N l) st (fun a => setv st x (Some (OArr a))) w else bad
  | OCopy x y =>
      match free_var st x, var st y with
      | true, Some (OArr a) => upd (ctor_copy a) st (fun c => setv st x (Some (OArr c))) w
      | _, _ => bad
      end
  | OMove x y => (* array/array.hpp:211-213: std::exchange(data_, nullptr), the descriptor is copied; array/builder.hpp:34-36 *)
      match free_var st x, var st y with
      | true, Some (OArr a) => (ROk tt, (w, setv (setv st y (Some (OArr (Arr None (aexts a))))) x (Some (OArr a))))
      | true, Some (OBld b) => (ROk tt, (w, setv (setv st y (Some (OBld (Bld None (bexts b) 0)))) x (Some (OBld b))))
      | _, _ => bad
      end
  | OAssign x y =>
      match var st x, var st y with
      | Some (OArr a), Some (OArr s) =>
          if Nat.eqb x y then (ROk tt, ws)
          else upd (assign_copy a s) st (fun c => setv st x (Some (OArr c))) w
      | _, _ => bad
      end
  | OAssignMove x y => (* array/array.hpp:308-314: swap; builder.hpp:40-45 flows off the end without a return: undefined *)
      match var st x, var st y with
      | Some (OArr a), Some (OArr s) =>
          if Nat.eqb x y then ((if chk then RAbort else ROk tt), ws)
          else (ROk tt, (w, setv (setv st y (Some (OArr a))) x (Some (OArr s))))
      | _, _ => bad
      end
  | OAssignConv x vs es =>
      match var st x with
      | Some (OArr a) => upd (assign_conv a vs es) st (fun c => setv st x (Some (OArr c))) w
      | _ => bad
      end
  | ODestroy x =>
      match var st x with
      | Some (OArr a) => upd (clear a) st (fun _ => setv st x None) w
      | Some (OBld b) => upd (bld_destroy b) st (fun _ => setv st x None) w
      | None => bad
      end
  | OBuilder x es => if free_var st x then upd (bld_new es) st (fun b => setv st x (Some (OBld b))) w else bad
  | OPush x nx v =>
      match var st x with
      | Some (OBld b) => upd (bld_push chk nx b v) st (fun b' => setv st x (Some (OBld b'))) w
      | _ => bad
      end
  | OFinish x y => (* array/array.hpp:268: the by-value parameter is moved from y, released, then destroyed *)
      match free_var st x, var st y with
      | true, Some (OBld b) =>
          upd (r <- bld_release chk b ;; bld_destroy (snd r) ;;' ret (fst r)) st
              (fun p => setv (setv st y (Some (OBld (Bld None (bexts b) 0)))) x (Some (OArr (Arr p (bexts b))))) w
      | _, _ => bad
      end
  | OReshape x y es => (* array/array.hpp:440-447: release, adopting builder, converting constructor of l.268 *)
      match free_var st x, var st y with
      | true, Some (OArr a) =>
          upd (massert chk (Z.eqb (desc_size (aexts a)) (desc_size es)) ;;'
               r <- bld_release chk (bld_adopt (adata a) es) ;; bld_destroy (snd r) ;;' ret (fst r)) st
              (fun p => setv (setv st y (Some (OArr (Arr None (aexts a))))) x (Some (OArr (Arr p es)))) w
      | _, _ => bad
      end
  end.

(** A program: after every operation it goes on in one way when the operation returned and in another when it threw (the handler and the destructors
    that run); anything else stops it.  The log tells which operations threw. *)
Inductive prog : Type :=
| PEnd
| PDo (o : op) (returned threw : prog).

Fixpoint runs (chk : bool) (p : prog) (ws : world * store) : res (list bool) * (world * store) :=
  match p with
  | PEnd => (ROk [], ws)
  | PDo o p1 p2 =>
      let log (t : bool) (r : res (list bool) * (world * store)) :=
        match r with
        | (ROk l, ws'') => (ROk (t :: l), ws'')
        | r => r
        end in
      match step chk o ws with
      | (ROk _, ws') => log false (runs chk p1 ws')
      | (RThrow, ws') => log true (runs chk p2 ws')
      | (RAbort, ws') => (RAbort, ws')
      | (RUB, ws') => (RUB, ws')
      | (RTerm, ws') => (RTerm, ws')
      end
  end.

(** Operations in sequence; the first exception ends the sequence and [h] follows. *)
Fixpoint pseq (os : list op) (h : prog) : prog := match os with [] => PEnd | o :: os' => PDo o (pseq os' h) h end.

End Life.
