(** [as_vector(array)] and [to_vector<T>(array)] as the language resolves their [return {begin, end};].

    [return {source.begin(), source.end()};] (array/numeric.hpp:72-76, 86-90) list-initialises [array<T, 1>], so the
    initialiser-list constructor [array(recursive_initializer_list_t<T, 1>)] (array/array.hpp:183-197) is considered before
    [array(Iter, Sent)] (array/array.hpp:250-265) and is taken whenever both iterators convert to [T]. *)
From Coq Require Import ZArith Bool List Lia.
From Verif Require Import Base Spec Desc Slice SliceSpec Expr ExprSpec Numeric.
Import ListNotations.
Open Scope Z_scope.

Section AsVector.
Context {V : Type}.

(** What the iterators of an operand are: [array] and [ref_array] iterate with pointers (array/array.hpp:70-73, 348-364;
    array/ref_array.hpp:50-53, 163-170), strided views, indexed views and expressions with class types that convert to nothing. *)
Definition pointer_iterators (e : @expr V) : bool :=
  match e with ELeaf _ (SRef _ _) => true | _ => false end.

(** [ptr]: how the element type of the result is made from a pointer, given whether the pointer is null; [None] for the
    element types to which no pointer converts (every arithmetic type but [bool], [std::string], ...). For [bool] it is
    [fun null => negb null]. [null]: whether the operand holds no storage. A compiler that counts the pointer to [bool]
    conversion as narrowing (the later resolution P1957) rejects the program instead.
    array/numeric.hpp:72-76, 86-90; array/array.hpp:183-197, 250-265. *)
Definition as_vector_at (ptr : option (bool -> V)) (null : bool) (conv : V -> V) (chk : bool) (fuel : nat) (m : mem) (e : @expr V)
  : outcome (list Z * list V) :=
  match ptr with
  | Some f => if pointer_iterators e then Ok ([2], [f null; f null]) else as_vector conv chk fuel m e
  | None => as_vector conv chk fuel m e
  end.

End AsVector.
