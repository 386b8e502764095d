(** * Shared: shared constant vectors and index views
    (base/const_vector.hpp, base/index_view.hpp). *)

From Coq Require Import ZArith List Bool PeanoNat.
From Verif Require Import Base.
Import ListNotations.
Local Open Scope nat_scope.

Section S.

(** The element type. *)
Variable T : Type.

(** Blocks of memory: a std::vector owned by the control block of std::shared_ptr objects, with
    its use count (const_vector.hpp:193); the storage of a std::vector<index_t> variable of the
    program; freed memory. *)
Inductive blk : Type :=
| Shared (l : list T) (count : nat)
| Owned (l : list T)
| Freed.

Definition heap : Type := list blk.

(** Objects of a program: const_vector (a possibly null shared_ptr, const_vector.hpp:193);
    std::vector<index_t>; index_view (index_view.hpp:66-68: optional const_vector, and the
    pointers begin_ and end_, as block, offset and length); a destroyed object. *)
Inductive obj : Type :=
| OCv (p : option nat)
| OVec (b : nat)
| OView (data : option (option nat)) (b off len : nat)
| ODead.

Record st : Type := mkSt { mem : heap; objs : list obj }.

(** Another owner of a block; copy of a shared_ptr (const_vector.hpp:86). *)
Definition incr (h : heap) (p : option nat) : outcome heap :=
  match p with
  | None => Ok h
  | Some b => match nth_error h b with
              | Some (Shared l c) => Ok (upd_nat h b (Shared l (S c)))
              | _ => UB
              end
  end.

(** An owner less; destruction of a shared_ptr.  The last owner frees the vector. *)
Definition release (h : heap) (p : option nat) : outcome heap :=
  match p with
  | None => Ok h
  | Some b => match nth_error h b with
              | Some (Shared l (S (S c))) => Ok (upd_nat h b (Shared l (S c)))
              | Some (Shared l (S O)) => Ok (upd_nat h b Freed)
              | _ => UB
              end
  end.

(** The shared_ptr inside an optional const_vector. *)
Definition opt_ptr (d : option (option nat)) : option nat :=
  match d with Some p => p | None => None end.

(** Moving out of an optional const_vector leaves it engaged and null. *)
Definition moved (d : option (option nat)) : option (option nat) :=
  match d with Some _ => Some None | None => None end.

(** The vector of a const_vector; a null pointer is dereferenced (const_vector.hpp:116-170). *)
Definition deref (h : heap) (p : option nat) : outcome (list T) :=
  match p with
  | Some b => match nth_error h b with Some (Shared l _) => Ok l | _ => UB end
  | None => UB
  end.

(** The elements between the pointers of a view (index_view.hpp:55-63). *)
Definition read_range (h : heap) (b off len : nat) : outcome (list T) :=
  match nth_error h b with
  | Some (Shared l _) | Some (Owned l) => if off + len <=? length l then Ok (firstn len (skipn off l)) else UB
  | _ => UB
  end.

(** All elements of object [i]: size() and operator[] (const_vector.hpp:116-170,
    index_view.hpp:61-63). *)
Definition contents (s : st) (i : nat) : outcome (list T) :=
  match nth_error (objs s) i with
  | Some (OCv p) => deref (mem s) p
  | Some (OView _ b off len) => read_range (mem s) b off len
  | Some (OVec b) => match nth_error (mem s) b with Some (Owned l) => Ok l | _ => UB end
  | _ => UB
  end.

Inductive scmd : Type :=
| NewCv (l : list T) | CopyCv (i : nat) | MoveCv (i : nat) | AssignCv (i j : nat) | MoveAssignCv (i j : nat)
| NewVec (l : list T) | VecSet (i p : nat) (x : T) | VecRealloc (i : nat) (l : list T)
| ViewCopyCv (i : nat) | ViewMoveCv (i : nat) | ViewBorrow (i off len : nat) | ViewMoveVec (i : nat) | ViewRange (l : list T)
| CopyView (i : nat) | MoveView (i : nat) | AssignView (i j : nat) | MoveAssignView (i j : nat)
| Destroy (i : nat).

(** One operation of a program. *)
Definition sexec (c : scmd) (s : st) : outcome st :=
  let h := mem s in
  let o := objs s in
  match c with
  (** Constructors 1-5 (const_vector.hpp:67-83): make_shared of a new vector. *)
  | NewCv l => Ok (mkSt (h ++ [Shared l 1]) (o ++ [OCv (Some (length h))]))
  (** Copy constructor (const_vector.hpp:86). *)
  | CopyCv i => match nth_error o i with
                | Some (OCv p) => let* h' := incr h p in Ok (mkSt h' (o ++ [OCv p]))
                | _ => UB
                end
  (** Move constructor (const_vector.hpp:89): the source becomes null. *)
  | MoveCv i => match nth_error o i with
                | Some (OCv p) => Ok (mkSt h (upd_nat o i (OCv None) ++ [OCv p]))
                | _ => UB
                end
  (** Copy assignment (const_vector.hpp:96). *)
  | AssignCv i j => match nth_error o i, nth_error o j with
                    | Some (OCv pi), Some (OCv pj) =>
                        let* h1 := incr h pj in let* h2 := release h1 pi in
                        Ok (mkSt h2 (upd_nat o i (OCv pj)))
                    | _, _ => UB
                    end
  (** Move assignment (const_vector.hpp:99); to itself it keeps the value. *)
  | MoveAssignCv i j => match nth_error o i, nth_error o j with
                        | Some (OCv pi), Some (OCv pj) =>
                            if Nat.eqb i j then Ok s
                            else let* h1 := release h pi in
                                 Ok (mkSt h1 (upd_nat (upd_nat o j (OCv None)) i (OCv pj)))
                        | _, _ => UB
                        end
  | NewVec l => Ok (mkSt (h ++ [Owned l]) (o ++ [OVec (length h)]))
  | VecSet i p x => match nth_error o i with
                    | Some (OVec b) => match nth_error h b with
                                       | Some (Owned l) => if p <? length l then Ok (mkSt (upd_nat h b (Owned (upd_nat l p x))) o) else UB
                                       | _ => UB
                                       end
                    | _ => UB
                    end
  (** A change of size that reallocates. *)
  | VecRealloc i l => match nth_error o i with
                      | Some (OVec b) => match nth_error h b with
                                         | Some (Owned _) => Ok (mkSt (upd_nat h b Freed ++ [Owned l]) (upd_nat o i (OVec (length h))))
                                         | _ => UB
                                         end
                      | _ => UB
                      end
  (** index_view(const_vector<index_t> data) (index_view.hpp:35): the parameter is copied or
      moved from the argument, then moved into data_. *)
  | ViewCopyCv i => match nth_error o i with
                    | Some (OCv p) => let* h' := incr h p in let* l := deref h' p in
                                      match p with
                                      | Some b => Ok (mkSt h' (o ++ [OView (Some p) b 0 (length l)]))
                                      | None => UB
                                      end
                    | _ => UB
                    end
  | ViewMoveCv i => match nth_error o i with
                    | Some (OCv p) => let* l := deref h p in
                                      match p with
                                      | Some b => Ok (mkSt h (upd_nat o i (OCv None) ++ [OView (Some p) b 0 (length l)]))
                                      | None => UB
                                      end
                    | _ => UB
                    end
  (** index_view(const std::vector<index_t>&) and ranges of pointers (index_view.hpp:37,
      44-46): no copy, no ownership. *)
  | ViewBorrow i off len => match nth_error o i with
                            | Some (OVec b) => match nth_error h b with
                                               | Some (Owned l) => if off + len <=? length l
                                                                   then Ok (mkSt h (o ++ [OView None b off len])) else UB
                                               | _ => UB
                                               end
                            | _ => UB
                            end
  (** index_view(std::vector<index_t>&&) (index_view.hpp:39): the elements move into a new
      const_vector, the source is left empty. *)
  | ViewMoveVec i => match nth_error o i with
                     | Some (OVec b) => match nth_error h b with
                                        | Some (Owned l) =>
                                            Ok (mkSt (upd_nat h b (Shared l 1) ++ [Owned []])
                                                     (upd_nat o i (OVec (length h)) ++ [OView (Some (Some b)) b 0 (length l)]))
                                        | _ => UB
                                        end
                     | _ => UB
                     end
  (** index_view(const Rng&) for other ranges (index_view.hpp:47-52): the elements are copied. *)
  | ViewRange l => Ok (mkSt (h ++ [Shared l 1]) (o ++ [OView (Some (Some (length h))) (length h) 0 (length l)]))
  (** Implicit copy and move operations of index_view. *)
  | CopyView i => match nth_error o i with
                  | Some (OView d b off len) => let* h' := incr h (opt_ptr d) in Ok (mkSt h' (o ++ [OView d b off len]))
                  | _ => UB
                  end
  | MoveView i => match nth_error o i with
                  | Some (OView d b off len) => Ok (mkSt h (upd_nat o i (OView (moved d) b off len) ++ [OView d b off len]))
                  | _ => UB
                  end
  | AssignView i j => match nth_error o i, nth_error o j with
                      | Some (OView di _ _ _), Some (OView dj b off len) =>
                          let* h1 := incr h (opt_ptr dj) in let* h2 := release h1 (opt_ptr di) in
                          Ok (mkSt h2 (upd_nat o i (OView dj b off len)))
                      | _, _ => UB
                      end
  | MoveAssignView i j => match nth_error o i, nth_error o j with
                          | Some (OView di _ _ _), Some (OView dj b off len) =>
                              if Nat.eqb i j then Ok s
                              else let* h1 := release h (opt_ptr di) in
                                   Ok (mkSt h1 (upd_nat (upd_nat o j (OView (moved dj) b off len)) i (OView dj b off len)))
                          | _, _ => UB
                          end
  (** Destructors (const_vector.hpp:51, implicit for index_view). *)
  | Destroy i => match nth_error o i with
                 | Some (OCv p) => let* h' := release h p in Ok (mkSt h' (upd_nat o i ODead))
                 | Some (OView d _ _ _) => let* h' := release h (opt_ptr d) in Ok (mkSt h' (upd_nat o i ODead))
                 | Some (OVec b) => match nth_error h b with
                                    | Some (Owned _) => Ok (mkSt (upd_nat h b Freed) (upd_nat o i ODead))
                                    | _ => UB
                                    end
                 | _ => UB
                 end
  end.

(** A program: operations one after the other. *)
Fixpoint srun (cs : list scmd) (s : st) : outcome st :=
  match cs with
  | [] => Ok s
  | c :: cs' => let* s' := sexec c s in srun cs' s'
  end.

(** The state before the first operation. *)
Definition init : st := mkSt [] [].

(** at (const_vector.hpp:116): std::vector::at throws std::out_of_range. *)
Definition cv_at (s : st) (i p : nat) : outcome (option T) :=
  let* l := contents s i in Ok (nth_error l p).

(** operator[] (const_vector.hpp:119, index_view.hpp:63): not checked. *)
Definition cv_index (s : st) (i p : nat) : outcome T :=
  let* l := contents s i in match nth_error l p with Some x => Ok x | None => UB end.

(** front and back (const_vector.hpp:122-125): undefined for an empty vector. *)
Definition cv_front (s : st) (i : nat) : outcome T :=
  let* l := contents s i in match l with x :: _ => Ok x | [] => UB end.
Definition cv_back (s : st) (i : nat) : outcome T :=
  let* l := contents s i in match rev l with x :: _ => Ok x | [] => UB end.

(** size and empty (const_vector.hpp:167-170, index_view.hpp:61).  [rbegin], [rend] and their constant forms (const_vector.hpp:151-160) do not compile when
    used: they return a reverse iterator as a [const_iterator]. *)
Definition cv_size (s : st) (i : nat) : outcome nat := let* l := contents s i in Ok (length l).
Definition cv_empty (s : st) (i : nat) : outcome bool :=
  let* l := contents s i in Ok (match l with [] => true | _ => false end).

Section Cmp.
(** operator== and operator< of the elements. *)
Variables (teq tlt : T -> T -> bool).

(** std::vector comparisons: equality of sizes and elements, and
    std::lexicographical_compare. *)
Fixpoint vec_eq (a b : list T) : bool :=
  match a, b with
  | [], [] => true
  | x :: a', y :: b' => teq x y && vec_eq a' b'
  | _, _ => false
  end.
Fixpoint vec_lt (a b : list T) : bool :=
  match a, b with
  | _, [] => false
  | [], _ :: _ => true
  | x :: a', y :: b' => if tlt x y then true else if tlt y x then false else vec_lt a' b'
  end.

(** The six comparisons (const_vector.hpp:174-189); a > b is b < a and so on for std::vector. *)
Definition cv_cmp (f : list T -> list T -> bool) (s : st) (i j : nat) : outcome bool :=
  let* a := contents s i in let* b := contents s j in Ok (f a b).
Definition cv_eq := cv_cmp vec_eq.
Definition cv_ne := cv_cmp (fun a b => negb (vec_eq a b)).
Definition cv_lt := cv_cmp vec_lt.
Definition cv_le := cv_cmp (fun a b => negb (vec_lt b a)).
Definition cv_gt := cv_cmp (fun a b => vec_lt b a).
Definition cv_ge := cv_cmp (fun a b => negb (vec_lt a b)).
End Cmp.

End S.

Arguments Shared {T} l count. Arguments Owned {T} l. Arguments Freed {T}.
Arguments mkSt {T} mem objs. Arguments mem {T} s. Arguments objs {T} s.
Arguments NewCv {T} l. Arguments CopyCv {T} i. Arguments MoveCv {T} i. Arguments AssignCv {T} i j. Arguments MoveAssignCv {T} i j.
Arguments NewVec {T} l. Arguments VecSet {T} i p x. Arguments VecRealloc {T} i l.
Arguments ViewCopyCv {T} i. Arguments ViewMoveCv {T} i. Arguments ViewBorrow {T} i off len. Arguments ViewMoveVec {T} i. Arguments ViewRange {T} l.
Arguments CopyView {T} i. Arguments MoveView {T} i. Arguments AssignView {T} i j. Arguments MoveAssignView {T} i j. Arguments Destroy {T} i.
Arguments incr {T}. Arguments release {T}. Arguments deref {T}. Arguments read_range {T}. Arguments contents {T}.
Arguments sexec {T}. Arguments srun {T}. Arguments init {T}.
Arguments cv_at {T}. Arguments cv_index {T}. Arguments cv_front {T}. Arguments cv_back {T}. Arguments cv_size {T}. Arguments cv_empty {T}.
Arguments vec_eq {T}. Arguments vec_lt {T}. Arguments cv_cmp {T}. Arguments cv_eq {T}. Arguments cv_ne {T}. Arguments cv_lt {T}. Arguments cv_le {T}. Arguments cv_gt {T}. Arguments cv_ge {T}.
