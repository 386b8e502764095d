(** * ViewLife: a view of an array over a whole program: which variable's storage it designates.  Definitions only. *)

From Coq Require Import ZArith List Bool.
From Verif Require Import Base Spec Life LifeSpec.
Import ListNotations.

Section ViewLife.
Context {V : Type}.

(** A view holds a pointer into the storage of an array ([data_], array/strided_ref_array.hpp:30, 198, array/ref_array.hpp:188)
    and the positions it maps its indices to; reading it, in iteration order ([*it] reads [data_[mapper.map(pos)]],
    array/detail/iterator.hpp:69). *)
Fixpoint read_view (b : nat) (ps : list nat) : @M V (list V) :=
  match ps with
  | [] => ret []
  | p :: ps' => bind (read_at (Some b) p) (fun v => bind (read_view b ps') (fun vs => ret (v :: vs)))
  end.

(** *** specification *)
(** Number of elements of a variable. *)
Definition asize (st : astore V) (x : nat) : Z :=
  match avar st x with
  | Some (AArr es _) | Some (AMoved es) | Some (ABld es _) | Some (ABldMoved es) => zprod es
  | None => 0
  end.

(** The variable that holds the elements a view designates, if before the (returning) operation it was [x].  [None]: these elements exist no more. *)
Definition holder (o : @op V) (st : astore V) (x : nat) : option nat :=
  match o with
  | OMove z y | OFinish z y | OReshape z y _ => if Nat.eqb x y then Some z else Some x
  | OAssignMove z y => if Nat.eqb x z then Some y else if Nat.eqb x y then Some z else Some x
  | OAssign z y => if Nat.eqb x z && negb (Nat.eqb z y) && negb (Z.eqb (asize st z) (asize st y)) then None else Some x
  | OAssignConv z _ es => if Nat.eqb x z && negb (Z.eqb (asize st z) (zprod es)) then None else Some x
  | ODestroy z => if Nat.eqb x z then None else Some x
  | ONew _ _ _ _ | ODefault _ _ | OConv _ _ _ | OList _ _ _ | OCopy _ _ | OBuilder _ _ | OPush _ _ _ => Some x
  end.

(** Execution on values that follows a view of variable [x]; an operation that throws leaves the elements where they are. *)
Inductive vexec : @prog V -> list bool -> astore V -> option nat -> astore V -> option nat -> Prop :=
| vexec_end st x : vexec PEnd [] st x st x
| vexec_ok o p1 p2 log st x st' x' : vexec p1 log (astep o st) (match x with Some y => holder o st y | None => None end) st' x' ->
    vexec (PDo o p1 p2) (false :: log) st x st' x'
| vexec_throw o p1 p2 log st x st1 st' x' : athrow o st st1 -> vexec p2 log st1 x st' x' -> vexec (PDo o p1 p2) (true :: log) st x st' x'.

End ViewLife.
