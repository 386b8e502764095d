(** * ReduceSpec: mathematical meaning of the reductions. *)

From Coq Require Import ZArith List Bool Permutation.
From Verif Require Import Base Spec Reduce.
Import ListNotations.
Open Scope Z_scope.

Section Spec.
Context {V : Type}.
Variable (lt : V -> V -> bool).

(** [lt] is a linear order on the values satisfying [ok]; the others (NaN) compare false with everything. *)
Definition linear_on (ok : V -> Prop) : Prop :=
  (forall x y, lt x y = true -> ok x /\ ok y) /\ (forall x, lt x x = false) /\
  (forall x y z, lt x y = true -> lt y z = true -> lt x z = true) /\
  (forall x y, ok x -> ok y -> lt x y = true \/ x = y \/ lt y x = true).

(** [m] is an element of [l] that no element exceeds / that exceeds no element. *)
Definition is_max (l : list V) (m : V) : Prop := In m l /\ forall x, In x l -> lt m x = false.
Definition is_min (l : list V) (m : V) : Prop := In m l /\ forall x, In x l -> lt x m = false.

(** Position [k] holds [m] and no earlier one does. *)
Definition first_at (l : list V) (m : V) (k : Z) : Prop :=
  0 <= k /\ nth_error l (Z.to_nat k) = Some m /\ forall j, 0 <= j < k -> nth_error l (Z.to_nat j) <> Some m.

(** Postcondition of std::nth_element. *)
Definition nth_element_post (l l' : list V) (n : nat) : Prop :=
  Permutation l l' /\ forall i j x y, (i < n)%nat -> (n <= j)%nat -> nth_error l' i = Some x -> nth_error l' j = Some y -> lt y x = false.
(** ... the element at [n] is the one that would be there if the range were sorted, in particular none after it is less. *)
Definition nth_element_ok (l l' : list V) (n : nat) : Prop :=
  nth_element_post l l' n /\ forall j x y, nth_error l' n = Some x -> nth_error l' j = Some y -> (n <= j)%nat -> lt y x = false.

(** [v] is the n-th smallest: at most n elements are smaller, more than n are not greater. *)
Definition nth_smallest (l : list V) (n : nat) (v : V) : Prop :=
  In v l /\ (length (filter (fun x => lt x v) l) <= n < length (filter (fun x => negb (lt v x)) l))%nat.
End Spec.

(** Exact sums and products. *)
Definition zsum (l : list Z) : Z := fold_right Z.add 0 l.

(** Every intermediate result of adding / multiplying from the left fits in type [t]. *)
Definition partial_sums_fit (t : ity) (l : list Z) (start : Z) : Prop :=
  forall k, (k <= length l)%nat -> ilo t <= start + zsum (firstn k l) <= ihi t.
Definition partial_prods_fit (t : ity) (l : list Z) (start : Z) : Prop :=
  forall k, (k <= length l)%nat -> ilo t <= start * zprod (firstn k l) <= ihi t.

(** The usual integral types. *)
Definition std_ty (t : ity) : Prop := In (bits t) [8; 16; 32; 64].

Definition elements_fit (t : ity) (l : list Z) : Prop := Forall (fun x => ilo t <= x <= ihi t) l.

(** Positions of the elements satisfying [b], ascending. *)
Definition positions_where {V} (b : V -> bool) (l : list V) : list Z :=
  filter (fun k => match nth_error l (Z.to_nat k) with Some x => b x | None => false end) (iota (Z.of_nat (length l))).
