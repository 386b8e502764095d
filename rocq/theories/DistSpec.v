(** * DistSpec: what samples should be. *)

From Coq Require Import ZArith List Bool Reals Floats.SpecFloat.
From Verif Require Import Base Spec StatsSpec.
Import ListNotations.
Open Scope Z_scope.

(** Outputs of the engine. *)
Definition outputs (l : list Z) : Prop := Forall (fun x => 0 <= x < 2 ^ 32) l.

(** All sequences of [n] outputs. *)
Fixpoint sequences (n : nat) : list (list Z) :=
  match n with O => [[]] | S n' => flat_map (fun x => map (cons x) (sequences n')) (iota (2 ^ 32)) end.

(** How many elements of a list satisfy a test. *)
Fixpoint count {A} (P : A -> bool) (l : list A) : Z := match l with [] => 0 | x :: l' => (if P x then 1 else 0) + count P l' end.

(** The share of the sequences of [n] outputs that satisfy a test: its chance when the outputs are independent and uniform. *)
Definition chance (n : nat) (P : list Z -> bool) : R := (IZR (count P (sequences n)) / IZR (2 ^ (32 * Z.of_nat n)))%R.

(** The result [r] is the value [v] ([eqb] compares), and all the outputs were used. *)
Definition yields {A} (eqb : A -> A -> bool) (v : A) (r : outcome (A * list Z)) : bool :=
  match r with Ok (x, []) => eqb x v | _ => false end.
(** Equality of lists. *)
Fixpoint list_eqb {A} (eqb : A -> A -> bool) (l l' : list A) : bool :=
  match l, l' with [], [] => true | x :: l, y :: l' => eqb x y && list_eqb eqb l l' | _, _ => false end.

(** Two outputs as one number below 2^64. *)
Definition pair_number (a b : Z) : Z := a + 2 ^ 32 * b.

(** Exact share of one weight, and of the first [i + 1] weights. *)
Definition weight_share (w : list R) (i : nat) : R := (nth i w 0 / rsum w)%R.
Definition share (w : list R) (i : nat) : R := (rsum (firstn (S i) w) / rsum w)%R.

(** Weights that a distribution can use: finite doubles, not negative. *)
Definition good_weight (x : spec_float) : Prop := is_double x /\ finite x /\ (0 <= dval x)%R.
