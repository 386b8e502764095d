(** * RandomSpec: what is assumed about random draws. *)

From Coq Require Import ZArith List Bool Floats.SpecFloat.
From Verif Require Import Base Coerce.
Import ListNotations.
Open Scope Z_scope.

(** A double in [0, 1), the range of std::generate_canonical. *)
Definition one : spec_float := S754_finite false 4503599627370496 (-52).
Definition unit_double (u : spec_float) : Prop :=
  valid_binary 53 1024 u = true
  /\ SFleb (S754_zero false) u = true /\ SFltb u one = true.

(** Strictly increasing. *)
Fixpoint increasing (l : list Z) : Prop :=
  match l with
  | [] => True
  | a :: l' => (forall b, In b l' -> a < b) /\ increasing l'
  end.
