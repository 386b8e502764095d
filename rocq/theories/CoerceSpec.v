(** * CoerceSpec: what a decimal text denotes, what a cell denotes. *)

From Coq Require Import ZArith List Bool Ascii String Floats.SpecFloat.
From Verif Require Import Base Coerce.
Import ListNotations.
Open Scope Z_scope.

(** The ten decimal digits. *)
Definition digit_table : list (ascii * Z) :=
  [("0", 0); ("1", 1); ("2", 2); ("3", 3); ("4", 4); ("5", 5); ("6", 6); ("7", 7); ("8", 8); ("9", 9)]%char.

Definition is_digit (c : ascii) (d : Z) : Prop := In (c, d) digit_table.

(** Natural number denoted by a non-empty sequence of digits, most significant first. *)
Inductive dec_nat : text -> Z -> Prop :=
| dn_one c d : is_digit c d -> dec_nat [c] d
| dn_snoc s v c d : dec_nat s v -> is_digit c d -> dec_nat (s ++ [c])%list (10 * v + d).

(** Integer denoted by digits with an optional minus sign. *)
Inductive dec_int : text -> Z -> Prop :=
| di_pos s v : dec_nat s v -> dec_int s v
| di_neg s v : dec_nat s v -> dec_int ("-"%char :: s) (- v).

(** Blank characters skipped by strtol. *)
Definition blank (c : ascii) : Prop :=
  In c [" "; "009"; "010"; "011"; "012"; "013"]%char.

(** Text that does not start with a digit (it may be empty). *)
Definition no_digit_first (s : text) : Prop :=
  match s with [] => True | c :: _ => forall d, ~ is_digit c d end.

(** The integer held by a cell of integer type. *)
Definition int_cell (c : cell) (z : Z) : Prop :=
  c = CIdx z \/ c = CInt z \/ c = CUInt z \/ c = CLong z \/ c = CChar z.

(** [rule<T>::coerce_from(c)] as selected by the static type of [c]
    (dataframe/detail/column_model.hpp:97-139): bad_cast when there is no rule. *)
Definition coerce1 (rs : rules) (target : ty) (c : cell) : outcome cell :=
  match rs target (type_of c) with
  | Some f => f c
  | None => Throw BadCast
  end.

(** A double as the rational num / den. *)
Definition fnum (s : bool) (m : positive) (e : Z) : Z :=
  (if s then -1 else 1) * (if 0 <=? e then Z.pos m * 2 ^ e else Z.pos m).
Definition fden (e : Z) : Z := if 0 <=? e then 1 else 2 ^ (- e).
