(** * TableSpec: tables of numbers written in a text. *)

From Coq Require Import ZArith List Bool Ascii String Reals Floats.SpecFloat.
From Verif Require Import Base Coerce CoerceSpec StatsSpec Frame FrameSpec ReadNumSpec.
Import ListNotations.

(** All lines have the same number of fields. *)
Definition rectangular (tbl : list (list text)) : Prop :=
  forall r r', In r tbl -> In r' tbl -> List.length r = List.length r'.

(** The column names and the data lines of a table, with and without a header line; there is at least one data line. *)
Inductive parts : bool -> list (list text) -> list text -> list (list text) -> Prop :=
| parts_header ns row more : unique_names ns -> parts true (ns :: row :: more) ns (row :: more)
| parts_plain row more : parts false (row :: more) (map (fun _ => []) row) (row :: more).

(** [denotes s f]: after blanks, the text begins with a number whose nearest double is [f], or with a word for infinity or NaN. *)
Inductive denotes : text -> spec_float -> Prop :=
| den_number ws s neg r rest f : Forall blank ws -> number s neg r -> longest s rest -> (smallest_normal <= r < huge)%R ->
    is_double f -> nearest_even f (if neg then - r else r)%R -> denotes (ws ++ s ++ rest) f
| den_zero ws s neg rest : Forall blank ws -> number s neg 0 -> longest s rest -> denotes (ws ++ s ++ rest) (S754_zero neg)
| den_infinity ws sg neg w rest : Forall blank ws -> sign_text sg neg -> spells w inf_word ->
    denotes (ws ++ sg ++ w ++ rest) (S754_infinity neg)
| den_nan ws sg neg w rest : Forall blank ws -> sign_text sg neg -> spells w nan_word ->
    denotes (ws ++ sg ++ w ++ rest) S754_nan.

(** Nothing that [denotes] or [C62_text_to_numeric] could read. *)
Definition no_number (s : text) : Prop :=
  (forall ws l rest neg r, s = ws ++ l ++ rest -> Forall blank ws -> ~ number l neg r) /\
  (forall ws sg neg w rest, s = ws ++ sg ++ w ++ rest -> Forall blank ws -> sign_text sg neg -> ~ spells w inf_word /\ ~ spells w nan_word).

(** An integer in decimal digits; blanks before it and other text after it do not matter. *)
Inductive denotes_int : text -> Z -> Prop :=
| den_int ws s z rest : Forall blank ws -> dec_int s z -> no_digit_first rest -> denotes_int (ws ++ s ++ rest) z.

(** A double after a trip through text: off by at most one millionth; exact for multiples of one millionth. *)
Definition within_millionth (f f' : spec_float) : Prop :=
  finite f' /\ (Rabs (dval f' - dval f) <= / 1000000)%R /\ ((exists q, dval f = IZR q / 1000000)%R -> f' = f).

(** A column of finite doubles or of integers. *)
Definition number_column (c : column) : Prop :=
  (exists l, c = col_of TNum (map CNum l) /\ Forall (fun f => is_double f /\ finite f) l) \/
  (exists l, c = col_of TInt (map CInt l) /\ Forall (fun z => - 2 ^ 31 <= z < 2 ^ 31)%Z l).

(** Two numeric cells that differ like that. *)
Definition close (c c' : cell) : Prop := exists f f', c = CNum f /\ c' = CNum f' /\ within_millionth f f'.
