(** * ReadNumSpec: decimal literals and the doubles nearest to them. *)

From Coq Require Import ZArith List Bool Ascii String Reals Floats.SpecFloat.
From Verif Require Import Base Coerce CoerceSpec StatsSpec.
Import ListNotations.

(** Digits, possibly none, and the natural number they denote. *)
Inductive digits : text -> Z -> Prop :=
| ds_none : digits [] 0
| ds_some s v : dec_nat s v -> digits s v.

(** An optional sign; [true]: minus. *)
Inductive sign_text : text -> bool -> Prop :=
| sg_none : sign_text [] false
| sg_plus : sign_text ["+"%char] false
| sg_minus : sign_text ["-"%char] true.

(** An optional decimal exponent. *)
Inductive exp_text : text -> Z -> Prop :=
| et_none : exp_text [] 0
| et_some c sg neg ds x : c = "e"%char \/ c = "E"%char -> sign_text sg neg -> dec_nat ds x ->
    exp_text (c :: sg ++ ds) (if neg then - x else x)%Z.

(** [literal s neg r]: [s] is a decimal literal of sign [neg] and magnitude [r], such as "-12", "3.25", ".5" or "1.e-7". *)
Inductive literal : text -> bool -> R -> Prop :=
| lit_whole sg neg ip v ex x : sign_text sg neg -> dec_nat ip v -> exp_text ex x ->
    literal (sg ++ ip ++ ex) neg (IZR v * powerRZ 10 x)%R
| lit_point sg neg ip v fp w ex x : sign_text sg neg -> digits ip v -> digits fp w -> ip <> [] \/ fp <> [] -> exp_text ex x ->
    literal (sg ++ ip ++ "."%char :: fp ++ ex) neg ((IZR v + IZR w / 10 ^ List.length fp) * powerRZ 10 x)%R.

(** Hexadecimal literals such as "0x1F", "-0X.8" or "0x1.8p-3": sixteen digits, and an exponent of two in decimal digits. *)
Definition hex_table : list (ascii * Z) :=
  digit_table ++ [("a", 10); ("b", 11); ("c", 12); ("d", 13); ("e", 14); ("f", 15); ("A", 10); ("B", 11); ("C", 12); ("D", 13); ("E", 14); ("F", 15)]%char%Z.
Inductive hex_nat : text -> Z -> Prop :=
| hn_one c d : In (c, d) hex_table -> hex_nat [c] d
| hn_snoc s v c d : hex_nat s v -> In (c, d) hex_table -> hex_nat (s ++ [c]) (16 * v + d).
Inductive hex_digits : text -> Z -> Prop :=
| hs_none : hex_digits [] 0
| hs_some s v : hex_nat s v -> hex_digits s v.
Inductive bin_exp_text : text -> Z -> Prop :=
| bt_none : bin_exp_text [] 0
| bt_some c sg neg ds x : c = "p"%char \/ c = "P"%char -> sign_text sg neg -> dec_nat ds x ->
    bin_exp_text (c :: sg ++ ds) (if neg then - x else x)%Z.
Inductive hex_literal : text -> bool -> R -> Prop :=
| hex_whole sg neg c ip v ex x : sign_text sg neg -> c = "x"%char \/ c = "X"%char -> hex_nat ip v -> bin_exp_text ex x ->
    hex_literal (sg ++ "0"%char :: c :: ip ++ ex) neg (IZR v * powerRZ 2 x)%R
| hex_point sg neg c ip v fp w ex x : sign_text sg neg -> c = "x"%char \/ c = "X"%char -> hex_digits ip v -> hex_digits fp w -> ip <> [] \/ fp <> [] ->
    bin_exp_text ex x ->
    hex_literal (sg ++ "0"%char :: c :: ip ++ "."%char :: fp ++ ex) neg ((IZR v + IZR w / 16 ^ List.length fp) * powerRZ 2 x)%R.

Definition number (s : text) (neg : bool) (r : R) : Prop := literal s neg r \/ hex_literal s neg r.

(** No number that begins the text [s ++ rest] is longer than [s]. *)
Definition longest (s rest : text) : Prop :=
  forall s' rest' neg r, (s ++ rest = s' ++ rest')%list -> number s' neg r -> (List.length s' <= List.length s)%nat.

(** The words for infinity and NaN, in capital or small letters. *)
Definition spells (w : text) (letters : list (ascii * ascii)) : Prop := Forall2 (fun c p => c = fst p \/ c = snd p) w letters.
Definition inf_word : list (ascii * ascii) := [("i", "I"); ("n", "N"); ("f", "F")]%char.
Definition nan_word : list (ascii * ascii) := [("n", "N"); ("a", "A"); ("n", "N")]%char.

(** [x] is the double nearest to [r]; if another one is as near, the mantissa of [x] is even. *)
Definition even_mantissa (x : spec_float) : Prop := match x with S754_finite _ m _ => Z.even (Zpos m) = true | _ => True end.
Definition nearest_even (x : spec_float) (r : R) : Prop :=
  nearest x r /\ forall y, is_double y -> finite y -> dval y <> dval x -> (Rabs (dval y - r) = Rabs (dval x - r))%R -> even_mantissa x.

(** From here on the nearest double would be above the largest one: half a step beyond the largest double. *)
Definition huge : R := (powerRZ 2 1024 - powerRZ 2 970)%R.
(** The smallest double with full precision. *)
Definition smallest_normal : R := powerRZ 2 (-1022).

Definition minus_sign (x : spec_float) : bool := match x with S754_zero s | S754_infinity s | S754_finite s _ _ => s | S754_nan => false end.
