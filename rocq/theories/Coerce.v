(** * Coerce: the coercion rules of core/type.hpp and the C library conversions
    they call.

    Text is a list of [ascii] (std::string, core/type.hpp:49).  [numeric] is
    [double] (type.hpp:38), represented by the standard library's [spec_float]
    (binary64: precision 53, emax 1024). *)

From Coq Require Import ZArith List Bool Ascii String Floats.SpecFloat.
From Verif Require Import Base.
Import ListNotations.
Open Scope Z_scope.
Open Scope bool_scope.

Notation text := (list ascii) (only parsing).

(** A string literal as a text (used for the literals of the C library model). *)
Definition lit (s : string) : text := list_ascii_of_string s.

Definition text_eqb (a b : text) : bool :=
  if list_eq_dec ascii_dec a b then true else false.

(** ** Element types of columns

    The five rule types of [coercion_rules] (type.hpp:196: numeric, string,
    index_t, integer, uinteger) and four source types without a rule of their own:
    long, char (signed, as on x86), const char* (non-null), and a class without any
    conversion ([Toy] of test/dataframe/column.cpp).  [TFloat] stands for a target
    type that no rule mentions. *)
Inductive ty : Set :=
| TNum | TStr | TIdx | TInt | TUInt | TLong | TChar | TCStr | TToy | TFloat.

Definition ty_eqb (a b : ty) : bool :=
  match a, b with
  | TNum, TNum | TStr, TStr | TIdx, TIdx | TInt, TInt | TUInt, TUInt | TLong, TLong
  | TChar, TChar | TCStr, TCStr | TToy, TToy | TFloat, TFloat => true
  | _, _ => false
  end.

(** A value of one of these types. *)
Inductive cell : Type :=
| CNum (f : spec_float)
| CStr (s : text)
| CIdx (z : Z)
| CInt (z : Z)
| CUInt (z : Z)
| CLong (z : Z)
| CChar (z : Z)
| CCStr (s : text)
| CToy.

Definition type_of (c : cell) : ty :=
  match c with
  | CNum _ => TNum | CStr _ => TStr | CIdx _ => TIdx | CInt _ => TInt | CUInt _ => TUInt
  | CLong _ => TLong | CChar _ => TChar | CCStr _ => TCStr | CToy => TToy
  end.

(** ** [std::to_string] of integers (called by string_rule, type.hpp:97-100) *)

Definition digit_char (d : Z) : ascii := ascii_of_nat (48 + Z.to_nat d).

(** The value of a decimal digit character, if it is one. *)
Definition char_digit (c : ascii) : option Z :=
  let n := Z.of_nat (nat_of_ascii c) in
  if (48 <=? n) && (n <=? 57) then Some (n - 48) else None.

Fixpoint dec_digits (fuel : nat) (n : Z) : text :=
  match fuel with
  | O => []
  | S k => if n <? 10 then [digit_char n] else (dec_digits k (n / 10) ++ [digit_char (n mod 10)])%list
  end.

(** [std::to_string(int)], [to_string(unsigned)], [to_string(unsigned long)],
    [to_string(long)], and [to_string(char)] through the promotion to int
    (type.hpp:97-100). *)
Definition itos (z : Z) : text :=
  let m := Z.abs z in
  let ds := dec_digits (S (Z.to_nat (Z.log2 m))) m in
  if z <? 0 then "-"%char :: ds else ds.

(** ** [strtol]/[strtoul] in base 10, as used by std::stoi and std::stoul
    (type.hpp:116, 139, 150) *)

(** isspace in the "C" locale. *)
Definition is_space (c : ascii) : bool :=
  let n := nat_of_ascii c in
  (Nat.eqb n 32) || ((Nat.leb 9 n) && (Nat.leb n 13)).

Fixpoint skip_ws (s : text) : text :=
  match s with
  | c :: s' => if is_space c then skip_ws s' else s
  | [] => []
  end.

(** Optional sign: (negative?, rest). *)
Definition take_sign (s : text) : bool * text :=
  match s with
  | "-"%char :: s' => (true, s')
  | "+"%char :: s' => (false, s')
  | _ => (false, s)
  end.

(** Longest prefix of digits: (value so far, digits read, rest). *)
Fixpoint take_digits (acc : Z) (k : nat) (s : text) : Z * nat * text :=
  match s with
  | c :: s' =>
      match char_digit c with
      | Some d => take_digits (acc * 10 + d) (S k) s'
      | None => (acc, k, s)
      end
  | [] => (acc, k, [])
  end.

(** The subject sequence of strtol/strtoul in base 10: (negative?, magnitude), or
    nothing when there are no digits. *)
Definition parse_dec (s : text) : option (bool * Z) :=
  let '(neg, s1) := take_sign (skip_ws s) in
  let '(v, k, _) := take_digits 0 0 s1 in
  if Nat.eqb k 0 then None else Some (neg, v).

(** std::stoul (type.hpp:116, 150): invalid_argument without digits, out_of_range when
    the magnitude exceeds ULONG_MAX; a minus sign negates modulo 2^64. *)
Definition stoul (s : text) : outcome Z :=
  match parse_dec s with
  | None => Throw InvalidArgument
  | Some (neg, v) =>
      if W <=? v then Throw OutOfRange else Ok (if neg then w64 (- v) else v)
  end.

(** std::stoi (type.hpp:139): invalid_argument without digits, out_of_range when the value
    is not an int. *)
Definition stoi (s : text) : outcome Z :=
  match parse_dec s with
  | None => Throw InvalidArgument
  | Some (neg, v) =>
      let x := if neg then - v else v in
      if (- 2 ^ 31 <=? x) && (x <? 2 ^ 31) then Ok x else Throw OutOfRange
  end.

(** ** double *)

(** Conversion of an integer to double: round to nearest even (the implicit conversion in
    default_rule<numeric>, type.hpp:71-80). *)
Definition dbl (z : Z) : spec_float := binary_normalize 53 1024 z 0 false.

(** Truncation of a finite double (implicit floating-integral conversion). *)
Definition ftrunc (f : spec_float) : option Z :=
  match f with
  | S754_zero _ => Some 0
  | S754_finite s m e =>
      let a := if 0 <=? e then Z.pos m * 2 ^ e else Z.pos m / 2 ^ (- e) in
      Some (if s then - a else a)
  | _ => None
  end.

(** [value < 0] for a double (type.hpp:120, 158). *)
Definition fneg (f : spec_float) : bool := SFltb f (S754_zero false).

(** Floating-integral conversion to an integer type with range [lo, hi): undefined when
    the truncated value is not representable. *)
Definition f2i (lo hi : Z) (f : spec_float) : outcome Z :=
  match ftrunc f with
  | Some z => if (lo <=? z) && (z <? hi) then Ok z else UB
  | None => UB
  end.

(** Division rounded to the nearest integer, ties to even. *)
Definition div_ne (a b : Z) : Z :=
  let q := a / b in
  let r := a mod b in
  if 2 * r <? b then q
  else if b <? 2 * r then q + 1
  else if Z.even q then q else q + 1.

(** Six decimals, with leading zeros. *)
Definition pad6 (n : Z) : text :=
  map (fun k => digit_char ((n / 10 ^ k) mod 10)) [5; 4; 3; 2; 1; 0].

(** [std::to_string(double)], i.e. printf("%f") with exact rounding to six decimals
    (type.hpp:97-100; test/dataframe/column_model.cpp:40-41). *)
Definition ftos (f : spec_float) : text :=
  match f with
  | S754_zero s => ((if s then lit "-" else []) ++ lit "0.000000")%list
  | S754_infinity s => ((if s then lit "-" else []) ++ lit "inf")%list
  | S754_nan => lit "nan"
  | S754_finite s m e =>
      let q := if 0 <=? e then Z.pos m * 2 ^ e * 10 ^ 6
               else div_ne (Z.pos m * 10 ^ 6) (2 ^ (- e)) in
      ((if s then lit "-" else []) ++ itos (q / 10 ^ 6) ++ "."%char :: pad6 (q mod 10 ^ 6))%list
  end.

(** Correct rounding of the rational a / b (b > 0, a >= 0) with sign [s], and whether the
    result is exact. *)
Definition round_rat (s : bool) (a b : Z) : spec_float :=
  match a with
  | Z.pos _ =>
      let '(q, e, l) := SFdiv_core_binary 53 1024 a 0 b 0 in
      binary_round_aux 53 1024 s q e l
  | _ => S754_zero s
  end.

Definition lower (c : ascii) : ascii :=
  let n := nat_of_ascii c in
  if (Nat.leb 65 n) && (Nat.leb n 90) then ascii_of_nat (n + 32) else c.

Fixpoint has_prefix (p s : text) : bool :=
  match p, s with
  | [], _ => true
  | a :: p', b :: s' => if ascii_dec a b then has_prefix p' s' else false
  | _, [] => false
  end.

(** The value of a hexadecimal digit character, if it is one. *)
Definition hex_digit (c : ascii) : option Z :=
  let n := Z.of_nat (nat_of_ascii (lower c)) in
  if (48 <=? n) && (n <=? 57) then Some (n - 48) else if (97 <=? n) && (n <=? 102) then Some (n - 87) else None.

(** Longest prefix of digits in base [b]: (value so far, digits read, rest). *)
Fixpoint take_in (dg : ascii -> option Z) (b : Z) (acc : Z) (k : nat) (s : text) : Z * nat * text :=
  match s with
  | c :: s' =>
      match dg c with
      | Some d => take_in dg b (acc * b + d) (S k) s'
      | None => (acc, k, s)
      end
  | [] => (acc, k, [])
  end.

(** The mantissa: digits with at most one point among them: (all digits as one number, how many digits, how many after the point, rest). *)
Definition take_mant (take : Z -> nat -> text -> Z * nat * text) (s : text) : Z * nat * Z * text :=
  let '(v1, k1, r1) := take 0 0%nat s in
  match r1 with
  | "."%char :: r2 =>
      let '(v2, k2, r3) := take v1 k1 r2 in (v2, k2, Z.of_nat (k2 - k1), r3)
  | _ => (v1, k1, 0, r1)
  end.

(** Optional exponent (decimal digits after [mark]) after the mantissa. *)
Definition take_exp (mark : ascii) (s : text) : Z :=
  match s with
  | c :: s' =>
      if ascii_dec (lower c) mark then
        let '(neg, s1) := take_sign s' in
        let '(v, k, _) := take_digits 0 0 s1 in
        if Nat.eqb k 0 then 0 else if neg then - v else v
      else 0
  | [] => 0
  end.

(** [a / b] compared exactly with a finite double [f] of the same sign: is [f] exact? *)
Definition rat_exact (a b : Z) (f : spec_float) : bool :=
  match f with
  | S754_zero _ => a =? 0
  | S754_finite _ m e =>
      if 0 <=? e then a =? Z.pos m * 2 ^ e * b else a * 2 ^ (- e) =? Z.pos m * b
  | _ => false
  end.

(** Magnitude below 2^-1022 (zero or subnormal). *)
Definition ftiny (f : spec_float) : bool :=
  match f with
  | S754_zero _ => true
  | S754_finite _ m e => Z.log2 (Z.pos m) + e <? -1022
  | _ => false
  end.

(** The double for the number v * b^ex: out_of_range on overflow and on inexact underflow (ERANGE). *)
Definition literal_value (b : Z) (neg : bool) (v ex : Z) : outcome spec_float :=
  let f := if 0 <=? ex then
             (if v =? 0 then S754_zero neg
              else binary_normalize 53 1024 ((if neg then -1 else 1) * (v * b ^ ex)) 0 neg)
           else round_rat neg v (b ^ (- ex)) in
  match f with
  | S754_infinity _ => Throw OutOfRange
  | _ =>
      if ftiny f && negb (if 0 <=? ex then true else rat_exact v (b ^ (- ex)) f)
      then Throw OutOfRange
      else Ok f
  end.

(** What follows the prefix 0x of a hexadecimal literal: the prefix counts only when a digit follows, possibly after a point. *)
Definition hex_part (s : text) : option text :=
  match s with
  | "0"%char :: x :: s' =>
      if ascii_dec (lower x) "x"%char then
        let '(_, k, _, _) := take_mant (take_in hex_digit 16) s' in
        if Nat.eqb k 0 then None else Some s'
      else None
  | _ => None
  end.

(** std::stod (type.hpp:88): strtod of a decimal or hexadecimal literal, "inf" or "nan"; invalid_argument
    without a number.  Simplification: NaN has no sign. *)
Definition stod (s : text) : outcome spec_float :=
  let '(neg, s1) := take_sign (skip_ws s) in
  let low := map lower s1 in
  if has_prefix (lit "inf") low then Ok (S754_infinity neg)
  else if has_prefix (lit "nan") low then Ok S754_nan
  else
    match hex_part s1 with
    | Some s2 =>
        let '(v, _, kf, r) := take_mant (take_in hex_digit 16) s2 in
        literal_value 2 neg v (take_exp "p"%char r - 4 * kf)
    | None =>
        let '(v, k, kf, r) := take_mant take_digits s1 in
        if Nat.eqb k 0 then Throw InvalidArgument
        else literal_value 10 neg v (take_exp "e"%char r - kf)
    end.

(** ** The rules (core/type.hpp:71-169)

    [rule_num c] etc. is [rule::coerce_from(c)]; [None] when no overload accepts the type
    of [c] (then specific_concrete_coercion's primary template is used,
    dataframe/detail/column_model.hpp:97-112). *)

(** numeric_rule (type.hpp:84-89) with default_rule (71-80). *)
Definition rule_num (c : cell) : option (outcome cell) :=
  match c with
  | CNum f => Some (Ok (CNum f))
  | CStr s | CCStr s => Some (let* f := stod s in Ok (CNum f))
  | CIdx z | CInt z | CUInt z | CLong z | CChar z => Some (Ok (CNum (dbl z)))
  | CToy => None
  end.

(** string_rule (type.hpp:93-108): to_string when it exists, else implicit conversion. *)
Definition rule_str (c : cell) : option (outcome cell) :=
  match c with
  | CNum f => Some (Ok (CStr (ftos f)))
  | CStr s | CCStr s => Some (Ok (CStr s))
  | CIdx z | CInt z | CUInt z | CLong z | CChar z => Some (Ok (CStr (itos z)))
  | CToy => None
  end.

(** index_rule (type.hpp:112-131): stoul of text; negative signed values throw. *)
Definition rule_idx (c : cell) : option (outcome cell) :=
  match c with
  | CNum f => Some (if fneg f then Throw InvalidArgument
                    else let* z := f2i 0 W f in Ok (CIdx z))
  | CStr s | CCStr s => Some (let* z := stoul s in Ok (CIdx z))
  | CIdx z => Some (Ok (CIdx z))
  | CUInt z => Some (Ok (CIdx (w64 z)))
  | CInt z | CLong z | CChar z =>
      Some (if z <? 0 then Throw InvalidArgument else Ok (CIdx (w64 z)))
  | CToy => None
  end.

(** integer_rule (type.hpp:135-140): implicit conversion, narrowing modulo 2^32. *)
Definition rule_int (c : cell) : option (outcome cell) :=
  match c with
  | CNum f => Some (let* z := f2i (- 2 ^ 31) (2 ^ 31) f in Ok (CInt z))
  | CStr s | CCStr s => Some (let* z := stoi s in Ok (CInt z))
  | CInt z => Some (Ok (CInt z))
  | CIdx z | CUInt z | CLong z | CChar z => Some (Ok (CInt (s32 z)))
  | CToy => None
  end.

(** uinteger_rule (type.hpp:144-169): stoul and a maximum check for text; negative signed
    values throw; other values are narrowed modulo 2^32. *)
Definition rule_uint (c : cell) : option (outcome cell) :=
  match c with
  | CNum f => Some (if fneg f then Throw InvalidArgument
                    else let* z := f2i 0 (2 ^ 32) f in Ok (CUInt z))
  | CStr s | CCStr s =>
      Some (let* z := stoul s in
            if 2 ^ 32 - 1 <? z then Throw InvalidArgument else Ok (CUInt (w32 z)))
  | CUInt z => Some (Ok (CUInt z))
  | CIdx z => Some (Ok (CUInt (w32 z)))
  | CInt z | CLong z | CChar z =>
      Some (if z <? 0 then Throw InvalidArgument else Ok (CUInt (w32 z)))
  | CToy => None
  end.

(** A cell of each type, used only to select the overload by the static type. *)
Definition witness (t : ty) : cell :=
  match t with
  | TNum => CNum S754_nan | TStr => CStr [] | TIdx => CIdx 0 | TInt => CInt 0
  | TUInt => CUInt 0 | TLong => CLong 0 | TChar => CChar 0 | TCStr => CCStr []
  | TToy | TFloat => CToy
  end.

(** A rule set: for a target and a source type, the conversion if there is one
    (base_coercion_rules, type.hpp:173-191, seen through specific_concrete_coercion,
    column_model.hpp:97-139). *)
Definition rules : Type := ty -> ty -> option (cell -> outcome cell).

Definition on_type (r : cell -> option (outcome cell)) (src : ty) : option (cell -> outcome cell) :=
  match r (witness src) with
  | Some _ => Some (fun c => match r c with Some o => o | None => Throw BadCast end)
  | None => None
  end.

(** [coercion_rules] (type.hpp:196). *)
Definition default_rules : rules := fun target src =>
  match target with
  | TNum => on_type rule_num src
  | TStr => on_type rule_str src
  | TIdx => on_type rule_idx src
  | TInt => on_type rule_int src
  | TUInt => on_type rule_uint src
  | _ => None
  end.

(** The values each type can hold. *)
Definition cell_ok (c : cell) : Prop :=
  match c with
  | CIdx z => 0 <= z < W
  | CInt z => - 2 ^ 31 <= z < 2 ^ 31
  | CUInt z => 0 <= z < 2 ^ 32
  | CLong z => - 2 ^ 63 <= z < 2 ^ 63
  | CChar z => - 128 <= z < 128
  | _ => True
  end.
