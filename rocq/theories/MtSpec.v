(** * MtSpec: the Mersenne twister of the C++ standard ([rand.eng.mers], [rand.predef]: mt19937), by its recurrence. *)

From Coq Require Import ZArith List Bool.
Open Scope Z_scope.

(** One word from the words 624, 623 and 227 places before it: the top bit of the first followed by the other 31 bits of the second,
    divided by two and, if that number was odd, combined with a constant; exclusive or with the third. *)
Definition twisted (a b c : Z) : Z :=
  let y := (a / 2 ^ 31) * 2 ^ 31 + b mod 2 ^ 31 in
  Z.lxor c (if Z.odd y then Z.lxor (y / 2) 2567483615 else y / 2).

(** The words of the engine with a given seed. *)
Definition mt_words (seed : Z) (X : nat -> Z) : Prop :=
  X 0%nat = seed mod 2 ^ 32
  /\ (forall i, (1 <= i < 624)%nat -> X i = (1812433253 * Z.lxor (X (i - 1)%nat) (X (i - 1)%nat / 2 ^ 30) + Z.of_nat i) mod 2 ^ 32)
  /\ (forall i, X (i + 624)%nat = twisted (X i) (X (i + 1)%nat) (X (i + 397)%nat)).

(** The output for a word. *)
Definition tempered (x : Z) : Z :=
  let y1 := Z.lxor x (x / 2 ^ 11) in
  let y2 := Z.lxor y1 (Z.land (y1 * 2 ^ 7 mod 2 ^ 32) 2636928640) in
  let y3 := Z.lxor y2 (Z.land (y2 * 2 ^ 15 mod 2 ^ 32) 4022730752) in
  Z.lxor y3 (y3 / 2 ^ 18).
