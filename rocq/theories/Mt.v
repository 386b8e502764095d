(** * Mt: the default random engine of base/random.hpp (l.25, 27): std::mt19937 of the GNU library (libstdc++ 13).  Definitions only.

    /usr/include/c++/13/bits/random.h:1608-1615 (the parameters) and random.tcc (not part of /repo).  The words are
    uint_fast32_t, of 64 bits. *)

From Coq Require Import ZArith List Bool.
From Verif Require Import Base.
Import ListNotations.
Open Scope Z_scope.

(** The state [_M_x], of 624 words, and the position [_M_p] (random.h:590-605). *)
Record mt : Type := Mt { words : list Z; pos : nat }.

(** [seed(sd)] (random.tcc:325-343): the words x[i .. i + k) after the word [prev]. *)
Fixpoint seed_words (k : nat) (i prev : Z) : list Z :=
  match k with
  | O => []
  | S k' =>
      let x := w64 (w64 (Z.lxor prev (Z.shiftr prev 30) * 1812433253) + i mod 624) mod 2 ^ 32 in
      x :: seed_words k' (i + 1) x
  end.
(** [std::mt19937{sd}] (random.h:513-514) and [seed(sd)]. *)
Definition mt_seed (sd : Z) : mt := let x0 := sd mod 2 ^ 32 in Mt (x0 :: seed_words 623 1 x0) 624.

(** [__upper_mask] and [__lower_mask] (random.tcc:401-402). *)
Definition upper_mask : Z := w64 (Z.shiftl (2 ^ 64 - 1) 31).
Definition lower_mask : Z := 2 ^ 64 - 1 - upper_mask.
(** One step of the loops of [_M_gen_rand] (random.tcc:406-409, 414-417, 420-423): x[k] from x[k], x[k1] and x[j]. *)
Definition gen_step (x : list Z) (k k1 j : nat) : list Z :=
  let y := Z.lor (Z.land (nth k x 0) upper_mask) (Z.land (nth k1 x 0) lower_mask) in
  upd_nat x k (Z.lxor (Z.lxor (nth j x 0) (Z.shiftr y 1)) (if Z.land y 1 =? 0 then 0 else 2567483615)).
(** [_M_gen_rand()] (random.tcc:399-425). *)
Definition gen_rand (x : list Z) : list Z :=
  let x1 := fold_left (fun x k => gen_step x k (k + 1) (k + 397)) (seq 0 227) x in
  let x2 := fold_left (fun x k => gen_step x k (k + 1) (k - 227)) (seq 227 396) x1 in
  gen_step x2 623 0 396.

(** [operator()()] (random.tcc:455-469): the next output. *)
Definition mt_temper (z : Z) : Z :=
  let z1 := Z.lxor z (Z.land (Z.shiftr z 11) 4294967295) in
  let z2 := Z.lxor z1 (Z.land (w64 (Z.shiftl z1 7)) 2636928640) in
  let z3 := Z.lxor z2 (Z.land (w64 (Z.shiftl z2 15)) 4022730752) in
  Z.lxor z3 (Z.shiftr z3 18).
Definition mt_next (g : mt) : Z * mt :=
  let g' := if (624 <=? pos g)%nat then Mt (gen_rand (words g)) 0 else g in
  (mt_temper (nth (pos g') (words g') 0), Mt (words g') (S (pos g'))).

(** The engine after [k] calls, and the output of the next one. *)
Fixpoint mt_after (k : nat) (g : mt) : mt := match k with O => g | S k' => mt_after k' (snd (mt_next g)) end.
Definition mt_output (sd : Z) (k : nat) : Z := fst (mt_next (mt_after k (mt_seed sd))).
