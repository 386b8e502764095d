(** * Dist: the samples of base/random.hpp that come from standard distributions, with the distributions of the GNU library (libstdc++ 13)
    and the default engine.  Definitions only.

    The engine std::mt19937 is seen through the sequence of its outputs, each in [0, 2^32) (min() = 0, max() = 2^32 - 1); an empty list
    means that the outputs considered are used up.  Engine files cited: /usr/include/c++/13/bits (not part of /repo). *)

From Coq Require Import ZArith List Bool Floats.SpecFloat.
From Verif Require Import Base Coerce Random Stats.
Import ListNotations.
Open Scope Z_scope.

(** [g()]: the next output. *)
Definition next (l : list Z) : outcome (Z * list Z) := match l with [] => Timeout | x :: l' => Ok (x, l') end.

(** [std::nextafter(1.0, 0.0)] = 1 - 2^-53. *)
Definition below_one : spec_float := S754_finite false 9007199254740991 (-53).

(** [std::generate_canonical<double, 53>(g)] (random.tcc:3349-3381) with the range 2^32: two outputs (m = (53 + 32 - 1) / 32),
    called by canon_sample (base/random.hpp:29-32) and by the distributions through [__detail::_Adaptor] (random.h:167-199). *)
Definition canonical (l : list Z) : outcome (spec_float * list Z) :=
  let* r1 := next l in
  let sum1 := fadd (dbl 0) (fmul (dbl (fst r1)) (dbl 1)) in
  let tmp1 := fmul (dbl 1) (dbl (2 ^ 32)) in
  let* r2 := next (snd r1) in
  let sum2 := fadd sum1 (fmul (dbl (fst r2)) tmp1) in
  let tmp2 := fmul tmp1 (dbl (2 ^ 32)) in
  let ret := fdiv sum2 tmp2 in
  Ok (if SFleb (dbl 1) ret then below_one else ret, snd r2).

(** [sample(n, dist, g)] (base/random.hpp:36-40): n calls of the distribution, in order (see Engine.v for the view it uses). *)
Fixpoint draws {A} (dist : list Z -> outcome (A * list Z)) (n : nat) (l : list Z) : outcome (list A * list Z) :=
  match n with
  | O => Ok ([], l)
  | S n' => let* r := dist l in let* rs := draws dist n' (snd r) in Ok (fst r :: fst rs, snd rs)
  end.

(** [std::bernoulli_distribution(p)(g)] (random.h:3741-3750). *)
Definition bernoulli (p : spec_float) (l : list Z) : outcome (bool * list Z) :=
  let* r := canonical l in
  Ok (SFltb (fsub (fst r) (dbl 0)) (fmul p (fsub (dbl 1) (dbl 0))), snd r).
(** [bernoulli_sample(p, g)], [bernoulli_sample(n, p, g)] (base/random.hpp:42-52). *)
Definition bernoulli_sample (p : spec_float) (l : list Z) : outcome (bool * list Z) := bernoulli p l.
Definition bernoulli_samples (n : Z) (p : spec_float) (l : list Z) : outcome (list bool * list Z) := draws (bernoulli p) (Z.to_nat n) l.

(** [std::partial_sum] (stl_numeric.h:254-277). *)
Fixpoint partial_sums (acc : spec_float) (l : list spec_float) : list spec_float :=
  match l with [] => [] | x :: l' => let s := fadd acc x in s :: partial_sums s l' end.
Definition partial_sum (l : list spec_float) : list spec_float := match l with [] => [] | x :: l' => x :: partial_sums x l' end.

(** [discrete_distribution::param_type::_M_initialize] (random.tcc:2655-2678): the cumulative probabilities; none for fewer than two weights. *)
Definition cumulative (w : list spec_float) : list spec_float :=
  match w with
  | [] | [_] => []
  | _ => let sum := fold_left fadd w (dbl 0) in
         let cp := partial_sum (map (fun x => fdiv x sum) w) in
         removelast cp ++ [dbl 1]
  end.

(** [std::lower_bound(first, last, u)] (stl_algobase.h:1457-1482). *)
Fixpoint lower_bound (fuel : nat) (cp : list spec_float) (u : spec_float) (first len : nat) : outcome nat :=
  match fuel with
  | O => Timeout
  | S f =>
      if (0 <? len)%nat then
        let half := Nat.div2 len in
        let mid := (first + half)%nat in
        match nth_error cp mid with
        | None => UB
        | Some x => if SFltb x u then lower_bound f cp u (S mid) (len - half - 1) else lower_bound f cp u first half
        end
      else Ok first
  end.

(** [discrete_distribution::operator()] (random.tcc:2696-2715). *)
Definition discrete (w : list spec_float) (l : list Z) : outcome (Z * list Z) :=
  match cumulative w with
  | [] => Ok (0, l)
  | cp => let* r := canonical l in
          let* i := lower_bound (S (length cp)) cp (fst r) 0 (length cp) in
          Ok (Z.of_nat i, snd r)
  end.
(** [discrete_index_sample(rng, g)], [discrete_index_sample(n, rng, g)] (base/random.hpp:87-103); the weights converted to double. *)
Definition discrete_index_sample (w : list spec_float) (l : list Z) : outcome (Z * list Z) := discrete w l.
Definition discrete_index_samples (n : Z) (w : list spec_float) (l : list Z) : outcome (list Z * list Z) := draws (discrete w) (Z.to_nat n) l.

(** [uniform_int_distribution::_S_nd] (uniform_int_dist.h:254-281): the loop, then the function. *)
Fixpoint nd_while (range threshold product : Z) (l : list Z) : outcome (Z * list Z) :=
  if product mod 2 ^ 32 <? threshold then
    match l with
    | [] => Timeout
    | x :: l' => nd_while range threshold (x * range) l'
    end
  else Ok (product / 2 ^ 32, l).
Definition nd (range : Z) (l : list Z) : outcome (Z * list Z) :=
  let* r := next l in
  let product := fst r * range in
  if product mod 2 ^ 32 <? range then nd_while range ((2 ^ 32 - range) mod range) product (snd r)
  else Ok (product / 2 ^ 32, snd r).

(** [uniform_int_distribution<size_t>::operator()] with param_type(0, b) (uniform_int_dist.h:286-372).  [small]: the part without recursion
    (the recursive call has b / 2^32 < 2^32); [large]: the loop of l.359-367. *)
Definition small (b : Z) (l : list Z) : outcome (Z * list Z) :=
  if b <? 2 ^ 32 - 1 then nd (b + 1) l else next l.
Fixpoint large (fuel : nat) (b : Z) (l : list Z) : outcome (Z * list Z) :=
  match fuel with
  | O => Timeout
  | S f =>
      let* h := small (b / 2 ^ 32) l in
      let tmp := w64 (2 ^ 32 * fst h) in
      let* r := next (snd h) in
      let ret := w64 (tmp + fst r) in
      if (b <? ret) || (ret <? tmp) then large f b (snd r) else Ok (ret, snd r)
  end.
Definition uniform_int (b : Z) (l : list Z) : outcome (Z * list Z) :=
  if b <=? 2 ^ 32 - 1 then small b l else large (S (length l)) b l.
(** [uniform_index_sample(end, g)], [uniform_index_sample(n, end, g)] (base/random.hpp:54-64). *)
Definition uniform_index_sample (end_ : Z) (l : list Z) : outcome (Z * list Z) := uniform_int (w64 (end_ - 1)) l.
Definition uniform_index_samples (n end_ : Z) (l : list Z) : outcome (list Z * list Z) := draws (uniform_int (w64 (end_ - 1))) (Z.to_nat n) l.
