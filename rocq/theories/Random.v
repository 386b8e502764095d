(** * Random: sampling indices (base/random.hpp). *)

From Coq Require Import ZArith List Bool Floats.SpecFloat.
From Verif Require Import Base Coerce.
Import ListNotations.
Open Scope Z_scope.

(** Multiplication of doubles, round to nearest even. *)
Definition fmul (a b : spec_float) : spec_float := SFmul 53 1024 a b.

(** The test of the loop (random.hpp:77): [(end - t) * canon_sample(g) < n - m].  The two
    differences are index_t values (modulo 2^64) converted to double; [u] is the value of
    canon_sample. *)
Definition select (n end_ t m : Z) (u : spec_float) : bool :=
  SFltb (fmul (dbl (w64 (end_ - t))) u) (dbl (w64 (n - m))).

(** The loop of uniform_index_sample(no_replacement, n, end, g) (random.hpp:76-82).
    [draws k] is the value of the k-th call of canon_sample; [fuel] bounds the number of
    iterations. *)
Fixpoint wo_loop (fuel : nat) (draws : nat -> spec_float) (k : nat) (n end_ t m : Z) (acc : list Z)
  : outcome (list Z * nat) :=
  if m <? n then
    match fuel with
    | O => Timeout
    | S fuel' =>
        if select n end_ t m (draws k)
        then wo_loop fuel' draws (S k) n end_ (w64 (t + 1)) (m + 1) (acc ++ [t])
        else wo_loop fuel' draws (S k) n end_ (w64 (t + 1)) m acc
    end
  else Ok (acc, k).

(** uniform_index_sample(no_replacement, n, end, g) (random.hpp:66-85): the contents of the
    returned const_vector and the number of draws.  std::vector<index_t>::reserve throws
    length_error (a logic_error) above 2^60 - 1 elements; failure to allocate is not
    modelled here. *)
Definition sample_without_replacement (fuel : nat) (draws : nat -> spec_float) (n end_ : Z)
  : outcome (list Z * nat) :=
  if 2 ^ 60 - 1 <? n then Throw LogicError else wo_loop fuel draws 0 n end_ 0 0 [].

(** sample(n, dist, g) (random.hpp:36-40): the next n values of the distribution, in order;
    [draws k] is the value of the k-th call of dist(g). *)
Definition sample_n {A} (draws : nat -> A) (n : Z) : list A := map draws (seq 0 (Z.to_nat n)).

(** uniform_index_sample(n, end, g) and uniform_index_sample(end, g) (random.hpp:54-64): a
    conforming uniform_int_distribution<index_t>(a, b) returns some value in [a, b] and
    requires a <= b; [pick k a b] is its k-th value. *)
Definition uniform_index (pick : Z -> Z -> Z) (end_ : Z) : Z := pick 0 (w64 (end_ - 1)).
Definition uniform_index_n (pick : nat -> Z -> Z -> Z) (n end_ : Z) : list Z :=
  sample_n (fun k => uniform_index (pick k) end_) n.
