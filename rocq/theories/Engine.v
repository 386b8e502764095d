(** * Engine: sampling with the random engine made explicit (base/random.hpp).  Definitions only.

    Random.v describes a sample by the sequence of values drawn; here the engine and the distribution are objects with a state. *)

From Coq Require Import ZArith List Bool Floats.SpecFloat.
From Verif Require Import Base Coerce Random.
Import ListNotations.
Open Scope Z_scope.

Section Engine.
(** [G], [D]: states of an engine and of a distribution; [dist d g]: a call of [dist(g)], its value and the states after it. *)
Context {G D A : Type} (dist : D -> G -> A * (D * G)).

(** [sample(dist, g)] (random.hpp:34). *)
Definition sample1 (d : D) (g : G) : A * (D * G) := dist d g.

(** [ranges::views::generate_n([&] { return dist(g); }, n)] (random.hpp:38): how many elements are left, and the current element if
    it has been computed already. *)
Record gview : Type := GView { left_ : nat; cur : option A; gd : D; gg : G }.
(** Reading the current element computes it at most once; advancing skips it, computing it if nobody has. *)
Definition gread (v : gview) : A * gview :=
  match cur v with
  | Some x => (x, v)
  | None => let (x, s) := dist (gd v) (gg v) in (x, GView (left_ v) (Some x) (fst s) (snd s))
  end.
Definition gnext (v : gview) : gview :=
  match cur v with
  | Some _ => GView (pred (left_ v)) None (gd v) (gg v)
  | None => let (_, s) := dist (gd v) (gg v) in GView (pred (left_ v)) None (fst s) (snd s)
  end.
(** [std::vector(first, last)] with input iterators, through const_vector's constructor (random.hpp:39, const_vector.hpp:70-72):
    [for (; first != last; ++first) emplace_back( *first )].  (A vector of more than 2^60 elements is not considered.) *)
Fixpoint collect (fuel : nat) (v : gview) (acc : list A) : outcome (list A * gview) :=
  match left_ v with
  | O => Ok (acc, v)
  | S _ =>
      match fuel with
      | O => Timeout
      | S f => let (x, v1) := gread v in collect f (gnext v1) (acc ++ [x])
      end
  end.
(** [sample(n, dist, g)] (random.hpp:36-40): the elements, the distribution and the engine afterwards. *)
Definition sample_vec (fuel : nat) (n : Z) (d : D) (g : G) : outcome (list A * (D * G)) :=
  let* r := collect fuel (GView (Z.to_nat n) None d g) [] in Ok (fst r, (gd (snd r), gg (snd r))).

(** *** without replacement *)
(** [canon g]: a call of [canon_sample(g)] (random.hpp:29-32). *)
Context (canon : G -> spec_float * G).
(** The loop (random.hpp:76-82), as [wo_loop]. *)
Fixpoint wo_loop_g (fuel : nat) (g : G) (n end_ t m : Z) (acc : list Z) : outcome (list Z * G) :=
  if m <? n then
    match fuel with
    | O => Timeout
    | S f =>
        let (u, g') := canon g in
        if select n end_ t m u then wo_loop_g f g' n end_ (w64 (t + 1)) (m + 1) (acc ++ [t])
        else wo_loop_g f g' n end_ (w64 (t + 1)) m acc
    end
  else Ok (acc, g).
(** [uniform_index_sample(no_replacement, n, end, g)] (random.hpp:66-85). *)
Definition sample_wo (fuel : nat) (g : G) (n end_ : Z) : outcome (list Z * G) :=
  if 2 ^ 60 - 1 <? n then Throw LogicError else wo_loop_g fuel g n end_ 0 0 [].

(** *** specification *)
(** The first [n] values drawn one after the other, and the states after them. *)
Fixpoint draw_n (n : nat) (d : D) (g : G) : list A * (D * G) :=
  match n with
  | O => ([], (d, g))
  | S n' => let (x, s) := dist d g in let (l, s') := draw_n n' (fst s) (snd s) in (x :: l, s')
  end.
(** The engine after [k] calls of canon_sample, and the value of the next call. *)
Fixpoint engine_after (k : nat) (g : G) : G := match k with O => g | S k' => engine_after k' (snd (canon g)) end.
Definition nth_draw (g : G) (k : nat) : spec_float := fst (canon (engine_after k g)).
End Engine.
