(** * RandomUniSpec: what it means that sampling without replacement is uniform. *)

From Coq Require Import ZArith List Bool Floats.SpecFloat Reals.
From Verif Require Import Base Coerce Random RandomSpec StatsSpec.
Import ListNotations.

(** All sequences of [m] numbers below [K]. *)
Fixpoint tuples (K m : nat) : list (list nat) :=
  match m with
  | O => [[]]
  | S m' => flat_map (fun j => map (cons j) (tuples K m')) (seq 0 K)
  end.

(** The call returned the indices [l]. *)
Definition returned (o : outcome (list Z * nat)) (l : list Z) : bool :=
  match o with Ok (r, _) => if list_eq_dec Z.eq_dec r l then true else false | _ => false end.

(** Random draws: the generator has [K] equally likely states per draw, state [j] gives the double [d j].  The number of sequences of
    states for which uniform_index_sample(no_replacement, n, end) returns [l], and the probability of [l]. *)
Definition favourable (K : nat) (d : nat -> spec_float) (n end_ : Z) (l : list Z) : nat :=
  length (filter (fun js => returned (sample_without_replacement (Z.to_nat end_) (fun k => d (nth k js 0%nat)) n end_) l) (tuples K (Z.to_nat end_))).
Definition probability (K : nat) (d : nat -> spec_float) (n end_ : Z) (l : list Z) : R :=
  (INR (favourable K d n end_ l) / INR K ^ (Z.to_nat end_))%R.

(** The index [x] is among the ones returned; the probability of that. *)
Definition included (o : outcome (list Z * nat)) (x : Z) : bool :=
  match o with Ok (r, _) => existsb (Z.eqb x) r | _ => false end.
Definition inclusion (K : nat) (d : nat -> spec_float) (n end_ x : Z) : R :=
  (INR (length (filter (fun js => included (sample_without_replacement (Z.to_nat end_) (fun k => d (nth k js 0%nat)) n end_) x) (tuples K (Z.to_nat end_))))
   / INR K ^ (Z.to_nat end_))%R.

(** The draws are doubles in [0, 1), evenly spread up to [delta]. *)
Definition even_draws (K : nat) (d : nat -> spec_float) (delta : R) : Prop :=
  (2 ^ 53 <= INR K)%R /\ forall j, (j < K)%nat -> unit_double (d j) /\ (Rabs (dval (d j) - INR j / INR K) <= delta)%R.
