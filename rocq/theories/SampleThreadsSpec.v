(** * SampleThreadsSpec: what the samples of several threads should be. *)

From Coq Require Import ZArith List Bool.
From Verif Require Import Base SampleThreads.
Import ListNotations.
Open Scope Z_scope.

(** [n] outputs of an engine, from position [p] on. *)
Definition window (out : Z -> nat -> Z) (sd : Z) (p n : nat) : list Z := map (out sd) (seq p n).

(** [o] is the result of call [c] when it draws exactly the outputs [l]: it has that result on them, and had asked for more on any shorter part. *)
Definition results_in (c : scall) (l : list Z) (o : outcome sval) : Prop :=
  match o with
  | Ok v => perform c l = Ok (v, [])
  | Throw e => perform c l = Throw e
  | Abort => perform c l = Abort
  | UB => perform c l = UB
  | Timeout => False
  end
  /\ forall m, (m < length l)%nat -> perform c (firstn m l) = Timeout.

(** What was done with one engine, one after the other: every call draws the outputs that follow those of the calls before it, from the seed
    in force.  [sd], [p]: the seed and the position at the beginning, [sd'], [p']: at the end. *)
Inductive one_after_the_other (out : Z -> nat -> Z) : Z -> nat -> list (item * outcome sval) -> Z -> nat -> Prop :=
| done_nothing sd p : one_after_the_other out sd p [] sd p
| done_call sd p w c n o l sd' p' : results_in c (window out sd p n) o -> one_after_the_other out sd (p + n) l sd' p' ->
    one_after_the_other out sd p ((Sample w c, o) :: l) sd' p'
| done_seed sd p w s l sd' p' : one_after_the_other out s 0 l sd' p' -> one_after_the_other out sd p ((Seed w s, Ok VNone) :: l) sd' p'.

(** Of what was done: with engine [e]; by thread [t]. *)
Definition with_engine (e : eng) (log : list (nat * item * outcome sval)) : list (item * outcome sval) :=
  map (fun x => (snd (fst x), snd x)) (filter (fun x => eng_eqb (on (fst (fst x)) (snd (fst x))) e) log).
Definition by_thread (t : nat) (log : list (nat * item * outcome sval)) : list (item * outcome sval) :=
  map (fun x => (snd (fst x), snd x)) (filter (fun x => Nat.eqb (fst (fst x)) t) log).

(** No engine object is used by two threads, unless always with its mutex. *)
Definition not_shared (progs : nat -> list item) : Prop :=
  forall k,
    (forall t t' i i', In i (progs t) -> In i' (progs t') -> on t i = EObject k -> on t' i' = EObject k -> t = t')
    \/ (forall t i, In i (progs t) -> on t i = EObject k -> place_of i = Guarded k).
