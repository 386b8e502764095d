(** * SampleThreads: samples drawn by several threads (base/random.hpp).  Definitions only.

    [static thread_local auto random_engine] (random.hpp:27), in a header: every thread has an engine of its own in every
    translation unit, and it is the default argument of all the functions.  A thread may instead give an engine object, which
    other threads may give as well, with or without a mutex locked during the call.

    The functions of Dist.v return Timeout when the outputs that they are given are used up: a call in progress is the list of the outputs
    it has drawn so far, and it draws another one as long as the function says Timeout.  Drawing an output, and seeding, take two steps, the
    beginning and the end of the access to the engine; an access that begins while another one to the same engine goes on is a
    data race, undefined behaviour.  (Sequentially consistent interleaving otherwise, as in Threads.v.) *)

From Coq Require Import ZArith List Bool Floats.SpecFloat.
From Verif Require Import Base Coerce Random Stats Dist.
Import ListNotations.
Open Scope Z_scope.

(** [uniform_index_sample(no_replacement, n, end, g)] (random.hpp:66-85) as a function of the outputs of the engine, with the loop of l.76-82
    ([wo_loop] of Random.v); every round draws, so that the fuel does not matter. *)
Fixpoint wo_list (fuel : nat) (n end_ t m : Z) (acc : list Z) (l : list Z) : outcome (list Z * list Z) :=
  if m <? n then
    match fuel with
    | O => Timeout
    | S f =>
        let* r := canonical l in
        if select n end_ t m (fst r) then wo_list f n end_ (w64 (t + 1)) (m + 1) (acc ++ [t]) (snd r)
        else wo_list f n end_ (w64 (t + 1)) m acc (snd r)
    end
  else Ok (acc, l).
Definition without (n end_ : Z) (l : list Z) : outcome (list Z * list Z) :=
  if 2 ^ 60 - 1 <? n then Throw LogicError else wo_list (S (length l)) n end_ 0 0 [] l.

(** The calls (random.hpp:29-103), and the values they return. *)
Inductive scall : Type :=
| Canon                                          (* canon_sample(g): l.29-32 *)
| Bernoulli (p : spec_float)                     (* bernoulli_sample(p, g): l.48-52 *)
| Bernoullis (n : Z) (p : spec_float)            (* bernoulli_sample(n, p, g): l.42-46 *)
| Uniform (end_ : Z)                             (* uniform_index_sample(end, g): l.60-64 *)
| Uniforms (n end_ : Z)                          (* uniform_index_sample(n, end, g): l.54-58 *)
| Without (n end_ : Z)                           (* uniform_index_sample(no_replacement, n, end, g): l.66-85 *)
| Discrete (w : list spec_float)                 (* discrete_index_sample(rng, g): l.96-103 *)
| Discretes (n : Z) (w : list spec_float)        (* discrete_index_sample(n, rng, g): l.87-94 *).
Inductive sval : Type := VReal (x : spec_float) | VBit (b : bool) | VBits (l : list bool) | VIdx (i : Z) | VIdxs (l : list Z) | VNone.

(** A call on a list of outputs. *)
Definition tag {A} (f : A -> sval) (r : outcome (A * list Z)) : outcome (sval * list Z) := let* x := r in Ok (f (fst x), snd x).
Definition perform (c : scall) (l : list Z) : outcome (sval * list Z) :=
  match c with
  | Canon => tag VReal (canonical l)
  | Bernoulli p => tag VBit (bernoulli_sample p l)
  | Bernoullis n p => tag VBits (bernoulli_samples n p l)
  | Uniform e => tag VIdx (uniform_index_sample e l)
  | Uniforms n e => tag VIdxs (uniform_index_samples n e l)
  | Without n e => tag VIdxs (without n e l)
  | Discrete w => tag VIdx (discrete_index_sample w l)
  | Discretes n w => tag VIdxs (discrete_index_samples n w l)
  end.

(** The engines: [random_engine] of thread [t] in translation unit [u] (random.hpp:27), and other engine objects. *)
Inductive eng : Type := EDefault (t u : nat) | EObject (k : nat).
Definition eng_eqb (a b : eng) : bool :=
  match a, b with
  | EDefault t u, EDefault t' u' => Nat.eqb t t' && Nat.eqb u u'
  | EObject k, EObject k' => Nat.eqb k k'
  | _, _ => false
  end.
(** The engine of a call: the default argument, in translation unit [u]; an object; an object whose mutex is locked during the call. *)
Inductive place : Type := Here (u : nat) | Given (k : nat) | Guarded (k : nat).
Definition engine_of (t : nat) (w : place) : eng := match w with Here u => EDefault t u | Given k | Guarded k => EObject k end.

(** What a thread does: a call; [g.seed(s)]. *)
Inductive item : Type := Sample (w : place) (c : scall) | Seed (w : place) (s : Z).
Definition place_of (i : item) : place := match i with Sample w _ | Seed w _ => w end.
Definition on (t : nat) (i : item) : eng := engine_of t (place_of i).

(** The outputs of an engine seeded with [s]. *)
Section Run.
Variable out : Z -> nat -> Z.

(** What the threads have left to do; what the call in progress of each thread has drawn; the engines (seed, and outputs used since);
    which thread accesses an engine; which thread holds a mutex; what was done, in the order of its end. *)
Record sst : Type := Sst {
  todo : nat -> list item;
  drawn : nat -> list Z;
  engs : eng -> Z * nat;
  busy : eng -> option nat;
  lock : nat -> option nat;
  log : list (nat * item * outcome sval) }.

Definition upd1 {A} (f : nat -> A) (t : nat) (x : A) : nat -> A := fun u => if Nat.eqb u t then x else f u.
Definition updE {A} (f : eng -> A) (e : eng) (x : A) : eng -> A := fun u => if eng_eqb u e then x else f u.

(** The end of a call: its result is noted, and the mutex unlocked. *)
Definition finish (t : nat) (i : item) (rest : list item) (o : outcome sval) (s : sst) : sst :=
  Sst (upd1 (todo s) t rest) (upd1 (drawn s) t []) (engs s) (busy s)
      (match place_of i with Guarded k => upd1 (lock s) k None | _ => lock s end) (log s ++ [(t, i, o)]).
(** Whether thread [t] has to lock the mutex first. *)
Definition unlocked (t : nat) (i : item) (s : sst) : bool :=
  match place_of i with
  | Guarded k => match lock s k with Some u => negb (Nat.eqb u t) | None => true end
  | _ => false
  end.
(** An access begins. *)
Definition begin_access (t : nat) (e : eng) (s : sst) : outcome sst :=
  match busy s e with
  | None => Ok (Sst (todo s) (drawn s) (engs s) (updE (busy s) e (Some t)) (lock s) (log s))
  | Some _ => UB
  end.
Definition value_of (r : outcome (sval * list Z)) : outcome sval := let* x := r in Ok (fst x).

(** One step of thread [t]; [None]: it has nothing to do, or waits for a mutex. *)
Definition sstep (t : nat) (s : sst) : option (outcome sst) :=
  match todo s t with
  | [] => None
  | i :: rest =>
      let e := on t i in
      if unlocked t i s then
        match place_of i with
        | Guarded k =>
            match lock s k with
            | None => Some (Ok (Sst (todo s) (drawn s) (engs s) (busy s) (upd1 (lock s) k (Some t)) (log s)))
            | Some _ => None
            end
        | _ => None
        end
      else
        let inside := match busy s e with Some u => Nat.eqb u t | None => false end in
        match i with
        | Sample w c =>
            if inside then
              let (sd, p) := engs s e in
              Some (Ok (Sst (todo s) (upd1 (drawn s) t (drawn s t ++ [out sd p])) (updE (engs s) e (sd, S p)) (updE (busy s) e None) (lock s) (log s)))
            else
              match perform c (drawn s t) with
              | Timeout => Some (begin_access t e s)
              | r => Some (Ok (finish t i rest (value_of r) s))
              end
        | Seed w sd =>
            if inside then
              Some (Ok (finish t i rest (Ok VNone) (Sst (todo s) (drawn s) (updE (engs s) e (sd, 0%nat)) (updE (busy s) e None) (lock s) (log s))))
            else Some (begin_access t e s)
        end
  end.

(** A schedule: which thread takes the next step; one that cannot waits. *)
Fixpoint srun (sch : list nat) (s : sst) : outcome sst :=
  match sch with
  | [] => Ok s
  | t :: sch' => match sstep t s with Some (Ok s') => srun sch' s' | Some r => r | None => srun sch' s end
  end.

(** The beginning: the programs of the threads, and the seeds of the engines (of the default ones: std::random_device{}(), random.hpp:25). *)
Definition sinit (progs : nat -> list item) (seeds : eng -> Z) : sst :=
  Sst progs (fun _ => []) (fun e => (seeds e, 0%nat)) (fun _ => None) (fun _ => None) [].
End Run.
