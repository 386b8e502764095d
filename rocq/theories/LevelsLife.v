(** * LevelsLife: programs over arrays and builders in the builds with some of the checks.  Definitions only.

    See Levels.v for the levels.  Every function of Life.v has checks of one level only, so the level of an operation decides. *)

From Coq Require Import ZArith List Bool Arith.
From Verif Require Import Base Life.
Import ListNotations.

(** Levels (core/debug.hpp:21-28) of the checks made by an operation: initializer lists [boundary_check] = 3 (array/array.hpp:397, 406); self move assignment and
    [reshape] [invalid_argument] = 2 (array/array.hpp:310, 444), builders [invalid_state] = 2 (array/builder.hpp:51, 58, 65, 74).  The others make no check. *)
Definition op_level {V} (o : @op V) : nat := match o with OList _ _ _ => 3 | _ => 2 end.

(** One operation in a build with [JULES_DEBUG_LEVEL] = L (core/debug.hpp:31). *)
Definition l_step {V} (thr : nat -> bool) (nt ns : bool) (L : nat) (o : @op V) (ws : world * store) : res unit * (world * store) :=
  step thr nt ns (Nat.leb (op_level o) L) o ws.

(** A program, as [runs] (Life.v). *)
Fixpoint l_runs {V} (thr : nat -> bool) (nt ns : bool) (L : nat) (p : @prog V) (ws : world * store) : res (list bool) * (world * store) :=
  match p with
  | PEnd => (ROk [], ws)
  | PDo o p1 p2 =>
      let log (t : bool) (r : res (list bool) * (world * store)) :=
        match r with
        | (ROk l, ws'') => (ROk (t :: l), ws'')
        | r => r
        end in
      match l_step thr nt ns L o ws with
      | (ROk _, ws') => log false (l_runs thr nt ns L p1 ws')
      | (RThrow, ws') => log true (l_runs thr nt ns L p2 ws')
      | (RAbort, ws') => (RAbort, ws')
      | (RUB, ws') => (RUB, ws')
      | (RTerm, ws') => (RTerm, ws')
      end
  end.
