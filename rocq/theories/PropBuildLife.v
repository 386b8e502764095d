(** * PropBuildLife: property C61 for programs over arrays and builders.

    [same_or_stopsS] (BuildsLife.v): the unchecked build never ends at a failed check; the checked build ends at a failed check, or the result
    and the final memory and variables are the same. *)

From Coq Require Import ZArith List Bool Lia Arith.
From Verif Require Import Base Desc Life LifeSpec BuildsLife PropLife.
Import ListNotations.
Open Scope Z_scope.

(** Every program, from every state, whichever operations throw. *)
Theorem C61_programs : forall (V : Type) (thr : nat -> bool) nt ns (p : @prog V) ws,
  same_or_stopsS (runs thr nt ns true p ws) (runs thr nt ns false p ws).
Proof. intros. apply soS_runs. Qed.
Print Assumptions C61_programs.

(** So a program that runs to its end in a checked build runs the same way in an unchecked one. *)
Theorem C61_tested_programs : forall (V : Type) (thr : nat -> bool) nt ns (p : @prog V) ws log ws',
  runs thr nt ns true p ws = (ROk log, ws') -> runs thr nt ns false p ws = (ROk log, ws').
Proof. intros V thr nt ns p ws log ws' H. destruct (C61_programs V thr nt ns p ws) as [_ [A|A]]; rewrite H in A; [discriminate|auto]. Qed.
Print Assumptions C61_tested_programs.

(** An incomplete builder, and a ragged list: the checked build stops, the unchecked one makes the array. *)
Example C61_programs_ex :
  let p := pseq [OBuilder 0 [2]; OPush 0 false 5; OFinish 1 0] PEnd in
  let q := pseq [OList 0 2 ([[1; 2]; [3; 4; 5]] : nested 2)] PEnd in
  let go chk p := runs (fun _ => false) true true chk p (World [] 0, repeat None 2) in
  fst (go true p) = RAbort /\ go false p = (ROk [false; false; false], (World [Some [Some 5; None]] 2, [Some (OBld (Bld None [2] 0)); Some (OArr (Arr (Some 0%nat) [2]))])) /\
  fst (go true q) = RAbort /\ fst (go false q) = ROk [false] /\
  go true (pseq demo PEnd) = go false (pseq demo PEnd).
Proof. repeat split; vm_compute; reflexivity. Qed.
