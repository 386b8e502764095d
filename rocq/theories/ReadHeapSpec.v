(** * ReadHeapSpec: reading on the values of variables, and programs that read. *)

From Coq Require Import ZArith Bool Ascii List.
From Verif Require Import Base Coerce Frame FrameSpec ColHeap ColHeapSpec Export ExportSpec ReadHeap.
Import ListNotations.

Section Values.
Variable rs : rules.
Variable ex : exn.
Variable left_in : text -> text.

(** The meaning of a command when nothing fails, in terms of Frame.v: [read] for a new variable, or instead of the value of a variable. *)
Definition ayexec (y : yop) (a : avals) : avals * outcome xval :=
  let finish o f := match o with
                    | Ok d => (f d, Ok VUnit) | Throw e => (a, Throw e) | Abort => (a, Abort) | UB => (a, UB) | Timeout => (a, Timeout) end in
  match y with
  | YOp x => axexec rs left_in x a
  | YRead _ header lsep csep t => finish (read header lsep csep t) (addf a)
  | YExtract _ t f => match adf a f with Some _ => finish (read true is_nl is_tab t) (setf a f) | None => (a, UB) end
  end.
(** What may be left when one of its operations fails: reading changes nothing. *)
Definition yfail (y : yop) (a : avals) (r : outcome xval) (a' : avals) : Prop :=
  match y with
  | YOp x => xfail rs ex left_in x a r a'
  | YRead _ _ _ _ _ | YExtract _ _ _ => r = Throw ex /\ a' = a
  end.
Definition ydefined (y : yop) (a : avals) : Prop :=
  (exists v, snd (ayexec y a) = Ok v) \/ exists e, snd (ayexec y a) = Throw e.
End Values.

(** States of programs; exceptions are caught and the program goes on. *)
Inductive yreach (rs : rules) (ex : exn) (thr : nat -> bool) (left_in : text -> text) : world -> Prop :=
| yreach_init : yreach rs ex thr left_in kinit
| yreach_step w a y r w1 : yreach rs ex thr left_in w -> agrees a w -> ydefined rs left_in y a ->
    yexec rs ex thr left_in y w = (r, w1) -> yreach rs ex thr left_in w1.
