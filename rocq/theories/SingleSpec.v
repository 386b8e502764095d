(** * SingleSpec: what sources that can be read only once deliver. *)

From Coq Require Import ZArith List.

Section Calls.
(** [call f]: the value a call of [f] returns, [None] if it throws, and the function object afterwards. *)
Context {F A : Type} (call : F -> option A * F).
(** The function object after [k] calls. *)
Fixpoint after (k : nat) (f : F) : F := match k with O => f | S k' => after k' (snd (call f)) end.
(** What call number [k] (the first is 0) returns. *)
Definition result (k : nat) (f : F) : option A := fst (call (after k f)).
End Calls.
