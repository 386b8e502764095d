(** * ExportSpec: to_vector, to_matrix, write and head on the values of variables, and programs that use them. *)

From Coq Require Import ZArith Bool List.
From Verif Require Import Base Coerce Frame FrameSpec ColHeap ColHeapSpec Export.
Import ListNotations.
Open Scope Z_scope.
Open Scope list_scope.

Section Values.
Variable rs : rules.
Variable ex : exn.
Variable left_in : text -> text.

(** [to_vector<T>(std::move(column))]: the column holds elements of type [t] that have been moved from. *)
Definition to_vector_move (t : ty) (c : column) : column * outcome (list cell) :=
  let '(c', o) := to_view rs t c in
  match o with
  | Ok l => (Some (mkModel t (map (moved left_in) l)), Ok l)
  | _ => (c', o)
  end.

(** The meaning of a command when nothing fails, in terms of Frame.v. *)
Definition axexec (x : xop) (a : avals) : avals * outcome xval :=
  match x with
  | XCmd c => let '(a', o) := aexec rs c a in (a', let* _ := o in Ok VUnit)
  | XVec t y => match acol a y with Some c => (a, let* l := to_vector rs t c in Ok (VVec l)) | None => (a, UB) end
  | XVecMove t y =>
      match acol a y with
      | Some c => let '(c', o) := to_vector_move t c in (setc a y c', let* l := o in Ok (VVec l))
      | None => (a, UB)
      end
  | XMat t f => match adf a f with Some d => (a, let* m := to_matrix rs t d in Ok (VMat m)) | None => (a, UB) end
  | XWrite header ls cs f =>
      match adf a f with
      | Some d =>
          match write rs header ls cs d with
          | (s, Ok _) => (a, Ok (VText s (Ok tt)))
          | (s, Throw e) => (a, Ok (VText s (Throw e)))
          | (_, Abort) => (a, Abort) | (_, UB) => (a, UB) | (_, Timeout) => (a, Timeout)
          end
      | None => (a, UB)
      end
  | XHead n g =>
      match adf a g with
      | Some d => match head n d with Ok d' => (addf a d', Ok VUnit) | Throw e => (a, Throw e)
                  | Abort => (a, Abort) | UB => (a, UB) | Timeout => (a, Timeout) end
      | None => (a, UB)
      end
  end.

(** What a command may leave behind, and return, when one of its operations fails. *)
Definition xfail (x : xop) (a : avals) (r : outcome xval) (a' : avals) : Prop :=
  match x with
  | XCmd c => r = Throw ex /\ afail c a a'
  | XVec _ _ | XMat _ _ | XHead _ _ => r = Throw ex /\ a' = a
  | XVecMove t y =>                                 (* the column is as before, or coerced, and its first k elements have been moved from *)
      r = Throw ex /\
      (a' = a \/ exists c l k, acol a y = Some c /\ snd (to_view rs t c) = Ok l /\
                 a' = setc a y (Some (mkModel t (map (moved left_in) (firstn k l) ++ skipn k l))))
  | XWrite header ls cs f =>                        (* a part of the text has been written *)
      a' = a /\ exists d s s', adf a f = Some d /\ fst (write rs header ls cs d) = s ++ s' /\ r = Ok (VText s (Throw ex))
  end.

Definition xdefined (x : xop) (a : avals) : Prop :=
  (exists v, snd (axexec x a) = Ok v) \/ exists e, snd (axexec x a) = Throw e.
End Values.

(** States of programs that also use these functions; exceptions are caught and the program goes on. *)
Inductive xreach (rs : rules) (ex : exn) (thr : nat -> bool) (left_in : text -> text) : world -> Prop :=
| xreach_init : xreach rs ex thr left_in kinit
| xreach_step w a x r w1 : xreach rs ex thr left_in w -> agrees a w -> xdefined rs left_in x a ->
    xexec rs ex thr left_in x w = (r, w1) -> xreach rs ex thr left_in w1.
