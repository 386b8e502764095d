(** * RelativeSpec: what a relative index and a relative slice mean, in ordinary arithmetic. *)

From Coq Require Import ZArith List Bool.
From Verif Require Import Base Spec Slice SliceSpec Relative.
Import ListNotations.
Open Scope Z_scope.

(** The value of the expression for a dimension of extent [n]. *)
Fixpoint ival (r : rindex) (n : Z) : Z :=
  match r with
  | RSize => n
  | RMinus r v => ival r n - v
  | ROver r v => ival r n / v
  | RMake g => g n
  end.

(** No subtraction goes below zero, no division is by zero, the caller's functions return representable values. *)
Fixpoint ival_ok (r : rindex) (n : Z) : Prop :=
  match r with
  | RSize => True
  | RMinus r v => ival_ok r n /\ 0 <= v <= ival r n
  | ROver r v => ival_ok r n /\ 0 < v
  | RMake g => 0 <= g n < W
  end.

(** Only [size], subtractions and divisions. *)
Fixpoint from_size (r : rindex) : Prop :=
  match r with RSize => True | RMinus r _ | ROver r _ => from_size r | RMake _ => False end.

(** Some division is by zero. *)
Fixpoint div_zero (r : rindex) : Prop :=
  match r with RSize | RMake _ => False | RMinus r _ => div_zero r | ROver r v => v = 0 \/ div_zero r end.

(** The indices of a relative slice in a dimension of extent [e]. *)
Definition rel_sel (r : rslice) (e : Z) : list Z :=
  match r with
  | RelPlain u => sel u e
  | Rel s x => map (fun k => s + k) (iota (ival x e))
  | RelS s x t => map (fun k => s + k * t) (iota (ival x e))
  end.
Fixpoint rel_sels (rs : list rslice) (es : list Z) : list (list Z) :=
  match rs, es with
  | r :: rs', e :: es' => rel_sel r e :: rel_sels rs' es'
  | _, _ => []
  end.

(** It has at least one, all exist, and the stride is not longer than the dimension. *)
Definition rel_ok (r : rslice) (e : Z) : Prop :=
  match r with
  | RelPlain u => ok_arg u e
  | Rel s x => ival_ok x e /\ 0 <= s /\ 0 < ival x e /\ s + ival x e <= e
  | RelS s x t => ival_ok x e /\ 0 <= s /\ 0 < ival x e /\ 0 < t <= e /\ s + (ival x e - 1) * t < e
  end.
