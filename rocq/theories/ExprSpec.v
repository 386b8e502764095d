(** * ExprSpec: what element-wise expressions and assignments through views should mean. *)

From Coq Require Import ZArith List Bool.
From Verif Require Import Base Spec Desc Slice SliceSpec Expr.
Import ListNotations.
Open Scope Z_scope.

(** The subscript does not repeat an index (only an index range can). *)
Definition no_dup_arg (u : uarg) : Prop := match u with URange l => NoDup l | _ => True end.

Section ExprSpec.
Context {V : Type}.
Notation mem := (@mem V).
Notation expr := (@expr V).

(** The view [s] has extents [es] and its elements are, in column-major order, at the positions [ps]. *)
Definition is_view (fuel : nat) (s : st) (es ps : list Z) : Prop :=
  dims s = Some es /\ positions fuel s = Ok ps /\ es <> [] /\ all_nonneg es /\ zprod es < W /\ Z.of_nat (length ps) = zprod es.

(** All positions exist in storage [sid]. *)
Definition inside (m : mem) (sid : nat) (ps : list Z) : Prop :=
  exists c, nth_error m sid = Some c /\ Forall (fun p => 0 <= p < Z.of_nat (length c)) ps.

(** Element of a storage. *)
Definition cell (m : mem) (sid : nat) (p : Z) : option V :=
  match nth_error m sid with Some c => nth_error c (Z.to_nat p) | None => None end.

(** Well-formed expression with extents [es]: operands of a binary operation have equal extents.  No [drop_to] of an
    expression (its elements cannot be read, see [drops]); [drop_to] of a view is a view. *)
Inductive expr_ok (fuel : nat) (m : mem) : expr -> list Z -> Prop :=
| ok_leaf sid s es ps : is_view fuel s es ps -> inside m sid ps -> expr_ok fuel m (ELeaf sid s) es
| ok_un f e es : expr_ok fuel m e es -> expr_ok fuel m (EUn f e) es
| ok_left f c e es : expr_ok fuel m e es -> expr_ok fuel m (ELeft f c e) es
| ok_right f e c es : expr_ok fuel m e es -> expr_ok fuel m (ERight f e c) es
| ok_bin f e1 e2 es : expr_ok fuel m e1 es -> expr_ok fuel m e2 es -> expr_ok fuel m (EBin f e1 e2) es.

(** Expression whose extents are [es]: also [drop_to<D>] of an expression, which removes unit extents. *)
Inductive expr_shaped (fuel : nat) (m : mem) : expr -> list Z -> Prop :=
| sh_leaf sid s es ps : is_view fuel s es ps -> inside m sid ps -> expr_shaped fuel m (ELeaf sid s) es
| sh_un f e es : expr_shaped fuel m e es -> expr_shaped fuel m (EUn f e) es
| sh_left f c e es : expr_shaped fuel m e es -> expr_shaped fuel m (ELeft f c e) es
| sh_right f e c es : expr_shaped fuel m e es -> expr_shaped fuel m (ERight f e c) es
| sh_bin f e1 e2 es : expr_shaped fuel m e1 es -> expr_shaped fuel m e2 es -> expr_shaped fuel m (EBin f e1 e2) es
| sh_drop D e es es' : expr_shaped fuel m e es -> (forall sid s, e <> ELeaf sid s) -> drop_one_level_extents true D es = Ok es' -> es' <> [] ->
    expr_shaped fuel m (EDrop D e) es'.
(** Somewhere an expression is dropped. *)
Fixpoint drops (e : expr) : bool :=
  match e with
  | ELeaf _ _ => false
  | EUn _ e' | ELeft _ _ e' | ERight _ e' _ => drops e'
  | EBin _ e1 e2 => drops e1 || drops e2
  | EDrop _ _ => true
  end.

(** Somewhere in the expression a binary operation has operands of different extents, or [drop_to<D>] is asked to remove more
    unit extents than there are; everything evaluated before is well-formed. *)
Inductive expr_bad (fuel : nat) (m : mem) : expr -> Prop :=
| bad_here f e1 e2 es1 es2 : expr_shaped fuel m e1 es1 -> expr_shaped fuel m e2 es2 -> es1 <> es2 -> expr_bad fuel m (EBin f e1 e2)
| bad_drop D e es : expr_shaped fuel m e es -> (count_units es < length es - D)%nat -> expr_bad fuel m (EDrop D e)
| bad_un f e : expr_bad fuel m e -> expr_bad fuel m (EUn f e)
| bad_left f c e : expr_bad fuel m e -> expr_bad fuel m (ELeft f c e)
| bad_right f e c : expr_bad fuel m e -> expr_bad fuel m (ERight f e c)
| bad_in_drop D e : expr_bad fuel m e -> expr_bad fuel m (EDrop D e)
| bad_1 f e1 e2 : expr_bad fuel m e1 -> expr_bad fuel m (EBin f e1 e2)
| bad_2 f e1 e2 es : expr_shaped fuel m e1 es -> expr_bad fuel m e2 -> expr_bad fuel m (EBin f e1 e2).

(** Number of operations of an expression: 0 for a view, 1 for an operation on views, more when nested. *)
Fixpoint operations (e : expr) : nat :=
  match e with
  | ELeaf _ _ => 0
  | EUn _ e' | ELeft _ _ e' | ERight _ e' _ | EDrop _ e' => S (operations e')
  | EBin _ e1 e2 => S (operations e1 + operations e2)
  end.

(** Storage cells the k-th element (column-major) depends on, left to right. *)
Fixpoint reads (fuel : nat) (e : expr) (k : nat) : list (nat * Z) :=
  match e with
  | ELeaf sid s => match positions fuel s with Ok ps => match nth_error ps k with Some p => [(sid, p)] | None => [] end | _ => [] end
  | EUn _ e' | ELeft _ _ e' | ERight _ e' _ | EDrop _ e' => reads fuel e' k
  | EBin _ e1 e2 => reads fuel e1 k ++ reads fuel e2 k
  end.

(** Value of the k-th element: the function applied to the operands' k-th elements. *)
Definition lift1 (f : V -> V) (a : option V) : option V := match a with Some x => Some (f x) | None => None end.
Definition lift2 (f : V -> V -> V) (a b : option V) : option V := match a, b with Some x, Some y => Some (f x y) | _, _ => None end.
Fixpoint value (fuel : nat) (m : mem) (e : expr) (k : nat) : option V :=
  match e with
  | ELeaf sid s => match positions fuel s with Ok ps => match nth_error ps k with Some p => cell m sid p | None => None end | _ => None end
  | EUn f e' => lift1 f (value fuel m e' k)
  | ELeft f c e' => lift2 f (Some c) (value fuel m e' k)
  | ERight f e' c => lift2 f (value fuel m e' k) (Some c)
  | EBin f e1 e2 => lift2 f (value fuel m e1 k) (value fuel m e2 k)
  | EDrop _ e' => value fuel m e' k
  end.

(** [m'] differs from [m] at most in storage [sid], where position [ps_k] holds [v k] and all others are unchanged. *)
Definition written (m m' : mem) (sid : nat) (ps : list Z) (v : nat -> option V) : Prop :=
  length m' = length m /\
  (forall sid' c, nth_error m sid' = Some c -> exists c', nth_error m' sid' = Some c' /\ length c' = length c) /\
  (forall sid' p, 0 <= p -> (sid' <> sid \/ ~ In p ps) -> cell m' sid' p = cell m sid' p) /\
  (forall k p, nth_error ps k = Some p -> v k <> None /\ cell m' sid p = v k).

(** When element k is computed, none of the cells it depends on has been written for an earlier element. *)
Definition no_early_write (fuel : nat) (sid : nat) (ps : list Z) (e : expr) : Prop :=
  forall j k p, (j < k < length ps)%nat -> nth_error ps j = Some p -> ~ In (sid, p) (reads fuel e k).

(** The destination is not read at all. *)
Definition no_overlap (fuel : nat) (sid : nat) (ps : list Z) (e : expr) : Prop :=
  forall k p, (k < length ps)%nat -> In p ps -> ~ In (sid, p) (reads fuel e k).
(** Every operand reading the destination's storage either is at the same positions as the destination or at other ones only. *)
Fixpoint aligned (fuel : nat) (sid : nat) (ps : list Z) (e : expr) : Prop :=
  match e with
  | ELeaf sid' s => positions fuel s = Ok ps \/ sid' <> sid \/ (forall qs p, positions fuel s = Ok qs -> In p qs -> ~ In p ps)
  | EUn _ e' | ELeft _ _ e' | ERight _ e' _ | EDrop _ e' => aligned fuel sid ps e'
  | EBin _ e1 e2 => aligned fuel sid ps e1 /\ aligned fuel sid ps e2
  end.
End ExprSpec.
