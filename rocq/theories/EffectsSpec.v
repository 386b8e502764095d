(** * EffectsSpec: when the functions of an expression are called, and on what. *)

From Coq Require Import ZArith List Bool.
From Verif Require Import Base Spec Desc Slice SliceSpec Expr ExprSpec ExprSeq Reduce RangeLoop Effects.
Import ListNotations.
Open Scope Z_scope.

Section EffectsSpec.
Context {V St : Type}.
Notation mem := (@mem V).
Notation world := (world V St).
Notation eexpr := (eexpr V St).

(** The functions neither destroy nor resize arrays. *)
Definition keeps1 (f : fun1 V St) : Prop := forall a m s, map (@length V) (fst (snd (f a (m, s)))) = map (@length V) m.
Definition keeps2 (f : fun2 V St) : Prop := forall a b m s, map (@length V) (fst (snd (f a b (m, s)))) = map (@length V) m.

(** Well-formed expression with extents [es] over the arrays of [m]. *)
Inductive eexpr_ok (fuel : nat) (m : mem) : eexpr -> list Z -> Prop :=
| eok_leaf sid s es ps : is_view fuel s es ps -> inside m sid ps -> eexpr_ok fuel m (QLeaf sid s) es
| eok_un f e es : keeps1 f -> eexpr_ok fuel m e es -> eexpr_ok fuel m (QUn f e) es
| eok_bin lf f e1 e2 es : keeps2 f -> eexpr_ok fuel m e1 es -> eexpr_ok fuel m e2 es -> eexpr_ok fuel m (QBin lf f e1 e2) es.

(** The k-th element of an operand in the world [w]: [r] is the result of the operand's function; without one the operand is a
    view, and its element is looked up in [w]. *)
Definition operand (fuel : nat) (e : eexpr) (k : nat) (r : option V) (w : world) : option V :=
  match r, e with
  | Some v, _ => Some v
  | None, QLeaf sid s => match positions fuel s with Ok ps => match nth_error ps k with Some p => cell (fst w) sid p | None => None end | _ => None end
  | None, _ => None
  end.

(** The calls made for the k-th element: every function of the expression once, after those of its operands, whose elements are
    looked up when it is called.  The result of the outermost function (none for a view), and the world after the calls. *)
Fixpoint calls (fuel : nat) (e : eexpr) (k : nat) (w : world) : option (option V * world) :=
  match e with
  | QLeaf _ _ => Some (None, w)
  | QUn f e' =>
      match calls fuel e' k w with
      | Some (r, w') => match operand fuel e' k r w' with Some a => Some (Some (fst (f a w')), snd (f a w')) | None => None end
      | None => None
      end
  | QBin lf f e1 e2 =>
      let call r1 r2 w' := match operand fuel e1 k r1 w', operand fuel e2 k r2 w' with
                           | Some a, Some b => Some (Some (fst (f a b w')), snd (f a b w'))
                           | _, _ => None
                           end in
      if lf then match calls fuel e1 k w with
                 | Some (r1, w1) => match calls fuel e2 k w1 with Some (r2, w2) => call r1 r2 w2 | None => None end
                 | None => None
                 end
      else match calls fuel e2 k w with
           | Some (r2, w1) => match calls fuel e1 k w1 with Some (r1, w2) => call r1 r2 w2 | None => None end
           | None => None
           end
  end.
Definition element (fuel : nat) (e : eexpr) (k : nat) (w : world) : option (V * world) :=
  match calls fuel e k w with
  | Some (r, w') => match operand fuel e k r w' with Some v => Some (v, w') | None => None end
  | None => None
  end.

(** The elements number [k], [k+1], ..., one after the other. *)
Fixpoint one_by_one (fuel : nat) (e : eexpr) (k n : nat) (w : world) : option (list V * world) :=
  match n with
  | O => Some ([], w)
  | S n' => match element fuel e k w with
            | Some (v, w') => match one_by_one fuel e (S k) n' w' with Some (vs, w'') => Some (v :: vs, w'') | None => None end
            | None => None
            end
  end.

(** One write per position, in order: [g] computes the value of the k-th one and the world it leaves, in which the value is then written. *)
Fixpoint writes_in_order (sid : nat) (g : nat -> Z -> world -> option (V * world)) (k : nat) (ps : list Z) (w : world) : option world :=
  match ps with
  | [] => Some w
  | p :: ps' => match g k p w with
                | Some (v, w') => writes_in_order sid g (S k) ps' (set_cell (fst w') sid p v, snd w')
                | None => None
                end
  end.

(** A loop over the elements from number [k] on: [body] gets each element as it is computed, and may return at once. *)
Fixpoint over_elements {S R} (body : S -> V -> outcome (RangeLoop.step S R)) (fin : S -> R) (fuel : nat) (e : eexpr) (k n : nat) (s : S) (w : world)
  : option (outcome (R * world)) :=
  match n with
  | O => Some (Ok (fin s, w))
  | Datatypes.S n' =>
      match element fuel e k w with
      | None => None
      | Some (v, w') =>
          match body s v with
          | Ok (RangeLoop.Ret x) => Some (Ok (x, w'))
          | Ok (RangeLoop.Go s') => over_elements body fin fuel e (Datatypes.S k) n' s' w'
          | o => Some (bindO o (fun _ => UB))
          end
      end
  end.

(** [op] on the element at [p]. *)
Definition on_element (sid : nat) (op : fun1 V St) (k : nat) (p : Z) (w : world) : option (V * world) :=
  match cell (fst w) sid p with Some a => Some (op a w) | None => None end.
(** The calls of the right operand are made, then [op] is called on the element at [p] and the operand. *)
Definition on_elements (fuel : nat) (sid : nat) (op : fun2 V St) (e : eexpr) (k : nat) (p : Z) (w : world) : option (V * world) :=
  match calls fuel e k w with
  | Some (r, w') => match cell (fst w') sid p, operand fuel e k r w' with Some a, Some b => Some (op a b w') | _, _ => None end
  | None => None
  end.

(** A search: each element in turn is computed and compared, and one that is better is computed once more to be kept. *)
Fixpoint best_elements (better : V -> V -> bool) (fuel : nat) (e : eexpr) (k n : nat) (start : V) (best : nat) (w : world) : option (V * nat * world) :=
  match n with
  | O => Some (start, best, w)
  | S n' =>
      match element fuel e k w with
      | None => None
      | Some (v, w1) =>
          if better start v
          then match element fuel e k w1 with Some (v', w2) => best_elements better fuel e (S k) n' v' k w2 | None => None end
          else best_elements better fuel e (S k) n' start best w1
      end
  end.

(** [f a] for each of the values in turn, with a state of its own. *)
Fixpoint threaded (f : V -> St -> V * St) (vs : list V) (s : St) : list V * St :=
  match vs with
  | [] => ([], s)
  | v :: vs' => let (r, s') := f v s in let (rs, s'') := threaded f vs' s' in (r :: rs, s'')
  end.
(** A function with a state of its own (a counter, a random number generator), as a function of the world. *)
Definition stateful (f : V -> St -> V * St) : fun1 V St := fun a w => let (r, s') := f a (snd w) in (r, (fst w, s')).
End EffectsSpec.

(** *** expressions whose functions record their calls *)
Section Recorded.
Context {V : Type}.
(** A place in an expression: the way to it from the outermost operation ([true]: into the left, or only, operand). *)
Definition place : Type := list bool.
Definition record : Type := (place * list V)%type.

(** The expression [e] (Expr.v), each function recording its place and arguments.  [lf] decides the order of evaluation of each binary operation. *)
Fixpoint recording (lf : place -> bool) (q : place) (e : @expr V) : eexpr V (list record) :=
  match e with
  | ELeaf sid s => QLeaf sid s
  | EUn f e' => QUn (fun a w => (f a, (fst w, snd w ++ [(q, [a])]))) (recording lf (q ++ [true]) e')
  | ELeft f c e' => QUn (fun a w => (f c a, (fst w, snd w ++ [(q, [a])]))) (recording lf (q ++ [true]) e')
  | ERight f e' c => QUn (fun a w => (f a c, (fst w, snd w ++ [(q, [a])]))) (recording lf (q ++ [true]) e')
  | EBin f e1 e2 => QBin (lf q) (fun a b w => (f a b, (fst w, snd w ++ [(q, [a; b])]))) (recording lf (q ++ [true]) e1) (recording lf (q ++ [false]) e2)
  | EDrop _ e' => recording lf (q ++ [true]) e'
  end.

(** The operands of the operation at a place. *)
Fixpoint operands_at (e : @expr V) (q : place) : option (list (@expr V)) :=
  match e, q with
  | ELeaf _ _, _ => None
  | EUn _ e', [] | ELeft _ _ e', [] | ERight _ e' _, [] => Some [e']
  | EBin _ e1 e2, [] => Some [e1; e2]
  | EUn _ e', true :: q' | ELeft _ _ e', true :: q' | ERight _ e' _, true :: q' => operands_at e' q'
  | EBin _ e1 e2, b :: q' => operands_at (if b then e1 else e2) q'
  | _, _ => None
  end.

(** The calls [l] recorded for the k-th element: each function of the expression once, with the k-th elements of its operands in
    the memory [m] as arguments, after the functions within its operands. *)
Definition pass (fuel : nat) (e : @expr V) (m : @mem V) (k : nat) (l : list record) : Prop :=
  NoDup (map fst l) /\
  (forall q args, In (q, args) l <-> exists ops, operands_at e q = Some ops /\ map Some args = map (fun o => value fuel m o k) ops) /\
  (forall i j q q', nth_error (map fst l) i = Some q -> nth_error (map fst l) j = Some (q ++ q') -> q' <> [] -> (j < i)%nat).
(** The log: one pass for each of [ks] in turn, the memory being as given at the start of each. *)
Definition passes (fuel : nat) (e : @expr V) (ks : list (@mem V * nat)) (log : list record) : Prop :=
  exists ls, log = concat ls /\ Forall2 (fun mk l => pass fuel e (fst mk) (snd mk) l) ks ls.
(** Element [k] is better than [start] and all elements before it. *)
Definition improves (better : V -> V -> bool) (start : V) (vs : list V) (k : nat) : bool :=
  match nth_error vs k with Some v => better (max_loop better (firstn k vs) start) v | None => false end.
End Recorded.
