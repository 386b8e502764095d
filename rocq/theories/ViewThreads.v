(** * ViewThreads: threads that work on the elements of shared arrays through views.  Model and specification.

    A thread runs a list of statements: assignments through views, in-place operations, filling, evaluation of expressions.  A step of a thread is one
    access to one element, a read or a write, and the steps of the threads are interleaved in any way.  Elements are distinct memory locations
    (array/ref_array.hpp: a [T*]).  Views, iterators and expression objects belong to the thread that made them; sharing the index list of a view between
    threads is the subject of Threads.v.  The operands of an operator are read left to right (C++ leaves the order open). *)

From Coq Require Import ZArith List Bool.
From Verif Require Import Base Spec Desc Slice SliceSpec Expr ExprSpec.
Import ListNotations.
Open Scope Z_scope.

Section Model.
Context {V : Type}.
Notation mem := (@mem V).
Notation expr := (@expr V).
Notation heap := (@heap V).

(** What a thread still has to do: the next access and what follows it; [Done]: finished, with the values it has computed.  [Fail]: the
    program has stopped or its behaviour is undefined. *)
Inductive prog : Type :=
| Done (out : list V)
| Fail
| Get (sid : nat) (p : Z) (k : V -> prog)
| Put (sid : nat) (p : Z) (v : V) (k : prog).

Definition guard {A} (o : outcome A) (k : A -> prog) : prog := match o with Ok a => k a | _ => Fail end.

(** [*it] of an expression, as [xderef] in Expr.v (array/unary_expr_array.hpp:68, array/binary_expr_array.hpp:75). *)
Fixpoint p_deref (h : heap) (x : xit) (k : V -> prog) : prog :=
  match x with
  | XLeaf sid i => guard (lit_deref i) (fun p => Get sid p k)
  | XUn src i =>
      match nth_error h src with
      | Some (Some (F1 f)) => p_deref h i (fun v => k (f v))
      | Some (Some FFwd) => match i with XLeaf _ _ => p_deref h i k | _ => Fail end
      | _ => Fail
      end
  | XBin src i j =>
      match nth_error h src with
      | Some (Some (F2 f)) => p_deref h i (fun a => p_deref h j (fun b => k (f a b)))
      | _ => Fail
      end
  end.

(** [for (auto& elem : destination) elem = *it++;] (array/detail/common.hpp:31-33). *)
Fixpoint p_assign (fuel : nat) (h : heap) (sid : nat) (d dend : lit) (x : xit) (k : xit -> prog) : prog :=
  match fuel with
  | O => Fail
  | S f =>
      if lit_eqb d dend then k x
      else
        guard (lit_deref d) (fun p =>
        guard (xnext x) (fun x' =>
        p_deref h x (fun v =>
        Put sid p v (guard (lit_next d) (fun d' => p_assign f h sid d' dend x' k)))))
  end.
(** [for (auto& elem : view) op(elem)] (array/ref_array.hpp:77-83, array/strided_ref_array.hpp:83-88, array/functional.hpp:57-63). *)
Fixpoint p_update (fuel : nat) (sid : nat) (d dend : lit) (op : V -> V) (k : prog) : prog :=
  match fuel with
  | O => Fail
  | S f =>
      if lit_eqb d dend then k
      else
        guard (lit_deref d) (fun p =>
        Get sid p (fun v =>
        Put sid p (op v) (guard (lit_next d) (fun d' => p_update f sid d' dend op k))))
  end.
(** [while (itl != end) op( *itl++, *itr++ )] (array/functional.hpp:83-93). *)
Fixpoint p_inplace (fuel : nat) (h : heap) (sid : nat) (d dend : lit) (x : xit) (f : V -> V -> V) (k : prog) : prog :=
  match fuel with
  | O => Fail
  | S fu =>
      if lit_eqb d dend then k
      else
        guard (lit_deref d) (fun p =>
        guard (lit_next d) (fun d' =>
        guard (xnext x) (fun x' =>
        p_deref h x (fun w =>
        Get sid p (fun v =>
        Put sid p (f v w) (p_inplace fu h sid d' dend x' f k))))))
  end.
(** [uninitialized_copy_n] from an expression into new storage of the thread (array/allocator.hpp:40-44). *)
Fixpoint p_copy (n : nat) (h : heap) (x : xit) (k : list V -> prog) : prog :=
  match n with
  | O => k []
  | S n' => p_deref h x (fun v => guard (xnext x) (fun x' => p_copy n' h x' (fun vs => k (v :: vs))))
  end.

(** [array_assign] from the thread's own temporary array with the elements [vs] (array/overlap.hpp:17-22, array/detail/common.hpp:31-33): its elements are
    not shared. *)
Fixpoint p_write (fuel : nat) (sid : nat) (d dend : lit) (vs : list V) (k : list V -> prog) : prog :=
  match fuel with
  | O => Fail
  | S f =>
      if lit_eqb d dend then k vs
      else
        guard (lit_deref d) (fun p =>
        match vs with
        | [] => Fail
        | v :: vs' => Put sid p v (guard (lit_next d) (fun d' => p_write f sid d' dend vs' k))
        end)
  end.

(** Statements. *)
Inductive stmt : Type :=
| TAssign (sid : nat) (s : st) (e : expr)                       (* view = e *)
| TInplace (sid : nat) (s : st) (f : V -> V -> V) (e : expr)    (* view op= e *)
| TUpdate (sid : nat) (s : st) (op : V -> V)                    (* view = scalar, view op= scalar, apply(in_place, view, op) *)
| TOverlap (sid : nat) (s : st) (e : expr)                      (* overlap(view) = e *)
| TEval (e : expr)                                              (* an array of the thread's own made from e *).

(** The accesses of a statement: as [view_assign], [view_inplace], [view_update], [eval_expr] of Expr.v (array/ref_array.hpp:70-83,
    array/functional.hpp:57-94, array/array.hpp:218-231).  [k] goes on with the values computed. *)
Definition p_stmt (chk : bool) (fuel : nat) (t : stmt) (k : list V -> prog) : prog :=
  match t with
  | TAssign sid s e =>
      guard (build chk e []) (fun r =>
      match dims s with
      | None => Fail
      | Some es =>
          guard (dassert chk (Zlist_eqb (sdim (fst r)) es)) (fun _ =>
          guard (leaf_range s) (fun l =>
          p_assign fuel (snd r) sid (fst l) (snd l) (sbeg (fst r)) (fun x' =>
          guard (dassert chk (xeqb x' (send (fst r)))) (fun _ => k []))))
      end)
  | TInplace sid s f e =>
      guard (build chk e []) (fun r =>
      match dims s with
      | None => Fail
      | Some es =>
          guard (dassert chk (Zlist_eqb es (sdim (fst r)))) (fun _ =>
          guard (leaf_range s) (fun l =>
          p_inplace fuel (snd r) sid (fst l) (snd l) (sbeg (fst r)) f (k [])))
      end)
  | TUpdate sid s op => guard (leaf_range s) (fun l => p_update fuel sid (fst l) (snd l) op (k []))
  | TOverlap sid s e =>
      guard (build chk e []) (fun r =>
      p_copy (Z.to_nat (prod_arr (sdim (fst r)))) (snd r) (sbeg (fst r)) (fun vs =>
      match dims s with
      | None => Fail
      | Some es =>
          guard (dassert chk (Zlist_eqb (sdim (fst r)) es)) (fun _ =>
          guard (leaf_range s) (fun l =>
          p_write fuel sid (fst l) (snd l) vs (fun rest =>
          guard (dassert chk (Nat.eqb (length rest) 0)) (fun _ => k []))))
      end))
  | TEval e => guard (build chk e []) (fun r => p_copy (Z.to_nat (prod_arr (sdim (fst r)))) (snd r) (sbeg (fst r)) k)
  end.
(** A thread. *)
Fixpoint p_thread (chk : bool) (fuel : nat) (ts : list stmt) (out : list V) : prog :=
  match ts with
  | [] => Done out
  | t :: ts' => p_stmt chk fuel t (fun vs => p_thread chk fuel ts' (out ++ vs))
  end.

(** One access by thread number [i]. *)
Definition step1 (m : mem) (P : prog) : option (mem * prog) :=
  match P with
  | Get sid p k => match load m sid p with Ok v => Some (m, k v) | _ => None end
  | Put sid p v k => match store m sid p v with Ok m' => Some (m', k) | _ => None end
  | _ => None
  end.
Inductive steps (N : nat) : mem * list prog -> mem * list prog -> Prop := (* N accesses in total *)
| steps_0 s : N = O -> steps N s s
| steps_S N' i m Ps P m' P' s : N = S N' -> nth_error Ps i = Some P -> step1 m P = Some (m', P') -> steps N' (m', upd_nat Ps i P') s -> steps N (m, Ps) s.

(** ** specification *)
(** The element the next access is to, and whether it is a write. *)
Definition next_access (P : prog) : option (nat * Z * bool) :=
  match P with Get sid p _ => Some (sid, p, false) | Put sid p _ _ => Some (sid, p, true) | _ => None end.
(** Two threads are about to access the same element, at least one of them to write it. *)
Definition data_race (Ps : list prog) : Prop :=
  exists i j P Q sid p wi wj, i <> j /\ nth_error Ps i = Some P /\ nth_error Ps j = Some Q /\
    next_access P = Some (sid, p, wi) /\ next_access Q = Some (sid, p, wj) /\ (wi = true \/ wj = true).
Definition finished (Ps : list prog) : Prop := Forall (fun P => exists out, P = Done out) Ps.

(** One statement, one thread, and all threads one after the other, with the functions of Expr.v. *)
Definition sem (chk : bool) (fuel : nat) (t : stmt) (m : mem) : outcome (list V * mem) :=
  match t with
  | TAssign sid s e => let* m' := view_assign chk fuel m sid s e in Ok ([], m')
  | TInplace sid s f e => let* r := view_inplace chk fuel m sid s f e in Ok ([], fst r)
  | TUpdate sid s op => let* r := view_update fuel m sid s op in Ok ([], fst r)
  | TOverlap sid s e => let* m' := overlap_assign chk fuel m sid s e in Ok ([], m')
  | TEval e => let* r := eval_expr chk m e in Ok (snd (fst r), m)
  end.
Fixpoint sem_thread (chk : bool) (fuel : nat) (ts : list stmt) (m : mem) : outcome (list V * mem) :=
  match ts with
  | [] => Ok ([], m)
  | t :: ts' => let* r := sem chk fuel t m in let* r' := sem_thread chk fuel ts' (snd r) in Ok (fst r ++ fst r', snd r')
  end.
Fixpoint one_after_the_other (chk : bool) (fuel : nat) (tss : list (list stmt)) (m : mem) : outcome (list (list V) * mem) :=
  match tss with
  | [] => Ok ([], m)
  | ts :: tss' => let* r := sem_thread chk fuel ts m in let* r' := one_after_the_other chk fuel tss' (snd r) in Ok (fst r :: fst r', snd r')
  end.

(** A statement whose views and operands are well formed in memories of the shape of [m]; [es]: the extents, [ps]: the elements of the view
    (fewer than the loops' [fuel]). *)
Definition ok_stmt (fuel : nat) (m : mem) (t : stmt) : Prop :=
  match t with
  | TAssign sid s e | TInplace sid s _ e | TOverlap sid s e => exists es ps, is_view fuel s es ps /\ inside m sid ps /\ (length ps < fuel)%nat /\ expr_ok fuel m e es
  | TUpdate sid s _ => exists es ps, is_view fuel s es ps /\ inside m sid ps /\ (length ps < fuel)%nat
  | TEval e => exists es, expr_ok fuel m e es
  end.
(** The elements a statement writes... *)
Definition writes (fuel : nat) (t : stmt) (c : nat * Z) : Prop :=
  match t with
  | TAssign sid s _ | TInplace sid s _ _ | TUpdate sid s _ | TOverlap sid s _ => fst c = sid /\ exists ps, positions fuel s = Ok ps /\ In (snd c) ps
  | TEval _ => False
  end.
(** ... and the ones it reads. *)
Definition looks (fuel : nat) (t : stmt) (c : nat * Z) : Prop :=
  match t with
  | TAssign _ _ e | TOverlap _ _ e | TEval e => exists k, In c (reads fuel e k)
  | TInplace _ _ _ e => writes fuel t c \/ exists k, In c (reads fuel e k)
  | TUpdate _ _ _ => writes fuel t c
  end.
(** The number of accesses: for each element, one for every operand that is an array or a view, and one or two for the element itself. *)
Definition size (s : st) : nat := match dims s with Some es => Z.to_nat (zprod es) | None => O end.
Fixpoint operands (e : expr) : nat :=
  match e with ELeaf _ _ => 1 | EUn _ e' | ELeft _ _ e' | ERight _ e' _ | EDrop _ e' => operands e' | EBin _ e1 e2 => operands e1 + operands e2 end.
Fixpoint esize (e : expr) : nat :=
  match e with ELeaf _ s => size s | EUn _ e' | ELeft _ _ e' | ERight _ e' _ | EDrop _ e' => esize e' | EBin _ e1 _ => esize e1 end.
Definition accesses (t : stmt) : nat :=
  match t with
  | TAssign _ s e | TOverlap _ s e => size s * (operands e + 1)
  | TInplace _ s _ e => size s * (operands e + 2)
  | TUpdate _ s _ => size s * 2
  | TEval e => esize e * operands e
  end.
Definition all_accesses (tss : list (list stmt)) : nat := list_sum (map (fun ts => list_sum (map accesses ts)) tss).
(** No thread writes what another one reads or writes. *)
Definition independent (fuel : nat) (tss : list (list stmt)) : Prop :=
  forall i j ts us t u c, i <> j -> nth_error tss i = Some ts -> nth_error tss j = Some us -> In t ts -> In u us ->
    writes fuel t c -> ~ writes fuel u c /\ ~ looks fuel u c.
End Model.
