(** * ThreadsSpec: threads with constant vectors, as values.  Every object has elements of its own: there are no pointers, no use counts and
    nothing to destroy.  Specification only. *)

From Coq Require Import List Bool PeanoNat.
From Verif Require Import Base Threads.
Import ListNotations.
Local Open Scope nat_scope.

Section ThreadsSpec.
Variable T : Type.

(** The const_vectors of a thread ([None]: moved from or destroyed), and the copy it is making: of which shared variable, of what elements. *)
Record vthread : Type := VTh { vhs : list (option (list T)); vcopy : option (nat * list T) }.
Record vst : Type := VSt { vthreads : list vthread; vglobals : list (option (list T)) }.

Definition copying (g : nat) (th : vthread) : bool := match vcopy th with Some (g', _) => Nat.eqb g g' | None => false end.

(** [None]: the program may not do this.  Objects without elements may be moved, swapped, destroyed, but not copied or read here; a
    shared variable is not destroyed while a thread is copying it (that would be a data race). *)
Definition vstep (t : nat) (o : top T) (a : vst) : option vst :=
  match nth_error (vthreads a) t with
  | None => None
  | Some th =>
      let set h := upd_nat (vthreads a) t h in
      match vcopy th, o with
      | Some (_, l), TEndCopy => Some (VSt (set (VTh (vhs th ++ [Some l]) None)) (vglobals a))
      | None, TNew l => Some (VSt (set (VTh (vhs th ++ [Some l]) None)) (vglobals a))
      | None, TCopy i => match nth_error (vhs th) i with Some (Some l) => Some (VSt (set (VTh (vhs th ++ [Some l]) None)) (vglobals a)) | _ => None end
      | None, TBeginCopy g => match nth_error (vglobals a) g with Some (Some l) => Some (VSt (set (VTh (vhs th) (Some (g, l)))) (vglobals a)) | _ => None end
      | None, TMove i => match nth_error (vhs th) i with Some v => Some (VSt (set (VTh (upd_nat (vhs th) i None ++ [v]) None)) (vglobals a)) | None => None end
      | None, TSwap i j =>
          match nth_error (vhs th) i, nth_error (vhs th) j with
          | Some v, Some w => Some (VSt (set (VTh (upd_nat (upd_nat (vhs th) i w) j v) None)) (vglobals a))
          | _, _ => None
          end
      | None, TDrop i => match nth_error (vhs th) i with Some _ => Some (VSt (set (VTh (upd_nat (vhs th) i None) None)) (vglobals a)) | None => None end
      | None, TDropGlobal g =>
          match nth_error (vglobals a) g with
          | Some _ => if existsb (copying g) (vthreads a) then None else Some (VSt (vthreads a) (upd_nat (vglobals a) g None))
          | None => None
          end
      | None, TDestroy => Some a
      | None, TSend i u =>
          match nth_error (vhs th) i, nth_error (vthreads a) u with
          | Some v, Some tu =>
              if Nat.eqb t u then Some (VSt (set (VTh (upd_nat (vhs th) i None ++ [v]) None)) (vglobals a))
              else Some (VSt (upd_nat (set (VTh (upd_nat (vhs th) i None) None)) u (VTh (vhs tu ++ [v]) (vcopy tu))) (vglobals a))
          | _, _ => None
          end
      | _, _ => None
      end
  end.
Fixpoint vrun (sch : list (nat * top T)) (a : vst) : option vst :=
  match sch with [] => Some a | (t, o) :: sch' => match vstep t o a with Some a' => vrun sch' a' | None => None end end.
Definition vinit (n : nat) (gs : list (list T)) : vst := VSt (repeat (VTh [] None) n) (map Some gs).

(** The elements of an object. *)
Definition vown (a : vst) (t i : nat) : option (list T) :=
  match nth_error (vthreads a) t with Some th => match nth_error (vhs th) i with Some (Some l) => Some l | _ => None end | None => None end.
Definition vglobal (a : vst) (g : nat) : option (list T) := match nth_error (vglobals a) g with Some (Some l) => Some l | _ => None end.

(** Objects that refer to block [b], in the state of the implementation. *)
Definition refers (s : tst T) (b : nat) : Prop :=
  In (Some b) (globals s) \/ exists th, In th (threads s) /\ In (Some b) (hs th).
End ThreadsSpec.
Arguments VTh {T}. Arguments VSt {T}. Arguments vhs {T}. Arguments vcopy {T}. Arguments vthreads {T}. Arguments vglobals {T}.
Arguments vstep {T}. Arguments vrun {T}. Arguments vinit {T}. Arguments vown {T}. Arguments vglobal {T}. Arguments refers {T}.
