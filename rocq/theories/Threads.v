(** * Threads: constant vectors used by several threads (base/const_vector.hpp).  Definitions only.

    A const_vector is a std::shared_ptr (const_vector.hpp:193) whose use count is changed by atomic operations.  Threads are
    interleaved at the grain of one access to shared state: an atomic change of a use count, the destruction of a vector, the transfer of
    an object to another thread, the read of the pointer in a shared variable.  Sequentially consistent interleaving is assumed (the
    acquire/release order of the operations of std::shared_ptr is the standard library's matter). *)

From Coq Require Import List Bool PeanoNat.
From Verif Require Import Base.
Import ListNotations.
Local Open Scope nat_scope.

Section Threads.
(** The element type. *)
Variable T : Type.

(** A control block with its vector (const_vector.hpp:67-83: std::make_shared) and use count; once the vector is destroyed, [BFreed]. *)
Inductive tblk : Type := BLive (l : list T) (count : nat) | BFreed.

(** What a thread is in the middle of: copying the shared variable [g], whose pointer [b] it has read but not yet counted; or
    destroying the vector of block [b], having dropped the last reference to it. *)
Inductive busyk : Type := Idle | Copying (g b : nat) | Destroying (b : nat).
(** A thread: its own const_vectors (null pointers when moved from or destroyed). *)
Record thread : Type := Th { hs : list (option nat); busy : busyk }.
(** [globals]: const_vectors that all threads can read. *)
Record tst : Type := TSt { tmem : list tblk; threads : list thread; globals : list (option nat) }.

(** One step of a thread. *)
Inductive top : Type :=
| TNew (l : list T)        (* construction from elements: const_vector.hpp:67-83 *)
| TCopy (i : nat)          (* copy construction from an own const_vector: l.86 *)
| TBeginCopy (g : nat)     (* copy construction from a shared variable, first step: the pointer is read *)
| TEndCopy                 (*   second step: the use count is incremented *)
| TMove (i : nat)          (* move construction: l.89 *)
| TSwap (i j : nat)        (* std::swap, and the middle of an assignment, which is copy or move, swap, drop: l.96, 99 *)
| TDrop (i : nat)          (* destruction: l.51; the use count is decremented *)
| TDropGlobal (g : nat)    (* destruction of a shared variable *)
| TDestroy                 (* the vector is destroyed by the thread that dropped the last reference *)
| TSend (i u : nat)        (* an own const_vector is moved to thread u *).

(** Atomic increment; the block has to exist, and to have owners. *)
Definition tincr (h : list tblk) (b : nat) : outcome (list tblk) :=
  match nth_error h b with Some (BLive l (S c)) => Ok (upd_nat h b (BLive l (S (S c)))) | _ => UB end.
(** Atomic decrement; the result tells whether it was the last reference. *)
Definition tdecr (h : list tblk) (b : nat) : outcome (list tblk * bool) :=
  match nth_error h b with Some (BLive l (S c)) => Ok (upd_nat h b (BLive l c), Nat.eqb c 0) | _ => UB end.
(** Destruction of the vector. *)
Definition tdestroy (h : list tblk) (b : nat) : outcome (list tblk) :=
  match nth_error h b with Some (BLive l _) => Ok (upd_nat h b BFreed) | _ => UB end.

(** Destruction of a const_vector with pointer [p]; what is left for the thread to do. *)
Definition tdrop (h : list tblk) (p : option nat) : outcome (list tblk * busyk) :=
  match p with
  | None => Ok (h, Idle)
  | Some b => let* r := tdecr h b in Ok (fst r, if snd r : bool then Destroying b else Idle)
  end.

(** A step of thread [t]; [None]: not the next step of the thread (it is in the middle of something else), or there is no such thread. *)
Definition tstep (t : nat) (o : top) (s : tst) : option (outcome tst) :=
  match nth_error (threads s) t with
  | None => None
  | Some th =>
      let put_th h := upd_nat (threads s) t h in
      match busy th, o with
      | Idle, TNew l =>
          Some (Ok (TSt (tmem s ++ [BLive l 1]) (put_th (Th (hs th ++ [Some (length (tmem s))]) Idle)) (globals s)))
      | Idle, TCopy i =>
          match nth_error (hs th) i with
          | Some (Some b) => Some (let* h := tincr (tmem s) b in Ok (TSt h (put_th (Th (hs th ++ [Some b]) Idle)) (globals s)))
          | Some None => Some (Ok (TSt (tmem s) (put_th (Th (hs th ++ [None]) Idle)) (globals s)))
          | None => None
          end
      | Idle, TBeginCopy g =>
          match nth_error (globals s) g with
          | Some (Some b) => Some (Ok (TSt (tmem s) (put_th (Th (hs th) (Copying g b))) (globals s)))
          | Some None => Some (Ok (TSt (tmem s) (put_th (Th (hs th ++ [None]) Idle)) (globals s)))
          | None => None
          end
      | Copying g b, TEndCopy => Some (let* h := tincr (tmem s) b in Ok (TSt h (put_th (Th (hs th ++ [Some b]) Idle)) (globals s)))
      | Idle, TMove i =>
          match nth_error (hs th) i with
          | Some p => Some (Ok (TSt (tmem s) (put_th (Th (upd_nat (hs th) i None ++ [p]) Idle)) (globals s)))
          | None => None
          end
      | Idle, TSwap i j =>
          match nth_error (hs th) i, nth_error (hs th) j with
          | Some p, Some q => Some (Ok (TSt (tmem s) (put_th (Th (upd_nat (upd_nat (hs th) i q) j p) Idle)) (globals s)))
          | _, _ => None
          end
      | Idle, TDrop i =>
          match nth_error (hs th) i with
          | Some p => Some (let* r := tdrop (tmem s) p in Ok (TSt (fst r) (put_th (Th (upd_nat (hs th) i None) (snd r))) (globals s)))
          | None => None
          end
      | Idle, TDropGlobal g =>
          match nth_error (globals s) g with
          | Some p => Some (let* r := tdrop (tmem s) p in Ok (TSt (fst r) (put_th (Th (hs th) (snd r))) (upd_nat (globals s) g None)))
          | None => None
          end
      | Destroying b, TDestroy => Some (let* h := tdestroy (tmem s) b in Ok (TSt h (put_th (Th (hs th) Idle)) (globals s)))
      | Idle, TSend i u =>
          match nth_error (hs th) i, nth_error (threads s) u with
          | Some p, Some _ =>
              if Nat.eqb t u then Some (Ok (TSt (tmem s) (put_th (Th (upd_nat (hs th) i None ++ [p]) Idle)) (globals s)))
              else match nth_error (threads s) u with
                   | Some tu => Some (Ok (TSt (tmem s) (upd_nat (put_th (Th (upd_nat (hs th) i None) Idle)) u (Th (hs tu ++ [p]) (busy tu))) (globals s)))
                   | None => None
                   end
          | _, _ => None
          end
      | _, _ => None
      end
  end.

(** A schedule: which thread does what, in order. *)
Fixpoint trun (sch : list (nat * top)) (s : tst) : option (outcome tst) :=
  match sch with
  | [] => Some (Ok s)
  | (t, o) :: sch' =>
      match tstep t o s with
      | Some (Ok s') => trun sch' s'
      | r => r
      end
  end.

(** [n] threads, and shared variables with the given elements, each in a vector of its own. *)
Definition tinit (n : nat) (gs : list (list T)) : tst :=
  TSt (map (fun l => BLive l 1) gs) (repeat (Th [] Idle) n) (map Some (seq 0 (length gs))).

(** The elements of the [i]-th const_vector of thread [t], and of a shared variable: what any access to it reads (const_vector.hpp:116-170). *)
Definition telems (s : tst) (p : option nat) : outcome (list T) :=
  match p with Some b => match nth_error (tmem s) b with Some (BLive l _) => Ok l | _ => UB end | None => UB end.
Definition own (s : tst) (t i : nat) : outcome (list T) :=
  match nth_error (threads s) t with
  | Some th => match nth_error (hs th) i with Some p => telems s p | None => UB end
  | None => UB
  end.
Definition global (s : tst) (g : nat) : outcome (list T) :=
  match nth_error (globals s) g with Some p => telems s p | None => UB end.

End Threads.
Arguments BLive {T}. Arguments BFreed {T}. Arguments TSt {T}. Arguments tmem {T}. Arguments threads {T}. Arguments globals {T}.
Arguments TNew {T}. Arguments TCopy {T}. Arguments TBeginCopy {T}. Arguments TEndCopy {T}. Arguments TMove {T}. Arguments TSwap {T}.
Arguments TDrop {T}. Arguments TDropGlobal {T}. Arguments TDestroy {T}. Arguments TSend {T}.
Arguments tincr {T}. Arguments tdecr {T}. Arguments tdestroy {T}. Arguments tdrop {T}. Arguments tstep {T}. Arguments trun {T}. Arguments tinit {T}.
Arguments telems {T}. Arguments own {T}. Arguments global {T}.
