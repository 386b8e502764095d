(** * SharedSpec: const_vector and index_view as plain values. *)

From Coq Require Import List Bool PeanoNat.
From Verif Require Import Base Shared.
Import ListNotations.
Local Open Scope nat_scope.

Section S.
Variable T : Type.

(** What a program sees: a const_vector with its value (None: moved from), a std::vector, an
    index_view with a value of its own (None: moved from), an index_view that refers to a
    std::vector of the program (no value of its own), a destroyed object. *)
Inductive val : Type :=
| VCv (v : option (list T))
| VVec (l : list T)
| VView (v : option (list T))
| VBorrowed
| VDead.

(** Moving out of a view that has a value leaves it without. *)
Definition vmoved (v : val) : val := match v with VView _ => VView None | _ => v end.

(** Each operation on values; no sharing, no memory.  None: the operation is not allowed (an
    object of another kind, a destroyed object, a moved-from const_vector where elements are
    needed, a position outside). *)
Definition vexec (c : scmd T) (a : list val) : option (list val) :=
  match c with
  | NewCv l => Some (a ++ [VCv (Some l)])
  | CopyCv i => match nth_error a i with Some (VCv v) => Some (a ++ [VCv v]) | _ => None end
  | MoveCv i => match nth_error a i with Some (VCv v) => Some (upd_nat a i (VCv None) ++ [VCv v]) | _ => None end
  | AssignCv i j => match nth_error a i, nth_error a j with
                    | Some (VCv _), Some (VCv v) => Some (upd_nat a i (VCv v))
                    | _, _ => None
                    end
  | MoveAssignCv i j => match nth_error a i, nth_error a j with
                        | Some (VCv _), Some (VCv v) => Some (upd_nat (upd_nat a j (VCv None)) i (VCv v))
                        | _, _ => None
                        end
  | NewVec l => Some (a ++ [VVec l])
  | VecSet i p x => match nth_error a i with
                    | Some (VVec l) => if p <? length l then Some (upd_nat a i (VVec (upd_nat l p x))) else None
                    | _ => None
                    end
  | VecRealloc i l => match nth_error a i with Some (VVec _) => Some (upd_nat a i (VVec l)) | _ => None end
  | ViewCopyCv i => match nth_error a i with Some (VCv (Some l)) => Some (a ++ [VView (Some l)]) | _ => None end
  | ViewMoveCv i => match nth_error a i with
                    | Some (VCv (Some l)) => Some (upd_nat a i (VCv None) ++ [VView (Some l)])
                    | _ => None
                    end
  | ViewBorrow i off len => match nth_error a i with
                            | Some (VVec l) => if off + len <=? length l then Some (a ++ [VBorrowed]) else None
                            | _ => None
                            end
  | ViewMoveVec i => match nth_error a i with
                     | Some (VVec l) => Some (upd_nat a i (VVec []) ++ [VView (Some l)])
                     | _ => None
                     end
  | ViewRange l => Some (a ++ [VView (Some l)])
  | CopyView i => match nth_error a i with
                  | Some (VView v) => Some (a ++ [VView v])
                  | Some VBorrowed => Some (a ++ [VBorrowed])
                  | _ => None
                  end
  | MoveView i => match nth_error a i with
                  | Some (VView v) => Some (upd_nat a i (VView None) ++ [VView v])
                  | Some VBorrowed => Some (a ++ [VBorrowed])
                  | _ => None
                  end
  | AssignView i j => match nth_error a i, nth_error a j with
                      | Some (VView _), Some (VView v) | Some VBorrowed, Some (VView v) => Some (upd_nat a i (VView v))
                      | Some (VView _), Some VBorrowed | Some VBorrowed, Some VBorrowed => Some (upd_nat a i VBorrowed)
                      | _, _ => None
                      end
  | MoveAssignView i j => match nth_error a i, nth_error a j with
                          | Some (VView _), Some (VView v) | Some VBorrowed, Some (VView v) =>
                              Some (upd_nat (upd_nat a j (VView None)) i (VView v))
                          | Some (VView _), Some VBorrowed | Some VBorrowed, Some VBorrowed => Some (upd_nat a i VBorrowed)
                          | _, _ => None
                          end
  | Destroy i => match nth_error a i with
                 | Some VDead | None => None
                 | _ => Some (upd_nat a i VDead)
                 end
  end.

Fixpoint vrun (cs : list (scmd T)) (a : list val) : option (list val) :=
  match cs with
  | [] => Some a
  | c :: cs' => match vexec c a with Some a' => vrun cs' a' | None => None end
  end.

(** The value of an object. *)
Definition value (v : val) : option (list T) :=
  match v with VCv (Some l) | VView (Some l) | VVec l => Some l | _ => None end.

(** The objects an operation changes: its target, and what it moves from. *)
Definition changes (c : scmd T) : list nat :=
  match c with
  | MoveCv i | AssignCv i _ | VecSet i _ _ | VecRealloc i _ | ViewMoveCv i | ViewMoveVec i
  | MoveView i | AssignView i _ | Destroy i => [i]
  | MoveAssignCv i j | MoveAssignView i j => [i; j]
  | _ => []
  end.

(** Object [o] keeps the elements in block [b] alive: a const_vector, an index_view with a
    const_vector inside, or a std::vector. *)
Definition keeps (o : obj) (b : nat) : Prop :=
  o = OCv (Some b) \/ (exists c off len, o = OView (Some (Some b)) c off len) \/ o = OVec b.

End S.

Arguments VCv {T}. Arguments VVec {T}. Arguments VView {T}. Arguments VBorrowed {T}. Arguments VDead {T}.
Arguments vexec {T}. Arguments vrun {T}. Arguments value {T}. Arguments changes {T}.
