(** * PropArrAssign: property C55 ([x = e] where the expression reads the array x).

    [array_set chk fu m sid es e]: memory and extents after [x = e], x having the extents [es] and the storage [sid].
    [holds m m' sid n v]: the array holds [v 0 .. v (n-1)], every other storage is as before.  [value fuel m e k]: the k-th element
    of the expression over the memory [m] before the assignment. *)

From Coq Require Import ZArith List Bool Lia.
From Verif Require Import Base Spec Desc Slice SliceSpec Expr ExprSpec Lemmas RunProofs ExprProofs ExprThms ExprSeq ArrAssign PropExpr.
Import ListNotations.
Open Scope Z_scope.

(** The number of elements changes: exact, whatever the expression reads ([x = x[slice(...)]], [x = cat...]). *)
Theorem array_assignment_other_size : forall (V : Type) chk fuel fu (m : @mem V) sid c es es' e,
  nth_error m sid = Some c -> all_nonneg es -> zprod es < W -> expr_ok fuel m e es' -> zprod es' <> zprod es ->
  exists m', array_set chk fu m sid es e = Ok (m', es') /\ holds m m' sid (zprod es') (value fuel m e).
Proof. intros. eapply array_set_other_size; eauto. Qed.
Print Assumptions array_assignment_other_size.

(** It does not change: exact if every operand either is at the array's own positions ([x = 2 * x + y], also with other extents) or does
    not touch it... *)
Theorem array_assignment_aligned : forall (V : Type) chk fuel fu (m : @mem V) sid c es es' e,
  nth_error m sid = Some c -> Z.of_nat (length c) = zprod es -> all_nonneg es -> zprod es < W -> expr_ok fuel m e es' -> zprod es' = zprod es ->
  aligned fuel sid (iota (zprod es)) e -> (length c < fu)%nat ->
  exists m', array_set chk fu m sid es e = Ok (m', es') /\ holds m m' sid (zprod es') (value fuel m e).
Proof. intros. eapply array_set_same_size_values; eauto. apply aligned_early; auto. apply iota_NoDup. Qed.
Print Assumptions array_assignment_aligned.

(** ... or, more generally, if no element is read after it has been overwritten... *)
Theorem array_assignment_no_early_write : forall (V : Type) chk fuel fu (m : @mem V) sid c es es' e,
  nth_error m sid = Some c -> Z.of_nat (length c) = zprod es -> all_nonneg es -> zprod es < W -> expr_ok fuel m e es' -> zprod es' = zprod es ->
  no_early_write fuel sid (iota (zprod es)) e -> (length c < fu)%nat ->
  exists m', array_set chk fu m sid es e = Ok (m', es') /\ holds m m' sid (zprod es') (value fuel m e).
Proof. intros. eapply array_set_same_size_values; eauto. Qed.
Print Assumptions array_assignment_no_early_write.

(** ... and in every case the elements are assigned one after the other, each reading what its predecessors left. *)
Theorem array_assignment_in_order : forall (V : Type) chk fuel fu (m : @mem V) sid c es es' e,
  nth_error m sid = Some c -> Z.of_nat (length c) = zprod es -> all_nonneg es -> zprod es < W -> expr_ok fuel m e es' -> zprod es' = zprod es ->
  (length c < fu)%nat ->
  exists m', array_set chk fu m sid es e = Ok (m', es') /\ in_order sid (fun mk k _ => value fuel mk e k) 0 (iota (zprod es)) m = Some m'.
Proof. intros. eapply array_set_same_size; eauto. Qed.
Print Assumptions array_assignment_in_order.

(** Operands of different extents are rejected before anything is written. *)
Theorem array_assignment_extents_checked : forall (V : Type) fuel fu (m : @mem V) sid es e, expr_bad fuel m e -> array_set true fu m sid es e = Abort.
Proof. intros. eapply array_set_mismatch; eauto. Qed.
Print Assumptions array_assignment_extents_checked.

(** ** examples and the failing case *)
Definition ax_mem : @mem Z := [[1; 2; 3]; [10; 20; 30]].
Definition ax_rev : st := SView 0 (MVec (SD 0 [3] [1]) [2; 1; 0]).

Lemma ax_rev_ok : expr_ok 9 ax_mem (ELeaf 0 ax_rev) [3].
Proof.
  econstructor; [repeat split; try discriminate; try reflexivity; repeat constructor; lia|]. exists [1; 2; 3]. split; [reflexivity|]. repeat constructor; cbn; lia.
Qed.
Lemma ax_sum_ok : expr_ok 9 ax_mem (EBin Z.add (ELeft Z.mul 2 (ELeaf 0 (SRef 0 [3]))) (ELeaf 1 (SRef 0 [3]))) [3].
Proof.
  apply ok_bin; [apply ok_left|]; (econstructor; [repeat split; try discriminate; try reflexivity; repeat constructor; lia|]; eexists; split; [reflexivity|]; repeat constructor; cbn; lia).
Qed.
Lemma ax_part_ok : expr_ok 9 ax_mem (ELeaf 0 (SRef 1 [2])) [2].
Proof. econstructor; [repeat split; try discriminate; try reflexivity; repeat constructor; lia|]; eexists; split; [reflexivity|]; repeat constructor; cbn; lia. Qed.

Example array_assignment_ex :
  array_set true 9 ax_mem 0 [3] (EBin Z.add (ELeft Z.mul 2 (ELeaf 0 (SRef 0 [3]))) (ELeaf 1 (SRef 0 [3]))) = Ok ([[12; 24; 36]; [10; 20; 30]], [3]) /\
  aligned 9 0 (iota (zprod [3])) (EBin Z.add (ELeft Z.mul 2 (ELeaf 0 (SRef 0 [3]))) (ELeaf 1 (SRef 0 [3])) : @expr Z) /\
  array_set true 9 ax_mem 0 [3] (ELeaf 0 (SRef 1 [2])) = Ok ([[2; 3]; [10; 20; 30]], [2]) /\ zprod [2] <> zprod [3].
Proof.
  split; [reflexivity|]. split; [split; [left; reflexivity|right; left; discriminate]|]. split; [reflexivity|discriminate].
Qed.

(** [x = x[{2, 1, 0}]] on (1, 2, 3) gives (3, 2, 3), in checked builds too. *)
Theorem array_assignment_from_itself_refuted : exists (m m' : @mem Z) sid c es e k,
  nth_error m sid = Some c /\ Z.of_nat (length c) = zprod es /\ expr_ok 9 m e es /\ array_set true 9 m sid es e = Ok (m', es) /\
  (k < length c)%nat /\ cell m' sid (Z.of_nat k) <> value 9 m e k.
Proof.
  exists ax_mem, [[3; 2; 3]; [10; 20; 30]], 0%nat, [1; 2; 3], [3], (ELeaf 0 ax_rev), 2%nat.
  split; [reflexivity|]. split; [reflexivity|]. split; [apply ax_rev_ok|]. split; [reflexivity|]. split; [cbn; lia|]. discriminate.
Qed.
Print Assumptions array_assignment_from_itself_refuted.
