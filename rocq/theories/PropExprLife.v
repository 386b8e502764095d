(** * PropExprLife: C53. *)

From Coq Require Import ZArith List Bool Lia.
From Verif Require Import Base Spec Desc Slice SliceSpec Expr ExprSpec ExprThms ExprLife ExprLifeProofs.
Import ListNotations.
Open Scope Z_scope.

(** ** C53: which expressions may be kept in a variable *)

(** Evaluated within the full expression that creates it, an expression means the same whatever its operands are. *)
Theorem operands_live_for_full_expression : forall (V : Type) chk (m : @mem V) e, leval_expr chk m e = eval_expr chk m (erase e).
Proof. intros. apply leval_is_eval. Qed.
Print Assumptions operands_live_for_full_expression.

(** Kept in a variable and evaluated later, a view or an array is the same; a single operation is the same (over the
    elements at the time of the evaluation, [m]) when every operand is named, contiguous, strided with one dimension, or selected by
    indexes stored elsewhere; in every other case the evaluation is undefined: a nested expression, a temporary
    array, a temporary view of two or more dimensions, a temporary view that owns its indexes. *)
Theorem stored_expression_exact : forall (V : Type) chk fuel (m : @mem V) e es,
  expr_ok fuel m (erase e) es -> 0 < zprod es ->
  let can_be_stored := operations (erase e) = 0%nat \/ (operations (erase e) = 1%nat /\ Forall survives (operands e)) in
  (can_be_stored -> leval_stored chk m e = eval_expr chk m (erase e)) /\
  (~ can_be_stored -> leval_stored chk m e = UB).
Proof.
  intros V chk fuel m e es K P. split.
  - intros U. apply (stored_usable chk fuel m e es K U).
  - intros U. apply (stored_unusable chk fuel m e es K P U).
Qed.
Print Assumptions stored_expression_exact.

(** -a[slice(0, 2)][slice(0, 2)] of a 3 x 3 matrix, kept in a variable: the view is gone, and with it the descriptor the
    iterators use.  The same with a named view works. *)
Definition mat : @mem Z := [[1; 2; 3; 4; 5; 6; 7; 8; 9]].
Definition corner : st := SView 0 (MId (SD 0 [2; 2] [1; 3])).
Lemma corner_ok : expr_ok 9 mat (@ELeaf Z 0 corner) [2; 2].
Proof.
  eapply ok_leaf with (ps := [0; 1; 3; 4]).
  - repeat split; try discriminate; try reflexivity; repeat constructor; lia.
  - eexists. split; [reflexivity|]. repeat constructor; cbn; lia.
Qed.
Theorem stored_temporary_operand_refuted : exists (m : @mem Z) e e' es,
  expr_ok 9 m (erase e) es /\ operations (erase e) = 1%nat /\ erase e = erase e' /\
  leval_expr true m e = Ok (es, [-1; -2; -4; -5], [[(0%nat, 0)]; [(0%nat, 1)]; [(0%nat, 3)]; [(0%nat, 4)]]) /\
  leval_stored true m e = UB /\ leval_stored true m e' = leval_expr true m e'.
Proof.
  exists mat, (LUn Z.opp (LLeaf (TempView false) 0 corner)), (LUn Z.opp (LLeaf Named 0 corner)), [2; 2].
  split; [cbn; constructor; exact corner_ok|]. repeat split; reflexivity.
Qed.
Print Assumptions stored_temporary_operand_refuted.

(** A stored sum of a temporary strided view of one dimension and a named array, evaluated after the elements changed. *)
Example stored_expression_exact_ex :
  let e := LBin Z.add (LLeaf (TempView true) 0 (SView 0 (MId (SD 1 [2] [3])))) (LLeaf Named 1 (SRef 0 [2])) in
  let m := [[1; 2; 3; 4; 5; 6]; [10; 20]] in
  expr_ok 9 m (erase e) [2] /\ operations (erase e) = 1%nat /\ Forall survives (operands e) /\
  leval_stored true m e = Ok ([2], [12; 25], [[(0%nat, 1); (1%nat, 0)]; [(0%nat, 4); (1%nat, 1)]]) /\
  ~ survives (TempArray, SRef 0 [2]) /\ ~ survives (TempView true, SView 0 (MVec (SD 0 [2] [1]) [0; 3])).
Proof.
  cbn zeta. split.
  - cbn. constructor.
    + eapply ok_leaf with (ps := [1; 4]); [repeat split; try discriminate; try reflexivity; repeat constructor; lia|].
      eexists. split; [reflexivity|]. repeat constructor; cbn; lia.
    + eapply ok_leaf with (ps := [0; 1]); [repeat split; try discriminate; try reflexivity; repeat constructor; lia|].
      eexists. split; [reflexivity|]. repeat constructor; cbn; lia.
  - split; [reflexivity|]. split; [constructor; [constructor; reflexivity|constructor; [constructor|constructor]]|].
    split; [reflexivity|]. split; intros H; inversion H.
Qed.
