(** * PropExpr: properties C19-C22 (assignment through views, overlap, lazy expressions, in-place operations).
    Only statements, closed by lemmas proved elsewhere; examples show that the hypotheses are met. *)

From Coq Require Import ZArith List Bool Lia.
From Verif Require Import Base Spec Desc Slice SliceSpec Expr ExprSpec RunProofs ExprProofs ExprThms.
Import ListNotations.
Open Scope Z_scope.

(** Every view obtained from an owning array of extents [es] by any history of valid subscripts is a view in the sense of the
    theorems below; its positions exist in the array; they are distinct unless an index range repeats an index. *)
Theorem reachable_views_qualify : forall chk es steps, good_shape es -> ok_steps (afull es) steps ->
  exists fuel0, forall fuel, (fuel0 <= fuel)%nat -> exists s shape ps, foldO (run chk fuel) steps (SRef 0 es) = Ok s /\
    aselects (afull es) steps = (shape, ps) /\ is_view fuel s shape ps /\
    Forall (fun p => 0 <= p < zprod es) ps /\ (Forall (Forall no_dup_arg) steps -> NoDup ps).
Proof. exact reachable_is_view. Qed.
Print Assumptions reachable_views_qualify.

(** ** C19 *)
Theorem assignment_writes_exactly_view : forall (V : Type) chk fuel fu (m : @mem V) sid s es ps e,
  is_view fuel s es ps -> inside m sid ps -> NoDup ps -> expr_ok fuel m e es -> no_overlap fuel sid ps e -> (length ps < fu)%nat ->
  exists m', view_assign chk fu m sid s e = Ok m' /\ written m m' sid ps (value fuel m e).
Proof. intros. eapply view_assign_spec; eauto. apply no_overlap_early. assumption. Qed.
Print Assumptions assignment_writes_exactly_view.

Theorem scalar_assignment_writes_exactly_view : forall (V : Type) fuel fu (m : @mem V) sid s es ps v,
  is_view fuel s es ps -> inside m sid ps -> NoDup ps -> (length ps < fu)%nat ->
  exists m', view_fill fu m sid s v = Ok (m', ps) /\ written m m' sid ps (fun _ => Some v).
Proof. exact @view_fill_spec. Qed.
Print Assumptions scalar_assignment_writes_exactly_view.

Theorem assignment_extents_checked : forall (V : Type) fuel fu (m : @mem V) sid s es es' ps e,
  is_view fuel s es ps -> expr_shaped fuel m e es' -> es <> es' -> view_assign true fu m sid s e = Abort.
Proof. exact @view_assign_mismatch. Qed.
Print Assumptions assignment_extents_checked.

Definition ex_mem : @mem Z := [[1; 2; 3; 4; 5; 6]; [10; 20; 30]].
Definition ex_view : st := SView 0 (MId (SD 1 [2] [3])).   (* positions 1 and 4 of storage 0 *)
Lemma ex_is_view : is_view 5 ex_view [2] [1; 4].
Proof. repeat split; try discriminate; repeat constructor; try lia. Qed.
Lemma ex_inside : inside ex_mem 0 [1; 4].
Proof. exists [1; 2; 3; 4; 5; 6]. split; [reflexivity|]. repeat constructor; cbn; lia. Qed.

Example assignment_ex :
  expr_ok 5 ex_mem (EUn Z.opp (ELeaf 1 (SRef 1 [2]))) [2] /\ no_overlap 5 0 [1; 4] (EUn Z.opp (ELeaf 1 (SRef 1 [2])) : @expr Z) /\ NoDup [1; 4] /\
  view_assign true 5 ex_mem 0 ex_view (EUn Z.opp (ELeaf 1 (SRef 1 [2]))) = Ok [[1; -20; 3; 4; -30; 6]; [10; 20; 30]] /\
  view_fill 5 ex_mem 0 ex_view 7 = Ok ([[1; 7; 3; 4; 7; 6]; [10; 20; 30]], [1; 4]).
Proof.
  split; [|split; [|split; [|split; reflexivity]]].
  - constructor. econstructor; [repeat split; try discriminate; repeat constructor; try lia|].
    exists [10; 20; 30]. split; [reflexivity|]. repeat constructor; cbn; lia.
  - intros k p Hk Hp. destruct k as [|[|k]]; cbn in *; try lia; intros [H|[]]; discriminate.
  - repeat constructor; cbn; intuition lia.
Qed.

(** ** C20 *)
Theorem overlap_assignment_uses_old_values : forall (V : Type) chk fuel fu (m : @mem V) sid s es ps e,
  is_view fuel s es ps -> inside m sid ps -> NoDup ps -> expr_ok fuel m e es -> (length ps < fu)%nat ->
  exists m', overlap_assign chk fu m sid s e = Ok m' /\ written m m' sid ps (value fuel m e).
Proof. exact @overlap_assign_spec. Qed.
Print Assumptions overlap_assignment_uses_old_values.

(** Without [overlap] it is enough that no element needed later is overwritten earlier... *)
Theorem plain_assignment_safe_when_no_early_write : forall (V : Type) chk fuel fu (m : @mem V) sid s es ps e,
  is_view fuel s es ps -> inside m sid ps -> NoDup ps -> expr_ok fuel m e es -> no_early_write fuel sid ps e -> (length ps < fu)%nat ->
  exists m', view_assign chk fu m sid s e = Ok m' /\ written m m' sid ps (value fuel m e).
Proof. exact @view_assign_spec. Qed.
Print Assumptions plain_assignment_safe_when_no_early_write.

(** ... in particular that every operand touching the destination has exactly its positions, as in [v = v * v + w]. *)
Theorem plain_assignment_safe_when_aligned : forall (V : Type) chk fuel fu (m : @mem V) sid s es ps e,
  is_view fuel s es ps -> inside m sid ps -> NoDup ps -> expr_ok fuel m e es -> aligned fuel sid ps e -> (length ps < fu)%nat ->
  exists m', view_assign chk fu m sid s e = Ok m' /\ written m m' sid ps (value fuel m e).
Proof. intros. eapply view_assign_spec; eauto. apply aligned_early; assumption. Qed.
Print Assumptions plain_assignment_safe_when_aligned.

Example overlap_ex :
  is_view 5 (SRef 1 [2]) [2] [1; 2] /\ expr_ok 5 ex_mem (ELeaf 0 (SRef 0 [2])) [2] /\ inside ex_mem 0 [1; 2] /\
  overlap_assign true 5 ex_mem 0 (SRef 1 [2]) (ELeaf 0 (SRef 0 [2])) = Ok [[1; 1; 2; 4; 5; 6]; [10; 20; 30]] /\
  aligned 5 0 [1; 2] (EBin Z.mul (ELeaf 0 (SRef 1 [2])) (ELeaf 1 (SRef 0 [2])) : @expr Z) /\
  no_early_write 5 0 [0; 1] (ELeaf 0 (SRef 1 [2]) : @expr Z) /\
  view_assign true 5 ex_mem 0 (SRef 0 [2]) (ELeaf 0 (SRef 1 [2])) = Ok [[2; 3; 3; 4; 5; 6]; [10; 20; 30]].
Proof.
  split; [repeat split; try discriminate; repeat constructor; try lia|].
  split; [econstructor; [repeat split; try discriminate; repeat constructor; try lia|exists [1; 2; 3; 4; 5; 6]; split; [reflexivity|]; repeat constructor; cbn; lia]|].
  split; [exists [1; 2; 3; 4; 5; 6]; split; [reflexivity|]; repeat constructor; cbn; lia|].
  split; [reflexivity|]. split; [split; [left; reflexivity|right; left; discriminate]|]. split; [|reflexivity].
  intros j k p Hjk E. cbn in Hjk. assert (j = O) by lia. assert (k = 1%nat) by lia. subst. cbn in *. injection E as <-. intros [H|[]]. discriminate.
Qed.

(** a[slice(1, 2)] = a[slice(0, 2)] on (1, 2, 3, ...) gives (1, 1, 1, ...), not (1, 1, 2, ...). *)
Theorem plain_overlapping_assignment_refuted : exists (m m' : @mem Z) sid s es ps e k p,
  is_view 5 s es ps /\ inside m sid ps /\ NoDup ps /\ expr_ok 5 m e es /\ view_assign true 5 m sid s e = Ok m' /\
  nth_error ps k = Some p /\ value 5 m e k <> cell m' sid p.
Proof.
  exists ex_mem, [[1; 1; 1; 4; 5; 6]; [10; 20; 30]], O, (SRef 1 [2]), [2], [1; 2], (ELeaf 0 (SRef 0 [2])), 1%nat, 2.
  destruct overlap_ex as [H1 [H2 [H3 _]]]. repeat (split; [assumption || (repeat constructor; cbn; intuition lia) || reflexivity|]). discriminate.
Qed.
Print Assumptions plain_overlapping_assignment_refuted.

(** ** C21 *)
(** [array x = e]: extents, the k-th element for every k, and the reads performed for each element, in order. *)
Theorem expression_is_pointwise : forall (V : Type) chk fuel (m : @mem V) e es, expr_ok fuel m e es ->
  exists vs, eval_expr chk m e = Ok (es, vs, map (reads fuel e) (seq 0 (length vs))) /\ Z.of_nat (length vs) = zprod es /\
    (forall k, (k < length vs)%nat -> nth_error vs k = value fuel m e k).
Proof. exact @eval_expr_spec. Qed.
Print Assumptions expression_is_pointwise.

Theorem expression_extents_checked : forall (V : Type) fuel (m : @mem V) e, expr_bad fuel m e -> eval_expr true m e = Abort.
Proof. intros V fuel m e H. unfold eval_expr. rewrite (build_bad fuel m e H). reflexivity. Qed.
Print Assumptions expression_extents_checked.

(** [drop_to<D>(e)], [drop(e)] of an expression: when its elements exist, reading them is undefined in every build; in an
    assignment (also inside a larger expression), in an in-place operation, in the construction of an array. *)
Theorem dropped_expression_undefined : forall (V : Type) chk fuel fu (m : @mem V) sid s es ps f e,
  expr_shaped fuel m e es -> drops e = true -> 0 < zprod es -> is_view fuel s es ps -> (0 < fu)%nat ->
  eval_expr chk m e = UB /\ view_assign chk fu m sid s e = UB /\ overlap_assign chk fu m sid s e = UB /\ view_inplace chk fu m sid s f e = UB.
Proof.
  intros. split; [eapply eval_drops; eauto|]. split; [eapply view_assign_drops; eauto|]. split; [eapply overlap_assign_drops; eauto|eapply view_inplace_drops; eauto].
Qed.
Print Assumptions dropped_expression_undefined.

Definition ex_drop : @expr Z := EBin Z.add (ELeaf 0 ex_view) (ERight Z.mul (EDrop 1 (EUn Z.opp (ELeaf 1 (SRef 0 [2; 1])))) 3).
Lemma ex_drop_shaped : expr_shaped 5 ex_mem ex_drop [2].
Proof.
  constructor; [econstructor; [exact ex_is_view|exact ex_inside]|]. constructor. eapply sh_drop with (es := [2; 1]); [|discriminate|reflexivity|discriminate]. constructor.
  econstructor; [repeat split; try discriminate; repeat constructor; try lia|]. exists [10; 20; 30]. split; [reflexivity|]. repeat constructor; cbn; lia.
Qed.
Example dropped_ex : expr_shaped 5 ex_mem ex_drop [2] /\ drops ex_drop = true /\ eval_expr true ex_mem ex_drop = UB /\ value 5 ex_mem ex_drop 0 = Some (-28).
Proof. split; [exact ex_drop_shaped|]. split; [|split]; reflexivity. Qed.
(** The natural claim is that dropping unit extents keeps the values. *)
Theorem dropped_expression_refuted : exists (m : @mem Z) D e es es' r, expr_ok 5 m e es /\ operations e = 1%nat /\ drop_one_level_extents true D es = Ok es' /\
  eval_expr true m e = Ok r /\ forall chk, eval_expr chk m (EDrop D e) = UB.
Proof.
  exists ex_mem, 1%nat, (EUn Z.opp (ELeaf 1 (SRef 0 [2; 1]))), [2; 1], [2]. eexists. split; [constructor|].
  - econstructor; [repeat split; try discriminate; repeat constructor; try lia|]. exists [10; 20; 30]. split; [reflexivity|]. repeat constructor; cbn; lia.
  - split; [reflexivity|]. split; [reflexivity|]. split; [reflexivity|]. intros []; reflexivity.
Qed.
Print Assumptions dropped_expression_refuted.

(** An expression over named arrays and views, kept in a variable and evaluated later (temporary operands: PropExprLife): the same for
    a single operation, undefined for every nested one
    (its inner objects are destroyed with the full expression, the iterators still point to them). *)
Theorem stored_single_expression : forall (V : Type) chk fuel (m : @mem V) e es, expr_ok fuel m e es -> (operations e <= 1)%nat ->
  eval_stored chk m e = eval_expr chk m e.
Proof. exact @stored_single_level. Qed.
Print Assumptions stored_single_expression.

Theorem stored_nested_expression_undefined : forall (V : Type) chk fuel (m : @mem V) e es, expr_ok fuel m e es -> (2 <= operations e)%nat -> 0 < zprod es ->
  eval_stored chk m e = UB.
Proof. exact @stored_nested_undefined. Qed.
Print Assumptions stored_nested_expression_undefined.

Definition ex_expr : @expr Z := EBin Z.add (ELeaf 0 ex_view) (ERight Z.mul (EUn Z.abs (EUn Z.opp (ELeaf 1 (SRef 0 [2])))) 3).
Lemma ex_expr_ok : expr_ok 5 ex_mem ex_expr [2].
Proof.
  constructor; [econstructor; [exact ex_is_view|exact ex_inside]|]. constructor. constructor. constructor.
  econstructor; [repeat split; try discriminate; repeat constructor; try lia|]. exists [10; 20; 30]. split; [reflexivity|]. repeat constructor; cbn; lia.
Qed.
Example expression_ex : expr_ok 5 ex_mem ex_expr [2] /\
  eval_expr true ex_mem ex_expr = Ok ([2], [32; 65], [[(0%nat, 1); (1%nat, 0)]; [(0%nat, 4); (1%nat, 1)]]) /\
  expr_bad 5 ex_mem (EUn Z.opp (EBin Z.add (ELeaf 0 ex_view) (ELeaf 1 (SRef 0 [3])))) /\ operations ex_expr = 4%nat.
Proof.
  split; [exact ex_expr_ok|]. split; [reflexivity|]. split; [|reflexivity]. constructor. eapply bad_here with (es1 := [2]) (es2 := [3]).
  - econstructor; [exact ex_is_view|exact ex_inside].
  - econstructor; [repeat split; try discriminate; repeat constructor; try lia|]. exists [10; 20; 30]. split; [reflexivity|]. repeat constructor; cbn; lia.
  - discriminate.
Qed.

Theorem stored_nested_expression_refuted : exists (m : @mem Z) e es r, expr_ok 5 m e es /\ eval_expr true m e = Ok r /\ eval_stored true m e = UB.
Proof. exists ex_mem, ex_expr, [2]. eexists. split; [exact ex_expr_ok|]. split; vm_compute; reflexivity. Qed.
Print Assumptions stored_nested_expression_refuted.

(** ** C22 *)
(** The second component of the result is the log of the written positions: each element of the view once, in order. *)
Theorem inplace_updates_once : forall (V : Type) chk fuel fu (m : @mem V) sid s es ps f e,
  is_view fuel s es ps -> inside m sid ps -> NoDup ps -> expr_ok fuel m e es -> no_early_write fuel sid ps e -> (length ps < fu)%nat ->
  exists m', view_inplace chk fu m sid s f e = Ok (m', ps) /\
    written m m' sid ps (fun k => match nth_error ps k with Some p => lift2 f (cell m sid p) (value fuel m e k) | None => None end).
Proof. exact @view_inplace_spec. Qed.
Print Assumptions inplace_updates_once.

Theorem inplace_with_itself : forall (V : Type) chk fuel fu (m : @mem V) sid s es ps f,
  is_view fuel s es ps -> inside m sid ps -> NoDup ps -> (length ps < fu)%nat ->
  exists m', view_inplace chk fu m sid s f (ELeaf sid s) = Ok (m', ps) /\
    written m m' sid ps (fun k => match nth_error ps k with Some p => lift1 (fun x => f x x) (cell m sid p) | None => None end).
Proof. exact @view_inplace_self. Qed.
Print Assumptions inplace_with_itself.

(** Scalar operand or in-place application of a unary function. *)
Theorem inplace_unary_updates_once : forall (V : Type) fuel fu (m : @mem V) sid s es ps op,
  is_view fuel s es ps -> inside m sid ps -> NoDup ps -> (length ps < fu)%nat ->
  exists m', view_update fu m sid s op = Ok (m', ps) /\
    written m m' sid ps (fun k => match nth_error ps k with Some p => lift1 op (cell m sid p) | None => None end).
Proof. exact @view_update_spec. Qed.
Print Assumptions inplace_unary_updates_once.

Theorem inplace_extents_checked : forall (V : Type) fuel fu (m : @mem V) sid s es es' ps f e,
  is_view fuel s es ps -> expr_shaped fuel m e es' -> es <> es' -> view_inplace true fu m sid s f e = Abort.
Proof. exact @view_inplace_mismatch. Qed.
Print Assumptions inplace_extents_checked.

Example inplace_ex :
  view_inplace true 5 ex_mem 0 ex_view Z.sub (ELeaf 1 (SRef 0 [2])) = Ok ([[1; -8; 3; 4; -15; 6]; [10; 20; 30]], [1; 4]) /\
  view_inplace true 5 ex_mem 0 ex_view Z.add (ELeaf 0 ex_view) = Ok ([[1; 4; 3; 4; 10; 6]; [10; 20; 30]], [1; 4]) /\
  is_view 5 ex_view [2] [1; 4] /\ inside ex_mem 0 [1; 4] /\ no_early_write 5 0 [1; 4] (ELeaf 1 (SRef 0 [2]) : @expr Z).
Proof.
  split; [reflexivity|]. split; [reflexivity|]. split; [exact ex_is_view|]. split; [exact ex_inside|].
  intros j k p Hjk E. cbn in Hjk. assert (k = 1%nat) by lia. subst. intros [H|[]]. discriminate.
Qed.
