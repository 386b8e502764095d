(** * PropThrows: property C69 (the throwing build).

    [run], [drop_to], ..., [view_assign] with [true] are the checked build, where a failed check stops the program ([Abort]); [t_run], [t_drop_to], ...
    (Throws.v) are the build with JULES_DEBUG_THROWS, where it throws [std::logic_error], or stops the program when the check is in a
    [noexcept] function.  [as_exception c] (ThrowsProofs.v) is [c] with [Abort] replaced by the exception.  [proper_arg]: an index is not negative (it is
    unsigned) and a range of indexes is not empty. *)

From Coq Require Import ZArith List Bool Lia Arith.
From Verif Require Import Base Spec Desc Slice SliceSpec Expr ExprSpec Numeric ArrAssign Lemmas DescProofs RunProofs ViewThms ViewThms3 ViewThms4 ExprProofs ExprThms PropView PropExpr Throws ThrowsProofs.
Import ListNotations.
Open Scope Z_scope.

(** ** subscripts *)
(** Whatever the subscripts of a view obtained by valid slicings of an array, in or out of range: the throwing build has the result of the checked
    one, and throws where that one stops. *)
Theorem throwing_indexing : forall es steps us, good_shape es -> ok_steps (afull es) steps ->
  (length us <= length (fst (aselects (afull es) steps)))%nat -> Forall proper_arg us ->
  exists fuel0, forall fuel, (fuel0 <= fuel)%nat -> exists s,
    foldO (run true fuel) steps (SRef 0 es) = Ok s /\ foldO (t_run fuel) steps (SRef 0 es) = Ok s /\ t_run fuel s us = as_exception (run true fuel s us).
Proof. exact exceptions_reached. Qed.
Print Assumptions throwing_indexing.

(** An out of range subscript, anywhere among valid ones: an exception. *)
Theorem throwing_rejects : forall es steps us, good_shape es -> ok_steps (afull es) steps ->
  Forall2 (fun u e => ok_arg u e \/ bad_arg u e) us (fst (aselects (afull es) steps)) ->
  ~ Forall2 ok_arg us (fst (aselects (afull es) steps)) -> loses true us = false ->
  exists fuel0, forall fuel, (fuel0 <= fuel)%nat -> exists s,
    foldO (t_run fuel) steps (SRef 0 es) = Ok s /\ t_run fuel s us = Throw LogicError.
Proof.
  intros es steps us G H B N L. assert (P : Forall proper_arg us).
  { destruct (reachable_is_view true es steps G H) as [f K]. destruct (K f ltac:(lia)) as (_ & shape & ps & _ & E & (_ & _ & _ & Hn & _) & _). rewrite E in B. cbn [fst] in B.
    clear - B Hn. induction B as [|u e us l Hu _ IH]; inversion Hn; subst; constructor; auto. destruct u; cbn in *; try exact I; try lia.
    destruct Hu as [[Hu _]|[_ Hu]]; [exact Hu|]. intros ->. now inversion Hu. }
  destruct (out_of_range_always_rejected es steps us G H B N L) as [f1 K1].
  destruct (throwing_indexing es steps us G H ltac:(rewrite (Forall2_len _ _ _ B); lia) P) as [f2 K2].
  exists (Nat.max f1 f2). intros fuel Hf. destruct (K1 fuel ltac:(lia)) as (s & E & A). destruct (K2 fuel ltac:(lia)) as (s' & E' & T & Q).
  rewrite E in E'. injection E' as <-. exists s. split; [exact T|]. rewrite Q, A. reflexivity.
Qed.
Print Assumptions throwing_rejects.

Example throwing_ex :
  t_run 20 (SRef 0 [2; 3]) [UIdx 1; UIdx 2] = Ok (SElem 5) /\ t_run 20 (SRef 0 [2; 3]) [UIdx 1; UIdx 3] = Throw LogicError /\
  run true 20 (SRef 0 [2; 3]) [UIdx 1; UIdx 3] = Abort /\ t_run 20 (SRef 0 [4; 5]) [UEvery; UStrided 1 3 2] = Throw LogicError /\
  t_run 20 (SRef 0 [4; 5]) [URange [0; 4]; UEvery] = Throw LogicError /\ Forall proper_arg [URange [0; 4]; UEvery] /\ bad_arg (URange [0; 4]) 4.
Proof. repeat split; try reflexivity. - repeat constructor; discriminate. - repeat constructor; lia. - right. left. lia. Qed.

(** Items of an axis, and matrix products (element by element) of such views. *)
Lemma reached_tame : forall es steps, good_shape es -> ok_steps (afull es) steps -> exists fuel0, forall fuel, (fuel0 <= fuel)%nat -> exists s,
  foldO (run true fuel) steps (SRef 0 es) = Ok s /\ foldO (t_run fuel) steps (SRef 0 es) = Ok s /\ tame fuel s /\ (forall x, dims s = Some x -> length x = left_dims s).
Proof.
  intros es steps G H. exists (Nat.max (steps_fuel (afull es) steps) (S (Z.to_nat (zprod (fst (aselects (afull es) steps)))))). intros fuel Hf.
  destruct (reachable_aux true (zprod es) steps fuel (SRef 0 es) (afull es) (sinv_full es G)) as [s [E [I _]]]; auto; try lia.
  { cbn. apply Forall_forall. intros p Hp. apply in_iota in Hp. exact Hp. }
  exists s. split; [exact E|]. split; [exact (ti_Ok _ _ _ (ti_steps fuel steps _) E)|]. destruct (sinv_tame fuel s _ I ltac:(lia)) as [T LD]. split; [exact T|].
  intros x Hx. rewrite (sinv_dims _ _ I) in Hx. injection Hx as <-. auto.
Qed.
Theorem throwing_axes : forall es steps axis, good_shape es -> ok_steps (afull es) steps ->
  exists fuel0, forall fuel, (fuel0 <= fuel)%nat -> exists s, foldO (run true fuel) steps (SRef 0 es) = Ok s /\ foldO (t_run fuel) steps (SRef 0 es) = Ok s /\
    t_axis_items fuel axis s = as_exception (axis_items true fuel axis s).
Proof.
  intros es steps axis G H. destruct (reached_tame es steps G H) as [f K]. exists f. intros fuel Hf. destruct (K fuel Hf) as (s & E & E' & T & D). exists s. split; auto. split; auto.
  apply ti_exception; [apply ti_axis_items|now apply t_axis_items_na].
Qed.
Print Assumptions throwing_axes.
Theorem throwing_products : forall (V : Type) (zero : V) (add mul : V -> V -> V) ea sta eb stb,
  good_shape ea -> ok_steps (afull ea) sta -> good_shape eb -> ok_steps (afull eb) stb ->
  exists fuel0, forall fuel, (fuel0 <= fuel)%nat -> exists a b, foldO (t_run fuel) sta (SRef 0 ea) = Ok a /\ foldO (t_run fuel) stb (SRef 0 eb) = Ok b /\
    forall (m : @mem V) sa sb, t_product zero add mul fuel m sa a sb b = as_exception (product zero add mul true fuel m sa a sb b).
Proof.
  intros V zero add mul ea sta eb stb Ga Ha Gb Hb. destruct (reached_tame ea sta Ga Ha) as [f K]. destruct (reached_tame eb stb Gb Hb) as [f' K'].
  exists (Nat.max f f'). intros fuel Hf. destruct (K fuel ltac:(lia)) as (a & _ & E & T & D). destruct (K' fuel ltac:(lia)) as (b & _ & E' & T' & D').
  exists a, b. split; auto. split; auto. intros m sa sb. apply ti_exception; [apply ti_product|now apply t_product_na].
Qed.
Print Assumptions throwing_products.

(** Matrices that cannot be multiplied: an exception. *)
Theorem throwing_bad_products : forall (V : Type) (zero : V) (add mul : V -> V -> V) fuel (m : @mem V) sa a sb b r c r' c',
  dims a = Some [r; c] -> dims b = Some [r'; c'] -> c <> r' \/ prod_arr [r; c] = 0 \/ prod_arr [r'; c'] = 0 ->
  t_product zero add mul fuel m sa a sb b = Throw LogicError /\
  forall oa ob alpha junk, t_blas_product zero add mul m sa oa [r; c] sb ob [r'; c'] alpha junk = Throw LogicError.
Proof.
  intros V zero add mul fuel m sa a sb b r c r' c' Ha Hb C. unfold t_product. rewrite Ha, Hb. unfold t_blas_product.
  destruct ((0 <? prod_arr [r; c]) && (0 <? prod_arr [r'; c'])) eqn:E; cbn [tassert bindO]; [|split; reflexivity].
  destruct C as [C|C]; [|destruct C as [C|C]; rewrite C in E; try rewrite andb_false_r in E; discriminate E].
  replace (c =? r') with false by (symmetry; now apply Z.eqb_neq). split; reflexivity.
Qed.
Print Assumptions throwing_bad_products.

(** [drop_to], [blas::product] and [seq], whatever the arguments. *)
Theorem throwing_functions : forall (V : Type) (zero : V) (add mul : V -> V -> V),
  (forall (m : @mem V) sa oa ea sb ob eb alpha junk,
    t_blas_product zero add mul m sa oa ea sb ob eb alpha junk = as_exception (blas_product zero add mul true m sa oa ea sb ob eb alpha junk)) /\
  (forall a b c, t_seq_model a b c = as_exception (seq_model true a b c)) /\
  (forall D s, t_drop_to D s = as_exception (drop_to true D s)) /\
  (forall s, t_drop_to_scalar s = as_exception (drop_to_scalar true s)).
Proof.
  intros. repeat split; intros.
  - apply ti_exception; [apply ti_blas|apply t_blas_na].
  - apply ti_exception; [apply ti_seq|apply t_seq_na].
  - apply ti_exception; [apply ti_drop_to|apply t_drop_to_na].
  - apply ti_exception; [apply ti_drop_to_scalar|apply t_drop_to_scalar_na].
Qed.
Print Assumptions throwing_functions.

Example throwing_functions_ex :
  t_product 0 Z.add Z.mul 20 [[1; 2; 3; 4; 5; 6]] 0 (SRef 0 [2; 3]) 0 (SRef 0 [3; 2]) = Ok ([2; 2], [22; 28; 49; 64]) /\
  t_product 0 Z.add Z.mul 20 [[1; 2; 3; 4; 5; 6]] 0 (SRef 0 [2; 3]) 0 (SRef 0 [2; 3]) = Throw LogicError /\
  t_seq_model 0 4 2 = Ok [0; 2; 4] /\ t_seq_model 0 4 0 = Throw LogicError /\ t_seq_model 4 0 1 = Throw LogicError /\
  t_axis_items 20 1 (SRef 0 [2; 3]) = axis_items true 20 1 (SRef 0 [2; 3]) /\ (exists l, t_axis_items 20 1 (SRef 0 [2; 3]) = Ok l /\ length l = 3%nat) /\
  t_drop_to 1 (SRef 0 [2; 3]) = Throw LogicError /\ t_drop_to 1 (SRef 0 [1; 3]) = Ok (SRef 0 [3]).
Proof. repeat split; try reflexivity. eexists. split; reflexivity. Qed.

(** ** where the program stops all the same: the check is in a [noexcept] function *)
Theorem throwing_terminates_refuted :
  (exists us, t_run 20 (SRef 0 [2; 3]) us = Abort /\ (length us = 2)%nat) /\
  (exists es i, t_run 20 (SRef 0 es) [UIdx i] = Abort /\ 0 <= i < hd 0 es) /\
  (exists es es', prod_arr es <> prod_arr es' /\ t_reshape_ref (SRef 0 es) es' = Abort).
Proof.
  split; [exists [URange []; UEvery]; split; reflexivity|]. split; [exists [2; 0], 1; split; [reflexivity|cbn; lia]|].
  exists [2; 3], [4]. split; [discriminate|reflexivity].
Qed.
Print Assumptions throwing_terminates_refuted.
(** Reshaping never throws: it is the checked build. *)
Theorem throwing_reshape : forall s es, t_reshape_ref s es = reshape_ref true s es.
Proof. intros s es. unfold t_reshape_ref, reshape_ref. destruct s; try reflexivity. unfold dassert, tassert. destruct (_ =? _); reflexivity. Qed.
Print Assumptions throwing_reshape.

(** ** assignments *)
(** The same values as in the checked build when it succeeds; never the end of the program. *)
Theorem throwing_assignment : forall (V : Type) fuel (m : @mem V) sid s e,
  assign_throws (view_assign true fuel m sid s e) (t_view_assign fuel m sid s e) /\
  (forall f, assign_throws (let* q := view_inplace true fuel m sid s f e in Ok (fst q)) (t_view_inplace fuel m sid s f e)) /\
  assign_throws (overlap_assign true fuel m sid s e) (t_overlap_assign fuel m sid s e) /\
  t_eval_expr m e = as_exception (eval_expr true m e) /\
  (forall es, match array_set true fuel m sid es e with
              | Ok (m', es') => t_array_set fuel m sid es e = (Ok es', m')
              | Throw x => fst (t_array_set fuel m sid es e) = Throw x
              | Abort => t_array_set fuel m sid es e = (Throw LogicError, m)
              | UB => fst (t_array_set fuel m sid es e) = UB
              | Timeout => fst (t_array_set fuel m sid es e) = Timeout
              end).
Proof.
  intros. split; [apply view_assign_throws|]. split; [intros; apply view_inplace_throws|]. split; [apply overlap_assign_throws|]. split; [apply t_eval_eq|].
  intros. apply array_set_throws.
Qed.
Print Assumptions throwing_assignment.

(** Different extents, in the expression or between it and the view: an exception, and nothing has been written. *)
Theorem throwing_mismatch : forall (V : Type) fuel fu (m : @mem V) sid s es ps e, is_view fuel s es ps ->
  (expr_bad fuel m e \/ (exists es', expr_shaped fuel m e es' /\ es' <> es) ->
    t_view_assign fu m sid s e = (Throw LogicError, m) /\ forall f, t_view_inplace fu m sid s f e = (Throw LogicError, m)) /\
  (expr_bad fuel m e \/ (exists es', expr_ok fuel m e es' /\ es' <> es) -> t_overlap_assign fu m sid s e = (Throw LogicError, m)) /\
  (expr_bad fuel m e -> t_eval_expr m e = Throw LogicError /\ forall ea, t_array_set fu m sid ea e = (Throw LogicError, m)).
Proof.
  intros V fuel fu m sid s es ps e Hv. split; [|split].
  - intros M. split; [now apply (view_assign_clean fuel fu m sid s es ps)|intros; now apply (view_inplace_clean fuel fu m sid s es ps)].
  - intros M. now apply (overlap_assign_clean fuel fu m sid s es ps).
  - intros B. split; [rewrite t_eval_eq; unfold eval_expr; rewrite (build_bad _ _ _ B); reflexivity|].
    intros ea. pose proof (array_set_throws fu m sid ea e) as K. rewrite (array_set_mismatch _ _ _ _ _ _ B) in K. exact K.
Qed.
Print Assumptions throwing_mismatch.

Example throwing_assign_ex :
  t_view_assign 20 [[1; 2; 3; 4; 5; 6]; [10; 20; 30]] 0 (SRef 0 [3]) (ELeaf 1 (SRef 0 [3])) = (Ok tt, [[10; 20; 30; 4; 5; 6]; [10; 20; 30]]) /\
  t_view_assign 20 [[1; 2; 3; 4; 5; 6]; [10; 20; 30]] 0 (SRef 0 [2]) (ELeaf 1 (SRef 0 [3])) = (Throw LogicError, [[1; 2; 3; 4; 5; 6]; [10; 20; 30]]) /\
  t_view_inplace 20 [[1; 2; 3; 4; 5; 6]; [10; 20; 30]] 0 (SRef 0 [2]) Z.add (ELeaf 1 (SRef 0 [3])) = (Throw LogicError, [[1; 2; 3; 4; 5; 6]; [10; 20; 30]]) /\
  t_array_set 20 [[1; 2; 3; 4; 5; 6]; [10; 20; 30]] 0 [2; 3] (EBin Z.add (ELeaf 1 (SRef 0 [3])) (ELeaf 0 (SRef 0 [2]))) = (Throw LogicError, [[1; 2; 3; 4; 5; 6]; [10; 20; 30]]) /\
  is_view 20 (SRef 0 [2]) [2] [0; 1] /\ expr_shaped 20 [[1; 2; 3; 4; 5; 6]; [10; 20; 30]] (ELeaf 1 (SRef 0 [3])) [3].
Proof.
  repeat split; try reflexivity; try discriminate; try (cbn; lia); try (repeat constructor; lia).
  eapply sh_leaf with (ps := [0; 1; 2]).
  - repeat split; try reflexivity; try discriminate; try (cbn; lia); try (repeat constructor; lia).
  - eexists. split; [reflexivity|]. repeat constructor; cbn; lia.
Qed.
