(** * PropBuild: property C61 (checked and unchecked builds).

    [same_or_stops checked unchecked] (Builds.v): the unchecked build never ends at a failed check, and the checked build either ends at
    a failed check or has exactly the same result, exception, undefined behaviour or endless loop. *)

From Coq Require Import ZArith List Bool Lia Arith Floats.SpecFloat.
From Verif Require Import Base Spec Desc Slice Expr Numeric ArrAssign ExprLife Coerce Reduce Stats Random Freq RangeLoop Builds.
Import ListNotations.
Open Scope Z_scope.

(** Indexing, slicing, dropping dimensions and iterating over an axis. *)
Theorem C61_indexing : forall fuel s,
  (forall us, same_or_stops (run true fuel s us) (run false fuel s us)) /\
  (forall D, same_or_stops (drop_to true D s) (drop_to false D s)) /\
  same_or_stops (drop_to_scalar true s) (drop_to_scalar false s) /\
  (forall axis, same_or_stops (axis_items true fuel axis s) (axis_items false fuel axis s)) /\
  (forall es, same_or_stops (reshape_ref true s es) (reshape_ref false s es)).
Proof.
  intros fuel s. repeat split; intros; first [apply so_run|apply so_drop_to|apply so_drop_to_scalar|apply so_axis_items|apply so_reshape].
Qed.
Print Assumptions C61_indexing.

(** Evaluating expressions and assigning them. *)
Theorem C61_expressions : forall (V : Type) fuel (m : @mem V) e,
  same_or_stops (eval_expr true m e) (eval_expr false m e) /\ same_or_stops (eval_stored true m e) (eval_stored false m e) /\
  (forall sid s, same_or_stops (view_assign true fuel m sid s e) (view_assign false fuel m sid s e)) /\
  (forall sid s f, same_or_stops (view_inplace true fuel m sid s f e) (view_inplace false fuel m sid s f e)) /\
  (forall sid s, same_or_stops (overlap_assign true fuel m sid s e) (overlap_assign false fuel m sid s e)) /\
  (forall sid es, same_or_stops (array_set true fuel m sid es e) (array_set false fuel m sid es e)) /\
  (forall le, same_or_stops (leval_expr true m le) (leval_expr false m le) /\ same_or_stops (leval_stored true m le) (leval_stored false m le)).
Proof.
  intros V fuel m e.
  split; [apply so_eval_expr|]. split; [apply so_eval_stored|]. split; [intros; apply so_view_assign|]. split; [intros; apply so_view_inplace|].
  split; [intros; apply so_overlap_assign|]. split; [intros; apply so_array_set|]. intros le. apply so_leval.
Qed.
Print Assumptions C61_expressions.

(** Products, [cat], [as_vector], [seq]. *)
Theorem C61_functions : forall (V : Type) (zero : V) (add mul : V -> V -> V) fuel (m : @mem V),
  (forall sa a sb b, same_or_stops (product zero add mul true fuel m sa a sb b) (product zero add mul false fuel m sa a sb b)) /\
  (forall sa offa ea sb offb eb alpha junk,
    same_or_stops (blas_product zero add mul true m sa offa ea sb offb eb alpha junk) (blas_product zero add mul false m sa offa ea sb offb eb alpha junk)) /\
  (forall conv args, same_or_stops (cat conv true args : outcome (list Z * list V)) (cat conv false args)) /\
  (forall conv e, same_or_stops (as_vector conv true fuel m e) (as_vector conv false fuel m e)) /\
  (forall a b c, same_or_stops (seq_model true a b c) (seq_model false a b c)).
Proof.
  intros V zero add mul fuel m. split; [intros; apply so_product|]. split; [intros; apply so_blas|]. split; [intros; apply so_cat|].
  split; [intros; apply so_as_vector|]. intros a b c. apply so_seq.
Qed.
Print Assumptions C61_functions.

(** Algorithms applied to arrays, views and expressions. *)
Theorem C61_algorithms : forall (V : Type) (lt : V -> V -> bool) (b : V -> bool) fuel (m : @mem V) e,
  (forall x, same_or_stops (r_max lt true fuel m e x) (r_max lt false fuel m e x) /\ same_or_stops (r_min lt true fuel m e x) (r_min lt false fuel m e x) /\
             same_or_stops (r_which_max lt true fuel m e x) (r_which_max lt false fuel m e x) /\
             same_or_stops (r_which_min lt true fuel m e x) (r_which_min lt false fuel m e x)) /\
  (forall ne n, same_or_stops (r_nth ne true fuel m e n) (r_nth ne false fuel m e n)) /\
  same_or_stops (r_count b true fuel m e) (r_count b false fuel m e) /\ same_or_stops (r_which b true fuel m e) (r_which b false fuel m e) /\
  same_or_stops (r_all b true fuel m e) (r_all b false fuel m e) /\ same_or_stops (r_none b true fuel m e) (r_none b false fuel m e) /\
  same_or_stops (r_any b true fuel m e) (r_any b false fuel m e) /\ same_or_stops (r_freq b true fuel m e) (r_freq b false fuel m e).
Proof.
  intros V lt b fuel m e.
  assert (L : forall S R (body : S -> V -> outcome (step S R)) fin h last fuel first s, (forall s v, body s v <> Abort) -> for_loop body fin fuel h m first last s <> Abort)
    by (intros; now apply na_for_loop).
  assert (C : same_or_stops (r_count b true fuel m e) (r_count b false fuel m e)).
  { apply so_ranged. intros h s. apply L. intros st v. unfold goes. discriminate. }
  split.
  { intros x. repeat split; try (apply so_ranged; intros h s; apply na_bind; [apply L; intros st v; unfold goes; try destruct st as [[? ?] ?]; discriminate|discriminate]). }
  split; [|split; [exact C|]].
  - intros ne n. apply so_ranged. intros h s. apply na_bind; [apply L; intros st v; unfold goes; discriminate|]. intros a. unfold nth_model. na.
  - split; [apply so_ranged; intros h s; apply L; intros [i l] v; discriminate|].
    split; [apply so_ranged; intros h s; apply L; intros u v; discriminate|].
    split; [apply so_ranged; intros h s; apply L; intros u v; discriminate|].
    split; [apply so_ranged; intros h s; apply L; intros u v; discriminate|].
    unfold r_freq. apply so_bind; [exact C|]. intros a. apply so_ranged. discriminate.
Qed.
Print Assumptions C61_algorithms.

(** Integer ([t]: the element type) and double sums, products, means and variances. *)
Theorem C61_sums : forall t fuel,
  (forall (m : @mem Z) e x,
    same_or_stops (r_isum t true fuel m e x) (r_isum t false fuel m e x) /\ same_or_stops (r_iprod t true fuel m e x) (r_iprod t false fuel m e x) /\
    same_or_stops (r_imean_iter t true fuel m e x) (r_imean_iter t false fuel m e x) /\ same_or_stops (r_imean t true fuel m e x) (r_imean t false fuel m e x) /\
    same_or_stops (r_ivar t true fuel m e x) (r_ivar t false fuel m e x)) /\
  (forall (m : @mem spec_float) e x,
    same_or_stops (r_fsum true fuel m e x) (r_fsum false fuel m e x) /\ same_or_stops (r_fmean_iter true fuel m e x) (r_fmean_iter false fuel m e x) /\
    same_or_stops (r_fmean true fuel m e x) (r_fmean false fuel m e x) /\ same_or_stops (r_fvar true fuel m e x) (r_fvar false fuel m e x) /\
    same_or_stops (r_fsd true fuel m e x) (r_fsd false fuel m e x) /\ same_or_stops (r_fmeansd true fuel m e x) (r_fmeansd false fuel m e x)).
Proof.
  intros t fuel.
  assert (LI : forall S R (m : @mem Z) (body : S -> Z -> outcome (step S R)) fin h last fuel first s, (forall s v, body s v <> Abort) -> for_loop body fin fuel h m first last s <> Abort)
    by (intros; now apply na_for_loop).
  assert (LF : forall S R (m : @mem spec_float) (body : S -> spec_float -> outcome (step S R)) fin h last fuel first s, (forall s v, body s v <> Abort) -> for_loop body fin fuel h m first last s <> Abort)
    by (intros; now apply na_for_loop).
  assert (A : forall a b, iadd t a b <> Abort) by (intros; unfold iadd, arith; na).
  assert (M : forall a b, imul t a b <> Abort) by (intros; unfold imul, arith; na).
  assert (D : forall u a b, idiv t u a b <> Abort) by (intros; unfold idiv, arith; na).
  assert (Q : forall mu a b, isquare_step t mu a b <> Abort) by (intros; unfold isquare_step, arith; na).
  assert (N : forall fuel (a b : xit), distance fuel a b <> Abort).
  { induction fuel0 as [|f IH]; intros a b; cbn [distance]; [discriminate|]. destruct (xeqb a b); [discriminate|].
    apply na_bind; [apply na_xnext|]. intros a'. apply na_bind; [apply IH|discriminate]. }
  assert (I : forall f : Z -> Z -> outcome Z, (forall a b, f a b <> Abort) -> forall s v, goesO f s v <> (Abort : outcome (step Z Z))).
  { intros f Hf s v. unfold goesO. na. }
  assert (FV : forall (m : @mem spec_float) e x, same_or_stops (r_fvar true fuel m e x) (r_fvar false fuel m e x)).
  { intros m e x. apply so_ranged. intros h s. unfold it_fmean. repeat (apply na_bind; [|intros]); try apply N; try apply LF; try discriminate; try (intros; unfold goes; discriminate). }
  split.
  - intros m e x. repeat split; try (apply so_ranged; intros h s); unfold it_imean.
    all: repeat (apply na_bind; [|intros]); try apply LI; try apply N; try apply D; try (apply I; assumption); try apply I, Q.
  - intros m e x. split; [|split; [|split; [|split; [|split]]]].
    1-3: apply so_ranged; intros h s; unfold it_fmean; repeat (apply na_bind; [|intros]); try apply N; try apply LF; try discriminate; intros; unfold goes; discriminate.
    + apply FV.
    + unfold r_fsd. apply so_bind; [apply FV|]. intros. apply so_ok.
    + apply so_ranged. intros h s. unfold it_fmean. repeat (apply na_bind; [|intros]); try apply N; try apply LF; try discriminate; try (intros; unfold goes; discriminate).
Qed.
Print Assumptions C61_sums.

(** The checked build stops where the unchecked one goes on (reading outside); otherwise both do the same, whatever it is. *)
Example C61_ex :
  (run true 10 (SRef 0 [2; 3]) [UIdx 0; UIdx 5] = Abort /\ run false 10 (SRef 0 [2; 3]) [UIdx 0; UIdx 5] = Ok (SElem 10)) /\
  (run true 10 (SRef 0 [2; 3]) [USlice 0 1; UIdx 2] = run false 10 (SRef 0 [2; 3]) [USlice 0 1; UIdx 2] /\
   run true 10 (SRef 0 [2; 3]) [USlice 0 1; UIdx 2] = Ok (SView 0 (MId (SD 4 [1; 1] [1; 1])))) /\
  (seq_model true 0 5 0 = Abort /\ seq_model false 0 5 0 = UB) /\
  (eval_expr true [[1; 2; 3]] (EBin Z.add (ELeaf 0 (SRef 0 [2])) (ELeaf 0 (SRef 0 [3]))) = Abort /\
   exists r, eval_expr false [[1; 2; 3]] (EBin Z.add (ELeaf 0 (SRef 0 [2])) (ELeaf 0 (SRef 0 [3]))) = Ok r).
Proof.
  repeat split; try (vm_compute; reflexivity). eexists. vm_compute. reflexivity.
Qed.
