(** * PropLost: C63, which chains of subscripts use every subscript. *)

From Coq Require Import ZArith List Bool Lia.
From Verif Require Import Base Spec Desc Slice SliceSpec Lemmas RunProofs ViewThms SliceLost.
Import ListNotations.
Open Scope Z_scope.

(** On any view made by any history, a valid chain of subscripts that loses none ([loses], by the kind of the source and the position of
    the subscripts) denotes the selected elements; one that loses a subscript reads a dead object (or does not compile), in checked and
    unchecked builds. *)
Theorem subscript_chain_exact : forall chk es steps us,
  good_shape es -> ok_steps (afull es) steps -> ok_step (aselects (afull es) steps) us ->
  exists fuel0, forall fuel, (fuel0 <= fuel)%nat -> exists s shape ps,
    foldO (run chk fuel) steps (SRef 0 es) = Ok s /\ dims s = Some shape /\ positions fuel s = Ok ps /\
    (loses (contiguous s) us = true -> run chk fuel s us = UB) /\
    (loses (contiguous s) us = false -> exists s', run chk fuel s us = Ok s' /\ dims s' = Some (result_shape us shape) /\
       positions fuel s' = Ok (map (aview_at (shape, ps)) (cart (sels us shape)))).
Proof. exact subscripts_used_l. Qed.
Print Assumptions subscript_chain_exact.

(** [b[every][slice(0, at_most(2))][1]] is lost on a contiguous array and not on a strided view. *)
Example subscript_chain_exact_ex :
  ok_steps (afull [4; 3; 2]) [[UStrided 0 2 2; UEvery; UEvery]] /\
  ok_step (aselects (afull [4; 3; 2]) [[UStrided 0 2 2; UEvery; UEvery]]) [UEvery; UBound 0 2; UIdx 1] /\
  ok_step (afull [4; 3; 2]) [UEvery; UBound 0 2; UIdx 1] /\
  run true 100 (SRef 0 [4; 3; 2]) [UEvery; UBound 0 2; UIdx 1] = UB /\
  (let* s := run true 100 (SRef 0 [4; 3; 2]) [UStrided 0 2 2; UEvery; UEvery] in
   let* s' := run true 100 s [UEvery; UBound 0 2; UIdx 1] in let* ps := positions 100 s' in Ok (dims s', ps))
  = Ok (Some [2; 2; 1], [12; 14; 16; 18]).
Proof.
  split; [|split; [|split]]; [..|split; vm_compute; reflexivity];
    vm_compute; repeat (split || constructor); try discriminate; try reflexivity; auto.
Qed.

(** [a[slice(0, 2)][1][0]] of a 3 x 3 x 3 array, all of whose subscripts are in range, is undefined. *)
Theorem middle_subscript_lost_refuted : exists es us, good_shape es /\ ok_step (afull es) us /\
  forall chk fuel, run chk fuel (SRef 0 es) us = UB.
Proof.
  exists [3; 3; 3], [USlice 0 2; UIdx 1; UIdx 0]. split; [repeat split; repeat constructor; vm_compute; congruence|]. split.
  - vm_compute; repeat (split || constructor); try discriminate; try reflexivity; auto.
  - intros [] fuel; vm_compute; reflexivity.
Qed.
Print Assumptions middle_subscript_lost_refuted.

(** Vectors and matrices: no chain loses a subscript, so every history of valid slicings is defined. *)
Lemma short_never_loses b us : (length us <= 2)%nat -> loses b us = false.
Proof.
  intros H. destruct us as [|u [|v [|w us]]]; [reflexivity|destruct u, b; reflexivity|destruct u, v, b; reflexivity|].
  simpl in H. lia.
Qed.

Lemma result_order us : forall es, (length (result_shape us es) <= length es)%nat.
Proof.
  assert (S : forall us es, (length (map (fun s : list Z => Z.of_nat (length s)) (sels us es)) <= length es)%nat).
  { intros l es. rewrite map_length. revert es. induction l as [|u l IH]; intros [|e es]; simpl; try lia. specialize (IH es). lia. }
  induction us as [|u us IH]; intros [|e es]; [apply (S [] [])|apply (S [] (e :: es))|destruct u; cbn; lia|].
  destruct u; try exact (S (_ :: us) (e :: es)). cbn [result_shape length]. specialize (IH es). lia.
Qed.

Lemma valid_ok v steps : (length (fst v) <= 2)%nat -> valid_steps v steps -> ok_steps v steps.
Proof.
  revert v. induction steps as [|us steps IH]; intros v Hl H; [exact I|]. destruct H as [H1 H2]. cbn [ok_steps].
  split; [exact H1|]. split.
  - apply short_never_loses. destruct H1 as [H1 _]. apply Forall2_len in H1. lia.
  - apply IH; auto. unfold aselect. cbn [fst]. pose proof (result_order us (fst v)). lia.
Qed.

Theorem matrix_slicings_defined : forall chk es steps, good_shape es -> (length es <= 2)%nat -> valid_steps (afull es) steps ->
  exists fuel0, forall fuel, (fuel0 <= fuel)%nat -> exists s,
    foldO (run chk fuel) steps (SRef 0 es) = Ok s /\
    dims s = Some (fst (aselects (afull es) steps)) /\ positions fuel s = Ok (snd (aselects (afull es) steps)).
Proof.
  intros chk es steps Hg Hl Hv. destruct (history_ok chk es steps Hg (valid_ok (afull es) steps Hl Hv)) as (f0 & H). exists f0. intros fuel Hf.
  destruct (H fuel Hf) as (s & E & I & Hz). exists s. split; [exact E|]. split; [apply (sinv_dims _ _ I)|apply (sinv_positions _ _ _ I Hz)].
Qed.
Print Assumptions matrix_slicings_defined.

Example matrix_slicings_defined_ex :
  valid_steps (afull [4; 5]) [[USlice 1 3; UStrided 0 2 3]; [URange [2; 0]; UIdx 1]; [UIdx 1; UEvery]] /\
  aselects (afull [4; 5]) [[USlice 1 3; UStrided 0 2 3]; [URange [2; 0]; UIdx 1]; [UIdx 1; UEvery]] = ([1], [13]).
Proof. split; [vm_compute; repeat (split || constructor); try discriminate; try reflexivity; auto|reflexivity]. Qed.
