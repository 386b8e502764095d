(** * PropInplaceRef: property C66 (in-place operations whose scalar operand is an element). *)

From Coq Require Import ZArith List Bool Lia.
From Verif Require Import Base Spec Desc Slice SliceSpec Lemmas Expr ExprSpec ExprProofs ExprThms InplaceRef.
Import ListNotations.
Open Scope Z_scope.

Section Thms.
Context {V : Type}.
Notation mem := (@mem V).

(** Exactly what [view op= element] does: every element of the view is written once, in order; the elements up to the one that is
    the operand are combined with its old value [c], the operand becomes [f c c], and the elements after it are combined with that. *)
Theorem inplace_element_operand : forall fuel fu (m : mem) sid s es ps f k rp c,
  is_view fuel s es ps -> inside m sid ps -> NoDup ps -> (length ps < fu)%nat -> nth_error ps k = Some rp -> cell m sid rp = Some c ->
  exists m', view_update_ref fu m sid s f sid rp = Ok (m', ps) /\
    written m m' sid ps (fun j => match nth_error ps j with
                                  | Some p => lift1 (fun x => if Nat.leb j k then f x c else f x (f c c)) (cell m sid p)
                                  | None => None end).
Proof.
  intros fuel fu m sid s es ps f k rp c Hv Hi N Hf E C.
  assert (Hr : inside m sid [rp]). { destruct Hi as (cs & Hc & F). exists cs. split; auto. constructor; auto. rewrite Forall_forall in F. apply F. eapply nth_error_In, E. }
  destruct (view_update_ref_spec fuel fu m sid s es ps f sid rp Hv Hi N Hr Hf) as [m' [R [W1 [W2 [W3 W4]]]]].
  exists m'. split; auto. split; [|split; [|split]]; auto. intros j p Ej. destruct (W4 j p Ej) as [W5 W6].
  assert (X : updated m sid ps f sid rp j = match nth_error ps j with Some q => lift1 (fun x => if Nat.leb j k then f x c else f x (f c c)) (cell m sid q) | None => None end); [|rewrite <- X; auto].
  unfold updated, scalar_at. rewrite Ej, Nat.eqb_refl, C. cbn [andb lift1].
  assert (B : existsb (Z.eqb rp) (firstn j ps) = negb (Nat.leb j k)).
  { destruct (Nat.leb_spec j k) as [L|L]; cbn [negb].
    - apply not_true_iff_false. intros H. apply existsb_In in H. revert H. apply (NoDup_nth_firstn ps j k rp N E). exact L.
    - apply existsb_In. apply nth_error_In with (n := k).
      assert (A : forall (l : list Z) a b, (a < b)%nat -> nth_error (firstn b l) a = nth_error l a).
      { intros l. induction l as [|x l IH]; intros [|a] [|b] Hab; cbn; auto; try lia. apply IH. lia. }
      rewrite A by exact L. exact E. }
  rewrite B. destruct (cell m sid p) as [x|]; destruct (Nat.leb j k); reflexivity.
Qed.

(** The operand is not an element of the view: as with a scalar variable. *)
Theorem inplace_other_element : forall fuel fu (m : mem) sid s es ps f rs rp c,
  is_view fuel s es ps -> inside m sid ps -> NoDup ps -> (length ps < fu)%nat -> inside m rs [rp] -> cell m rs rp = Some c -> (rs <> sid \/ ~ In rp ps) ->
  exists m', view_update_ref fu m sid s f rs rp = Ok (m', ps) /\
    written m m' sid ps (fun j => match nth_error ps j with Some p => lift1 (fun x => f x c) (cell m sid p) | None => None end).
Proof.
  intros fuel fu m sid s es ps f rs rp c Hv Hi N Hf Hr C D.
  destruct (view_update_ref_spec fuel fu m sid s es ps f rs rp Hv Hi N Hr Hf) as [m' [R [W1 [W2 [W3 W4]]]]].
  exists m'. split; auto. split; [|split; [|split]]; auto. intros j p Ej. destruct (W4 j p Ej) as [W5 W6].
  assert (X : updated m sid ps f rs rp j = match nth_error ps j with Some q => lift1 (fun x => f x c) (cell m sid q) | None => None end); [|rewrite <- X; auto].
  unfold updated, scalar_at. rewrite Ej, C.
  replace (Nat.eqb rs sid && existsb (Z.eqb rp) (firstn j ps)) with false; [destruct (cell m sid p); reflexivity|].
  symmetry. apply andb_false_iff. destruct D as [D|D]; [left; apply Nat.eqb_neq; exact D|right]. apply not_true_iff_false. intros H. apply existsb_In in H.
  apply D. apply In_nth_error in H as [i Hi']. apply firstn_nth in Hi'. eapply nth_error_In, Hi'.
Qed.

(** Assigning an element to the whole view is safe: every element gets its old value, whether or not it lies in the view. *)
Theorem fill_with_element : forall fuel fu (m : mem) sid s es ps rs rp c,
  is_view fuel s es ps -> inside m sid ps -> NoDup ps -> (length ps < fu)%nat -> inside m rs [rp] -> cell m rs rp = Some c ->
  exists m', view_fill_ref fu m sid s rs rp = Ok (m', ps) /\ written m m' sid ps (fun _ => Some c).
Proof.
  intros fuel fu m sid s es ps rs rp c Hv Hi N Hf Hr C. unfold view_fill_ref.
  destruct (view_update_ref_spec fuel fu m sid s es ps (fun _ c => c) rs rp Hv Hi N Hr Hf) as [m' [R [W1 [W2 [W3 W4]]]]].
  exists m'. split; auto. split; [|split; [|split]]; auto. intros j p Ej. destruct (W4 j p Ej) as [W5 W6]. split; [discriminate|]. rewrite W6.
  unfold updated, scalar_at. rewrite Ej, C. destruct (load_inside m sid ps p Hi (nth_error_In _ _ Ej)) as [v [_ [-> _]]]. destruct (_ && _); reflexivity.
Qed.

(** The same operation written [view = view op element] takes the scalar by value and evaluates as expected. *)
Theorem out_of_place_element_operand : forall chk fuel fu (m : mem) sid s es ps f c,
  is_view fuel s es ps -> inside m sid ps -> NoDup ps -> (length ps < fu)%nat ->
  exists m', view_assign chk fu m sid s (ERight f (ELeaf sid s) c) = Ok m' /\
    written m m' sid ps (fun j => match nth_error ps j with Some p => lift1 (fun x => f x c) (cell m sid p) | None => None end).
Proof.
  intros chk fuel fu m sid s es ps f c Hv Hi N Hf.
  assert (K : expr_ok fuel m (ERight f (ELeaf sid s) c) es) by (constructor; econstructor; eauto).
  assert (P : positions fuel s = Ok ps) by apply Hv.
  destruct (view_assign_spec chk fuel fu m sid s es ps (ERight f (ELeaf sid s) c) Hv Hi N K) as [m' [R [W1 [W2 [W3 W4]]]]]; auto.
  { apply aligned_early; auto. cbn. auto. }
  exists m'. split; auto. split; [|split; [|split]]; auto. intros j p Ej. destruct (W4 j p Ej) as [W5 W6]. cbn in W5, W6. rewrite P, Ej in W5, W6. rewrite Ej.
  destruct (cell m sid p); auto.
Qed.
End Thms.
Print Assumptions inplace_element_operand.
Print Assumptions inplace_other_element.
Print Assumptions fill_with_element.
Print Assumptions out_of_place_element_operand.

(** [v -= v[1]] on (5, 2, 7): (3, 0, 7) instead of (3, 0, 5); [v = v[1]]: (2, 2, 2); [v = v - v[1]]: (3, 0, 5). *)
Definition ex_v : @mem Z := [[5; 2; 7]].
Lemma ex_v_view : is_view 5 (SRef 0 [3]) [3] [0; 1; 2] /\ inside ex_v 0 [0; 1; 2] /\ NoDup [0; 1; 2].
Proof.
  split; [repeat split; try discriminate; repeat constructor; try lia|]. split; [exists [5; 2; 7]; split; [reflexivity|]; repeat constructor; cbn; lia|].
  repeat constructor; cbn; intuition lia.
Qed.
Example inplace_element_ex :
  view_update_ref 5 ex_v 0 (SRef 0 [3]) Z.sub 0 1 = Ok ([[3; 0; 7]], [0; 1; 2]) /\
  view_fill_ref 5 ex_v 0 (SRef 0 [3]) 0 1 = Ok ([[2; 2; 2]], [0; 1; 2]) /\
  view_assign true 5 ex_v 0 (SRef 0 [3]) (ERight Z.sub (ELeaf 0 (SRef 0 [3])) 2) = Ok [[3; 0; 5]] /\
  nth_error [0; 1; 2] 1 = Some 1 /\ cell ex_v 0 1 = Some 2.
Proof. repeat split. Qed.
Example inplace_other_ex : inside [[5; 2; 7]; [9]] 1 [0] /\ cell [[5; 2; 7]; [9]] 1 0 = Some 9 /\
  view_update_ref 5 [[5; 2; 7]; [9]] 0 (SRef 0 [3]) Z.sub 1 0 = Ok ([[-4; -7; -2]; [9]], [0; 1; 2]).
Proof. split; [exists [9]; split; [reflexivity|]; repeat constructor; cbn; lia|]. split; reflexivity. Qed.

(** The natural claim, every element combined with the value the operand had, fails. *)
Theorem inplace_element_operand_refuted : exists (m m' : @mem Z) sid s es ps rp c k p,
  is_view 5 s es ps /\ inside m sid ps /\ NoDup ps /\ In rp ps /\ cell m sid rp = Some c /\
  view_update_ref 5 m sid s Z.sub sid rp = Ok (m', ps) /\ nth_error ps k = Some p /\ cell m' sid p <> lift1 (fun x => x - c) (cell m sid p).
Proof.
  destruct ex_v_view as (A & B & N). exists ex_v, [[3; 0; 7]], O, (SRef 0 [3]), [3], [0; 1; 2], 1, 2, 2%nat, 2.
  repeat (split; [assumption || reflexivity || (cbn; tauto)|]). cbn. discriminate.
Qed.
Print Assumptions inplace_element_operand_refuted.
