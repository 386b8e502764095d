(** * InplaceRef: in-place operations whose scalar operand is an element ([v -= v[0]], [v = v[0]]).

    [view_update] ([Expr]) applies a fixed function to every element.  The operators [op=] with a scalar take it by reference and use it
    in every step, so when it is an element of the view it changes on the way. *)

From Coq Require Import ZArith List Bool Lia.
From Verif Require Import Base Spec Desc Slice SliceSpec Lemmas Expr ExprSpec ExprProofs ExprThms.
Import ListNotations.
Open Scope Z_scope.

Section InplaceRef.
Context {V : Type}.
Notation mem := (@mem V).

(** [for (auto& x : view) x op= rhs] with [const T& rhs] the element at position [rp] of storage [rs] (array/functional.hpp:172-187, 57-63;
    [f]: the new value of [x]).  Also the log of the writes. *)
Fixpoint update_ref_loop (fuel : nat) (sid : nat) (d dend : lit) (f : V -> V -> V) (rs : nat) (rp : Z) (m : mem) : outcome (mem * list Z) :=
  match fuel with
  | O => Timeout
  | S fu =>
      if lit_eqb d dend then Ok (m, [])
      else
        let* p := lit_deref d in
        let* v := load m sid p in
        let* c := load m rs rp in
        let* m' := store m sid p (f v c) in
        let* d' := lit_next d in
        let* r := update_ref_loop fu sid d' dend f rs rp m' in
        Ok (fst r, p :: snd r)
  end.
Definition view_update_ref (fuel : nat) (m : mem) (sid : nat) (s : st) (f : V -> V -> V) (rs : nat) (rp : Z) : outcome (mem * list Z) :=
  let* r := leaf_range s in update_ref_loop fuel sid (fst r) (snd r) f rs rp m.
(** [view = rhs] with [const U& source] that element (array/ref_array.hpp:77-83, array/strided_ref_array.hpp:83-88). *)
Definition view_fill_ref (fuel : nat) (m : mem) (sid : nat) (s : st) (rs : nat) (rp : Z) : outcome (mem * list Z) :=
  view_update_ref fuel m sid s (fun _ c => c) rs rp.

(** *** specification *)

(** Value of the scalar when the k-th element is updated: the old one until it has been updated itself, then the result of that. *)
Definition scalar_at (m : mem) (sid : nat) (ps : list Z) (f : V -> V -> V) (rs : nat) (rp : Z) (k : nat) : option V :=
  if Nat.eqb rs sid && existsb (Z.eqb rp) (firstn k ps) then lift1 (fun c => f c c) (cell m rs rp) else cell m rs rp.
Definition updated (m : mem) (sid : nat) (ps : list Z) (f : V -> V -> V) (rs : nat) (rp : Z) (k : nat) : option V :=
  match nth_error ps k with Some p => lift2 f (cell m sid p) (scalar_at m sid ps f rs rp k) | None => None end.

(** *** proofs *)
Implicit Types (m mk : mem).
Lemma existsb_In rp l : existsb (Z.eqb rp) l = true <-> In rp l.
Proof.
  rewrite existsb_exists. split.
  - intros (x & H & E). apply Z.eqb_eq in E. congruence.
  - intros H. exists rp. rewrite Z.eqb_refl. auto.
Qed.

Lemma firstn_nth {A} : forall (l : list A) k j a, nth_error (firstn k l) j = Some a -> nth_error l j = Some a.
Proof. induction l as [|x l IH]; intros [|k] [|j] a H; cbn in *; try discriminate; auto. eapply IH, H. Qed.
Lemma load_cell m sid p v : load m sid p = Ok v -> 0 <= p /\ cell m sid p = Some v.
Proof.
  unfold load, cell, get. destruct (nth_error m sid) as [c|]; [|discriminate].
  destruct ((0 <=? p) && (p <? Z.of_nat (length c))) eqn:G; [|discriminate].
  apply andb_true_iff in G as [G1 G2]. destruct (nth_error c (Z.to_nat p)); [|discriminate]. intros E. injection E as <-. split; [lia|reflexivity].
Qed.

Lemma scalar_load m sid ps f rs rp k mk : NoDup ps -> inside m rs [rp] -> (k <= length ps)%nat ->
  upto m sid ps (updated m sid ps f rs rp) k mk -> exists c, load mk rs rp = Ok c /\ scalar_at m sid ps f rs rp k = Some c.
Proof.
  intros N Hr Hk [S [U1 U2]]. pose proof (inside_shape _ _ _ _ S Hr) as Hr'.
  destruct (load_inside mk rs [rp] rp Hr' (or_introl eq_refl)) as [c [L [C _]]]. exists c. split; [exact L|].
  destruct (load_inside m rs [rp] rp Hr (or_introl eq_refl)) as [c0 [L0 [C0 _]]].
  unfold scalar_at. rewrite C0. cbn [lift1].
  destruct (Nat.eqb_spec rs sid) as [->|Ne]; cbn [andb].
  - destruct (existsb (Z.eqb rp) (firstn k ps)) eqn:X.
    + apply existsb_In in X. apply In_nth_error in X as [j Ej].
      assert (Hj : (j < k)%nat). { assert (H : (j < length (firstn k ps))%nat) by (apply nth_error_Some; congruence). rewrite firstn_length in H. lia. }
      assert (Ej' : nth_error ps j = Some rp) by (eapply firstn_nth; exact Ej).
      rewrite <- C, (U2 j rp Hj Ej'). unfold updated. rewrite Ej'. unfold scalar_at.
      replace (existsb (Z.eqb rp) (firstn j ps)) with false.
      * rewrite andb_false_r, C0. reflexivity.
      * symmetry. apply not_true_iff_false. intros H. apply existsb_In in H. revert H. apply (NoDup_nth_firstn ps j j rp N Ej'). lia.
    + rewrite <- C, U1; [exact (eq_sym C0)| |]. { apply load_cell in L0. apply L0. } right. intros H. apply existsb_In in H. congruence.
  - rewrite <- C, U1; [exact (eq_sym C0)| |left; exact Ne]. apply load_cell in L0. apply L0.
Qed.

Lemma update_ref_loop_spec m sid ps de f rs rp : inside m sid ps -> NoDup ps -> inside m rs [rp] ->
  forall n k mk d fu, (k + n = length ps)%nat -> (n < fu)%nat -> lwalk de d (skipn k ps) ->
  upto m sid ps (updated m sid ps f rs rp) k mk ->
  exists m', update_ref_loop fu sid d de f rs rp mk = Ok (m', skipn k ps) /\ upto m sid ps (updated m sid ps f rs rp) (length ps) m'.
Proof.
  intros Hi N Hr. induction n as [|n IH]; intros k mk d fu Hk Hf Hw U; (destruct fu as [|fu]; [lia|]); cbn [update_ref_loop].
  - rewrite skipn_all2 in * by lia. inversion Hw as [? He|]; subst. rewrite He. assert (k = length ps) by lia. subst k. eauto.
  - destruct (nth_error ps k) as [p|] eqn:E; [|apply nth_error_None in E; lia].
    rewrite (skipn_nth _ _ _ E) in *. inversion Hw as [|? ? d' ? He Hde Hn' Hw']; subst. rewrite He, Hde, Hn'. cbn [bindO].
    destruct (upto_cell _ _ _ _ _ _ _ N Hi U E) as [w [-> Hc]]. cbn [bindO].
    destruct (scalar_load _ _ _ _ _ _ k mk N Hr ltac:(lia) U) as [c [-> Hs]]. cbn [bindO].
    destruct (upto_step _ _ _ _ _ _ _ (f w c) N Hi U E) as [m' [-> U']]; [unfold updated; rewrite E, Hc, Hs; reflexivity|]. cbn [bindO].
    destruct (IH (S k) m' d' fu ltac:(lia) ltac:(lia) Hw' U') as [m2 [-> U2]]. cbn [bindO fst snd]. eauto.
Qed.

Lemma view_update_ref_spec fuel fu m sid s es ps f rs rp : is_view fuel s es ps -> inside m sid ps -> NoDup ps -> inside m rs [rp] -> (length ps < fu)%nat ->
  exists m', view_update_ref fu m sid s f rs rp = Ok (m', ps) /\ written m m' sid ps (updated m sid ps f rs rp).
Proof.
  intros [H1 [H2 [H3 [H4 [H5 H6]]]]] Hi N Hr Hf. unfold view_update_ref.
  destruct (positions_lwalk _ _ _ H2) as [b [en [Hl Hw]]]. rewrite Hl. cbn [bindO fst snd].
  destruct (update_ref_loop_spec m sid ps en f rs rp Hi N Hr (length ps) 0 m b fu eq_refl Hf Hw (upto_0 _ _ _ _)) as [m' [-> U]].
  exists m'. split; auto. apply upto_written; auto. intros k Hk. destruct (nth_error ps k) as [p|] eqn:E; [|apply nth_error_None in E; lia].
  unfold updated. rewrite E. destruct (load_inside m sid ps p Hi (nth_error_In _ _ E)) as [v [_ [-> _]]].
  destruct (load_inside m rs [rp] rp Hr (or_introl eq_refl)) as [c [_ [C _]]]. unfold scalar_at. rewrite C.
  destruct (_ && _); discriminate.
Qed.

End InplaceRef.
