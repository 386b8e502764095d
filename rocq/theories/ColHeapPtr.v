(** * ColHeapPtr: pointers into columns. *)

From Coq Require Import ZArith Bool Ascii List Lia.
From Verif Require Import Base Coerce Frame FrameSpec ColHeap ColHeapSpec ColHeapProofs ColHeapProofs2 ColHeapProofs3 ColHeapFrame ColHeapThms.
Import ListNotations.
Open Scope list_scope.
Open Scope nat_scope.

(** *** values of the other variables *)
Definition same (X : list nat) (a a1 : avals) : Prop :=
  length a <= length a1 /\ forall x, ~ In x X -> x < length a -> nth_error a1 x = nth_error a x.
Lemma same_refl X a : same X a a. Proof. split; auto. Qed.
Lemma same_upd X a x v : In x X -> same X a (upd_nat a x v).
Proof. intros H. split; [rewrite upd_length; auto|]. intros y Hy _. apply upd_other. congruence. Qed.
Lemma same_add X a v : same X a (a ++ [v]).
Proof. split; [rewrite app_length; lia|]. intros y _ Hl. now apply nth_error_app1. Qed.
Lemma same_trans X a b c : same X a b -> same X b c -> same X a c.
Proof. intros [L1 H1] [L2 H2]. split; [lia|]. intros x Hx Hl. rewrite H2, H1; auto. lia. Qed.
Lemma same_fin {A} X a0 a (o : outcome A) f a1 r : fin a o f = (a1, r) -> same X a0 a -> (forall v, same X a0 (f v)) -> same X a0 a1.
Proof. destruct o; simpl; intros E; inversion E; subst; auto. Qed.

Lemma aexec_same rs c a a1 r : aexec rs c a = (a1, r) -> same (changes c) a a1.
Proof.
  intros E. destruct c; simpl in E;
    repeat match type of E with
    | match ?x with _ => _ end = _ => destruct x eqn:?
    | (let '(_, _) := ?x in _) = _ => destruct x eqn:?
    end;
    try (inversion E; subst);
    unfold addc, addf, setc, setf in *;
    try solve [apply same_refl | apply same_add | apply same_upd; simpl; auto
      | eapply same_trans; [apply same_upd; simpl; auto|first [apply same_add|apply same_upd; simpl; auto]]
      | eapply same_fin; [eassumption|first [apply same_refl|apply same_upd; simpl; auto]|intros; first [apply same_add|apply same_upd; simpl; auto
          |eapply same_trans; [apply same_upd; simpl; auto|apply same_add]]]].
  destruct (Nat.eqb x y); [apply same_refl|]. eapply same_trans; apply same_upd; simpl; auto.
Qed.
Lemma afail_same c a a1 : afail c a a1 -> same (changes c) a a1.
Proof.
  destruct c; simpl; intros H; try contradiction; try (subst; apply same_refl).
  - destruct H as (d & s & d' & _ & _ & _ & ->). apply same_upd; simpl; auto.
  - destruct H as (d & s & d' & _ & _ & _ & ->). apply same_upd; simpl; auto.
  - destruct H as (d & s & d' & _ & _ & _ & ->). eapply same_trans; apply same_upd; simpl; auto.
  - destruct H as (d & s & _ & _ & [->|(d' & _ & ->)]); [apply same_refl|]. eapply same_trans; apply same_upd; simpl; auto.
Qed.

(** Equal values at equal pointers: equal contents. *)
Lemma elems_value_eq h h' es v : elems_value h es = Some v -> elems_value h' es = Some v ->
  forall b, In b (flat_map (fun nc => col_blocks (snd nc)) es) -> nth_error h' b = nth_error h b.
Proof.
  revert v. induction es as [|[n c] es IH]; intros v E E' b Hb; simpl in *; [contradiction|].
  destruct (col_value h c) as [x|] eqn:E1; [|discriminate]. destruct (col_value h' c) as [x'|] eqn:E2; [|discriminate].
  destruct (elems_value h es) as [r|] eqn:E3; [|discriminate]. destruct (elems_value h' es) as [r'|] eqn:E4; [|discriminate].
  inversion E; subst. inversion E'; subst. apply in_app_or in Hb. destruct Hb as [Hb|Hb]; [|eapply IH; eauto].
  destruct c as [b0|]; simpl in *; [|contradiction]. destruct Hb as [<-|[]].
  destruct (nth_error h b0) as [[m|]|], (nth_error h' b0) as [[m'|]|]; congruence.
Qed.
Lemma value_eq h h' hv v : value_of h hv = Some v -> value_of h' hv = Some v -> forall b, In b (blocks_of hv) -> nth_error h' b = nth_error h b.
Proof.
  destruct hv as [c|d|]; simpl; intros E E' b Hb; [| |contradiction].
  - destruct c as [b0|]; simpl in *; [|contradiction]. destruct Hb as [<-|[]].
    destruct (nth_error h b0) as [[m|]|], (nth_error h' b0) as [[m'|]|]; congruence.
  - destruct (elems_value h (helems d)) as [r|] eqn:E3; [|discriminate]. destruct (elems_value h' (helems d)) as [r'|] eqn:E4; [|discriminate].
    eapply elems_value_eq; [exact E3| |exact Hb]. congruence.
Qed.
Lemma agrees_nth a w x hv : agrees a w -> nth_error (hvars w) x = Some hv -> exists v, nth_error a x = Some v /\ value_of (hmem w) hv = Some v.
Proof.
  intros H E. assert (E' : nth_error (map (value_of (hmem w)) (hvars w)) x = Some (value_of (hmem w) hv)) by (now apply map_nth_error).
  rewrite H in E'. destruct (nth_error a x) as [v|] eqn:Ea.
  - exists v. split; auto. apply (map_nth_error Some) in Ea. congruence.
  - rewrite nth_error_map, Ea in E'. discriminate.
Qed.

(** *** partial correctness of successful executions *)
Definition okp {A} (m : M A) (w : world) (Q : A -> world -> Prop) : Prop := forall a w', m w = (Ok a, w') -> Q a w'.
Lemma okp_bind {A B} (m : M A) (f : A -> M B) w Q : okp m w (fun a w' => okp (f a) w' Q) -> okp (bindM m f) w Q.
Proof. intros H b w' E. unfold bindM in E. destruct (m w) as [[a|e| | |] w1] eqn:Em; try discriminate. eapply H; eauto. Qed.
Lemma okp_on_throw {A} (m : M A) h w Q : okp m w Q -> okp (on_throw m h) w Q.
Proof.
  intros H a w' E. unfold on_throw in E. destruct (m w) as [[x|e| | |] w1] eqn:Em; try discriminate.
  - inversion E; subst. now apply H.
  - unfold bindM, lift in E. destruct (h w1) as [[]]; discriminate.
Qed.
Lemma okp_still {A} (m : M A) w (Q : A -> world -> Prop) : still m -> (forall a w', hvars w' = hvars w -> Q a w') -> okp m w Q.
Proof. intros H HQ a w' E. apply HQ. specialize (H w). rewrite E in H. exact H. Qed.
Lemma okp_getd i w d (Q : hdf -> world -> Prop) : nth_error (hvars w) i = Some (HDf d) -> Q d w -> okp (getd i) w Q.
Proof. intros H HQ a w' E. unfold getd, bindM, getv in E. rewrite H in E. inversion E; subst; auto. Qed.
Lemma okp_setv i v w (Q : unit -> world -> Prop) : Q tt (World (hmem w) (upd_nat (hvars w) i v) (hclock w)) -> okp (setv i v) w Q.
Proof. intros HQ a w' E. inversion E; subst; auto. Qed.

Section Ptr.
Variable ex : exn.
Variable thr : nat -> bool.
Lemma upd_hit (vs : list hvar) i d d' : nth_error vs i = Some (HDf d) -> nth_error (upd_nat vs i (HDf d')) i = Some (HDf d').
Proof. intros H. apply nth_upd_eq. apply nth_error_Some. congruence. Qed.

Lemma bloop_ptr i l : forall w d, nth_error (hvars w) i = Some (HDf d) ->
  okp (hbind_loop ex thr i l) w (fun _ w' => exists d', nth_error (hvars w') i = Some (HDf d') /\ helems d' = helems d ++ l).
Proof.
  induction l as [|[n c] l IH]; intros w d H; simpl.
  { intros a w' E. inversion E; subst. exists d. now rewrite app_nil_r. }
  apply okp_bind.
  assert (HK : forall w1 d1, nth_error (hvars w1) i = Some (HDf d1) -> helems d1 = helems d ->
    okp (on_throw (tick ex thr) (free_all ((n, c) :: l)) ;;'
         (d0 <- getd i ;; setv i (HDf (mkH (hrows d0) (helems d0 ++ [(n, c)]) (hindex d0))) ;;' hbind_loop ex thr i l)) w1
      (fun _ w' => exists d', nth_error (hvars w') i = Some (HDf d') /\ helems d' = helems d ++ (n, c) :: l)).
  { intros w1 d1 H1 E1. apply okp_bind. apply okp_on_throw. apply okp_still; [apply still_tick|]. intros _ w2 H2. rewrite <- H2 in H1.
    apply okp_bind. eapply okp_getd; [exact H1|]. apply okp_bind. apply okp_setv.
    intros a w' E. eapply IH in E; [|simpl; eapply upd_hit; eauto]. destruct E as (d' & E2 & E3). exists d'. split; auto.
    rewrite E3. simpl. rewrite E1, <- app_assoc. reflexivity. }
  apply okp_on_throw. destruct (tempty n).
  - intros a w' E. inversion E; subst. eapply HK; eauto.
  - apply okp_bind. apply okp_still; [apply still_tick|]. intros _ w1 H1. rewrite <- H1 in H.
    apply okp_bind. eapply okp_getd; [exact H|]. apply okp_setv. eapply HK; [simpl; eapply upd_hit; eauto|]. reflexivity.
Qed.
Lemma hbind_ptr i o w d : nth_error (hvars w) i = Some (HDf d) ->
  okp (hbind ex thr i o) w (fun _ w' => exists d', nth_error (hvars w') i = Some (HDf d') /\ helems d' = helems d ++ helems o).
Proof.
  intros H. unfold hbind. apply okp_bind. apply okp_on_throw. apply okp_bind. apply okp_still; [apply still_ticks|]. intros _ w1 H1.
  rewrite <- H1 in H. apply okp_bind. eapply okp_getd; [exact H|].
  match goal with |- okp (if ?b then _ else _) _ _ => destruct b end.
  { intros a w' E. discriminate. }
  destruct (helems d) as [|e es] eqn:Ed.
  - apply okp_setv. intros a w' E. eapply bloop_ptr in E; [|simpl; eapply upd_hit; eauto]. destruct E as (d' & E1 & E2). exists d'. split; auto.
  - destruct (Z.eqb (hrows d) (hrows o)); [|intros a w' E; discriminate]. intros a w' E. inversion E; subst.
    intros a1 w2 E2. eapply bloop_ptr in E2; [|exact H]. now rewrite Ed in E2.
Qed.

Definition dead (w : world) (b : nat) : Prop := nth_error (hmem w) b = Some None.
Lemma okp_free b w (Q : unit -> world -> Prop) : (forall w', dead w' b -> Q tt w') -> okp (free (Some b)) w Q.
Proof. intros H [] w' E. apply H. unfold dead. eapply free_dead; eauto. Qed.
Lemma okp_any {A} (m : M A) w (Q : A -> world -> Prop) : (forall a w', Q a w') -> okp m w Q.
Proof. intros H a w' E. apply H. Qed.
Lemma okp_ret {A} (a : A) w (Q : A -> world -> Prop) : Q a w -> okp (ret a) w Q.
Proof. intros H x w' E. inversion E; subst; auto. Qed.
Lemma hassign_dead b c w : okp (hassign ex thr (Some b) c) w (fun _ w' => dead w' b).
Proof.
  unfold hassign. apply okp_bind. apply okp_any. intros n w1. apply okp_bind. apply okp_free. intros w' H. apply okp_ret. exact H.
Qed.
Lemma hcoerce_dead rs t b w : okp (hcoerce rs ex thr t (Some b)) w (fun _ w' => dead w' b).
Proof.
  unfold hcoerce. apply okp_bind. apply okp_any. intros n w1. apply okp_bind. apply okp_free. intros w' H. apply okp_ret. exact H.
Qed.
End Ptr.
