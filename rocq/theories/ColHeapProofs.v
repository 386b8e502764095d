(** * ColHeapProofs: the heap programs of ColHeap.v behave as the value programs of ColHeapSpec.v. *)

From Coq Require Import ZArith Bool List Lia Permutation.
From Verif Require Import Base Coerce Frame FrameWrite ColHeap ColHeapSpec.
Import ListNotations.
Open Scope list_scope.
Open Scope nat_scope.

Set Default Proof Using "Type".
Notation M := ColHeap.M.

(** Postconditions for returning and for throwing; everything else is excluded. *)
Definition wp {A} (m : M A) (w : world) (Q : A -> world -> Prop) (E : exn -> world -> Prop) : Prop :=
  match m w with (Ok a, w') => Q a w' | (Throw e, w') => E e w' | _ => False end.

Lemma wp_mono {A} (m : M A) w (Q Q' : A -> world -> Prop) (E E' : exn -> world -> Prop) :
  wp m w Q E -> (forall a w', Q a w' -> Q' a w') -> (forall e w', E e w' -> E' e w') -> wp m w Q' E'.
Proof. unfold wp; destruct (m w) as [[a|e| | |] w']; auto. Qed.
Lemma wp_ret {A} (a : A) w (Q : A -> world -> Prop) E : Q a w -> wp (ret a) w Q E.
Proof. auto. Qed.
Lemma wp_bind {A B} (m : M A) (f : A -> M B) w Q E :
  wp m w (fun a w' => wp (f a) w' Q E) E -> wp (bindM m f) w Q E.
Proof. unfold wp, bindM; destruct (m w) as [[a|e| | |] w']; auto. Qed.
Lemma wp_on_throw {A} (m : M A) h w Q E :
  wp m w Q (fun e w' => wp h w' (fun _ w'' => E e w'') (fun _ _ => False)) -> wp (on_throw m h) w Q E.
Proof.
  unfold wp, on_throw; destruct (m w) as [[a|e| | |] w']; auto. unfold bindM, lift.
  destruct (h w') as [[]]; tauto.
Qed.
Lemma wp_defer {A} r (body : M (A * hcol)) w Q E :
  wp body w (fun x w' => wp (free (snd x)) w' (fun _ w'' => Q (fst x) w'') (fun _ _ => False))
            (fun e w' => wp (free (Some r)) w' (fun _ w'' => E e w'') (fun _ _ => False)) ->
  wp (defer_delete r body) w Q E.
Proof.
  unfold wp, defer_delete; destruct (body w) as [[[a p]|e| | |] w']; auto; unfold bindM, ret, lift; simpl.
  - destruct (free p w') as [[]]; tauto.
  - destruct (match nth_error (hmem w') r with Some (Some _) => _ | _ => _ end) as [[]]; tauto.
Qed.
Section P.
Variable rs : rules.
Variable ex : exn.
Variable thr : nat -> bool.
Lemma wp_tick w (Q : unit -> world -> Prop) (E : exn -> world -> Prop) :
  (let w' := World (hmem w) (hvars w) (S (hclock w)) in Q tt w' /\ E ex w') -> wp (tick ex thr) w Q E.
Proof. intros [H1 H2]; unfold wp, tick; destruct (thr (hclock w)); auto. Qed.

(** *** heap contents *)
Definition heap_is (h : list (option model)) (L : list (nat * model)) : Prop :=
  NoDup (map fst L) /\ forall b m, In (b, m) L <-> nth_error h b = Some (Some m).

Lemma heap_perm h L L' : Permutation L L' -> heap_is h L -> heap_is h L'.
Proof.
  intros P [H1 H2]; split.
  - eapply Permutation_NoDup; [|exact H1]. now apply Permutation_map.
  - intros b m; rewrite <- H2; split; apply Permutation_in; auto; now symmetry.
Qed.

Lemma nth_upd_eq {A} (l : list A) i v : i < length l -> nth_error (upd_nat l i v) i = Some v.
Proof. revert i; induction l; intros [|i] H; simpl in *; try lia; auto. apply IHl; lia. Qed.
Lemma nth_upd_ne {A} (l : list A) i j v : i <> j -> nth_error (upd_nat l i v) j = nth_error l j.
Proof. revert i j; induction l; intros [|i] [|j] H; simpl in *; try lia; auto. Qed.
Lemma upd_len {A} (l : list A) i v : length (upd_nat l i v) = length l.
Proof. revert i; induction l; intros [|i]; simpl; auto. Qed.
Lemma upd_same {A} (l : list A) i v : nth_error l i = Some v -> upd_nat l i v = l.
Proof. revert i; induction l; intros [|i] H; simpl in *; try congruence. f_equal; auto. Qed.

(** The state: contents of the heap and the variables. *)
Definition st (L : list (nat * model)) (vs : list hvar) (w : world) : Prop := heap_is (hmem w) L /\ hvars w = vs.

Lemma st_perm L L' vs w : Permutation L L' -> st L vs w -> st L' vs w.
Proof. intros P [H1 H2]; split; auto. eapply heap_perm; eauto. Qed.
Lemma st_in L vs w b m : st L vs w -> In (b, m) L -> nth_error (hmem w) b = Some (Some m).
Proof. intros [[_ H] _] I; now apply H. Qed.

Ltac wb := apply wp_bind.

Lemma tick_st L vs w (Q : unit -> world -> Prop) (E : exn -> world -> Prop) : st L vs w ->
  (forall w', st L vs w' -> Q tt w') -> (forall w', st L vs w' -> E ex w') -> wp (tick ex thr) w Q E.
Proof. intros H HQ HE; apply wp_tick; split; [apply HQ|apply HE]; exact H. Qed.
Lemma ticks_st n : forall L vs w (Q : unit -> world -> Prop) (E : exn -> world -> Prop), st L vs w ->
  (forall w', st L vs w' -> Q tt w') -> (forall w', st L vs w' -> E ex w') -> wp (ticks ex thr n) w Q E.
Proof.
  induction n; intros L vs w Q E H HQ HE; simpl. { apply wp_ret; auto. }
  wb. eapply tick_st; eauto.
Qed.
Lemma peek_st L vs w b m (Q : model -> world -> Prop) E : st L vs w -> In (b, m) L -> Q m w -> wp (peek b) w Q E.
Proof. intros H I HQ; unfold wp, peek. now rewrite (st_in _ _ _ _ _ H I). Qed.

Lemma poke_st L vs w b m m' (Q : unit -> world -> Prop) E : st ((b, m) :: L) vs w ->
  (forall w', st ((b, m') :: L) vs w' -> Q tt w') -> wp (poke b m') w Q E.
Proof.
  intros H HQ. pose proof (st_in _ _ _ _ _ H (in_eq _ _)) as Hb. unfold wp, poke. rewrite Hb. apply HQ.
  destruct H as [[H1 H2] Hv]. split; [|exact Hv]. simpl in *. split; [exact H1|].
  assert (Hlen : b < length (hmem w)) by (apply nth_error_Some; congruence).
  inversion H1; subst. intros b' x. destruct (Nat.eq_dec b b') as [->|Hne].
  - rewrite nth_upd_eq by auto. split; [intros [E1|I]|intros E1].
    + now inversion E1.
    + exfalso; apply H3. apply in_map_iff. exists (b', x); auto.
    + inversion E1; subst; now left.
  - rewrite nth_upd_ne by auto. rewrite <- H2. split; (intros [E1|I]; [inversion E1; congruence|now right]).
Qed.

Lemma new_st L vs w m (Q : nat -> world -> Prop) (E : exn -> world -> Prop) : st L vs w ->
  (forall b w', st ((b, m) :: L) vs w' -> Q b w') -> (forall w', st L vs w' -> E ex w') -> wp (new_model ex thr m) w Q E.
Proof.
  intros H HQ HE. unfold new_model. wb. eapply tick_st; eauto. intros w' [[H1 H2] Hv]. unfold wp. apply HQ.
  split; [|exact Hv]. unfold set_mem; simpl. split.
  - simpl; constructor; [|exact H1]. intros I. apply in_map_iff in I. destruct I as [[b x] [E1 I]]; simpl in *; subst.
    apply H2 in I. assert (length (hmem w') < length (hmem w')) by (apply nth_error_Some; congruence). lia.
  - intros b x. destruct (Nat.lt_trichotomy b (length (hmem w'))) as [Hl|[->|Hg]].
    + rewrite nth_error_app1 by auto. rewrite <- H2. split; [intros [E1|I]; [inversion E1; lia|auto]|intros I; now right].
    + rewrite nth_error_app2, Nat.sub_diag by lia. simpl. split.
      * intros [E1|I]; [now inversion E1|]. apply H2 in I.
        assert (length (hmem w') < length (hmem w')) by (apply nth_error_Some; congruence). lia.
      * intros E1; inversion E1; now left.
    + rewrite nth_error_app2 by lia. destruct (b - length (hmem w')) eqn:Ed; [lia|]. simpl. split.
      * intros [E1|I]; [inversion E1; lia|]. apply H2 in I.
        assert (b < length (hmem w')) by (apply nth_error_Some; congruence). lia.
      * destruct n; simpl; congruence.
Qed.

(** Blocks of a column value. *)
Definition own1 (c : hcol) (v : column) : option (list (nat * model)) :=
  match c, v with None, None => Some [] | Some b, Some m => Some [(b, m)] | _, _ => None end.

Lemma free_st X L vs w c v (Q : unit -> world -> Prop) E : own1 c v = Some X -> st (X ++ L) vs w ->
  (forall w', st L vs w' -> Q tt w') -> wp (free c) w Q E.
Proof.
  intros HX H HQ. destruct c as [b|], v as [m|]; try discriminate; inversion HX; subst; clear HX; [|apply HQ, H].
  simpl in H. pose proof (st_in _ _ _ _ _ H (in_eq _ _)) as Hb. unfold wp, free. rewrite Hb. apply HQ.
  destruct H as [[H1 H2] Hv]. split; [|exact Hv]. simpl in *.
  assert (Hlen : b < length (hmem w)) by (apply nth_error_Some; congruence).
  inversion H1; subst. split; auto. intros b' x. destruct (Nat.eq_dec b b') as [->|Hne].
  - rewrite nth_upd_eq by auto. split; [|congruence]. intros I. exfalso; apply H3. apply in_map_iff. exists (b', x); auto.
  - rewrite nth_upd_ne by auto. rewrite <- H2. split; [auto|]. intros [E1|I]; [inversion E1; congruence|auto].
Qed.

Lemma push_st L vs w b m c (Q : unit -> world -> Prop) E : st ((b, m) :: L) vs w ->
  (forall w', st ((b, mkModel (mty m) (mcells m ++ [c])) :: L) vs w' -> Q tt w') -> wp (push_cell b c) w Q E.
Proof.
  intros H HQ. unfold push_cell. wb. eapply peek_st; [exact H|now left|]. eapply poke_st; eauto.
Qed.

Lemma fill_st l : forall L vs w b m (Q : unit -> world -> Prop) (E : exn -> world -> Prop), st ((b, m) :: L) vs w ->
  (forall w', st ((b, mkModel (mty m) (mcells m ++ l)) :: L) vs w' -> Q tt w') ->
  (forall m' w', st ((b, m') :: L) vs w' -> E ex w') -> wp (fill ex thr b l) w Q E.
Proof.
  induction l as [|c l IH]; intros L vs w b m Q E H HQ HE; simpl.
  - apply wp_ret, HQ. rewrite app_nil_r. now destruct m.
  - wb. eapply tick_st; [exact H| |eauto]. intros w1 H1. wb. eapply push_st; [exact H1|]. intros w2 H2.
    eapply IH; [exact H2| |eauto]. simpl. intros w3 H3. apply HQ. now rewrite <- app_assoc in H3.
Qed.

Lemma make_st L vs w t l (Q : nat -> world -> Prop) (E : exn -> world -> Prop) : st L vs w ->
  (forall b w', st ((b, mkModel t l) :: L) vs w' -> Q b w') -> (forall w', st L vs w' -> E ex w') -> wp (make_model ex thr t l) w Q E.
Proof.
  intros H HQ HE. unfold make_model. wb. eapply new_st; [exact H| |eauto]. intros b w1 H1. wb. apply wp_on_throw.
  assert (HF : forall m' w', st ((b, m') :: L) vs w' ->
     wp (free (Some b)) w' (fun _ w'' => E ex w'') (fun _ _ => False)).
  { intros m' w' H'. eapply (free_st [(b, m')] L vs w' (Some b) (Some m')); auto. }
  wb. eapply tick_st; [exact H1| |eauto]. intros w2 H2. eapply fill_st; [exact H2| |eauto]. simpl.
  intros w3 H3. apply wp_ret; auto.
Qed.

(** *** columns *)
Lemma clone_st L vs w b m (Q : nat -> world -> Prop) (E : exn -> world -> Prop) : st L vs w -> In (b, m) L ->
  (forall b' w', st ((b', m) :: L) vs w' -> Q b' w') -> (forall w', st L vs w' -> E ex w') -> wp (clone ex thr b) w Q E.
Proof.
  intros H I HQ HE. unfold clone. wb. eapply peek_st; eauto. eapply make_st; eauto. destruct m; auto.
Qed.

Definition col_in (c : hcol) (v : column) (L : list (nat * model)) : Prop :=
  match c, v with None, None => True | Some b, Some m => In (b, m) L | _, _ => False end.

Lemma own1_in c v X L : own1 c v = Some X -> incl X L -> col_in c v L.
Proof. destruct c, v; simpl; try discriminate; auto. intros E I; inversion E; subst. apply I; now left. Qed.
Lemma col_in_incl c v L L' : incl L L' -> col_in c v L -> col_in c v L'.
Proof. destruct c, v; simpl; auto. Qed.

Lemma hcopy_st L vs w c v (Q : hcol -> world -> Prop) (E : exn -> world -> Prop) : st L vs w -> col_in c v L -> v <> None ->
  (forall c' X w', own1 c' v = Some X -> st (X ++ L) vs w' -> Q c' w') -> (forall w', st L vs w' -> E ex w') -> wp (hcopy ex thr c) w Q E.
Proof.
  intros H I N HQ HE. destruct c as [b|], v as [m|]; simpl in *; try tauto; try congruence.
  wb. eapply clone_st; eauto. intros b' w' H'. apply wp_ret. apply (HQ (Some b') [(b', m)]); auto.
Qed.

Lemma hassign_st X L vs w c0 v0 c v (Q : hcol -> world -> Prop) (E : exn -> world -> Prop) :
  own1 c0 v0 = Some X -> st (X ++ L) vs w -> col_in c v (X ++ L) ->
  (forall c' X' w', own1 c' v = Some X' -> st (X' ++ L) vs w' -> Q c' w') -> (forall w', st (X ++ L) vs w' -> E ex w') ->
  wp (hassign ex thr c0 c) w Q E.
Proof.
  intros HX H I HQ HE. unfold hassign. wb. destruct c as [b|], v as [m|]; simpl in *; try tauto.
  - wb. eapply clone_st; eauto. intros b' w' H'. apply wp_ret. wb.
    eapply (free_st X ((b', m) :: L)); eauto.
    + eapply st_perm; [|exact H']. apply Permutation_middle.
    + intros w'' H''. apply wp_ret. apply (HQ (Some b') [(b', m)]); auto.
  - apply wp_ret. wb. eapply free_st; eauto. intros w'' H''. apply wp_ret. apply (HQ None []); auto.
Qed.

Lemma coerce_loop_st f l : forall L vs w b m (Q : unit -> world -> Prop) (E : exn -> world -> Prop), st ((b, m) :: L) vs w ->
  (forall r w', mapO f l = Ok r -> st ((b, mkModel (mty m) (mcells m ++ r)) :: L) vs w' -> Q tt w') ->
  (forall e m' w', e = ex \/ mapO f l = Throw e -> st ((b, m') :: L) vs w' -> E e w') ->
  (mapO f l = Abort \/ mapO f l = UB \/ mapO f l = Timeout -> False) -> wp (coerce_loop ex thr f b l) w Q E.
Proof.
  induction l as [|c l IH]; intros L vs w b m Q E H HQ HE HB; simpl.
  - apply wp_ret. eapply HQ; [reflexivity|]. rewrite app_nil_r. now destruct m.
  - wb. eapply tick_st; [exact H| |eauto]. intros w1 H1. wb. simpl in *. unfold wp, lift.
    destruct (f c) as [v|e| | |] eqn:Ef; simpl in *; try (apply HB; tauto); [|eapply HE; eauto].
    fold (@wp unit). change (wp (push_cell b v ;;' coerce_loop ex thr f b l) w1 Q E). wb. eapply push_st; [exact H1|].
    intros w2 H2. eapply IH; [exact H2| | |].
    + simpl. intros r w3 Er H3. apply (HQ (v :: r)). { now rewrite Er. } now rewrite <- app_assoc in H3.
    + simpl. intros e m' w' [->|Er] H3; eapply HE; eauto. right. now rewrite Er.
    + intros Hc. apply HB. destruct Hc as [Er|[Er|Er]]; rewrite Er; simpl; tauto.
Qed.

Definition good {A} (o : outcome A) : Prop := match o with Ok _ | Throw _ => True | _ => False end.

Lemma coerce_model_st L vs w t b m (Q : nat -> world -> Prop) (E : exn -> world -> Prop) : st L vs w -> In (b, m) L ->
  good (model_coerce rs t m) ->
  (forall b' m' w', model_coerce rs t m = Ok m' -> st ((b', m') :: L) vs w' -> Q b' w') ->
  (forall e w', e = ex \/ model_coerce rs t m = Throw e -> st L vs w' -> E e w') -> wp (coerce_model rs ex thr t b) w Q E.
Proof.
  intros H I G HQ HE. unfold coerce_model. wb. eapply peek_st; eauto. unfold model_coerce in *.
  destruct (rs t (mty m)) as [f|]; [|unfold wp, lift; eauto].
  wb. eapply new_st; eauto. intros r w1 H1. apply wp_defer.
  wb. eapply tick_st; [exact H1| |].
  - intros w2 H2. wb. eapply coerce_loop_st; [exact H2| | |]; simpl.
    + intros l w' El H'. apply wp_ret. simpl. apply wp_ret. eapply HQ; [now rewrite El|exact H'].
    + intros e m' w' He H'. eapply (free_st [(r, m')] L vs w' (Some r) (Some m')); auto.
      intros w'' H''. apply HE; auto. destruct He as [->|He]; auto. rewrite He. auto.
    + intros Hc. destruct (mapO f (mcells m)); simpl in *; try tauto; destruct Hc as [?|[?|?]]; congruence.
  - intros w' H'. eapply (free_st [(r, mkModel t [])] L vs w' (Some r) (Some (mkModel t []))); auto.
Qed.

Lemma hcoerce_st X L vs w t c v (Q : hcol -> world -> Prop) (E : exn -> world -> Prop) : own1 c v = Some X -> st (X ++ L) vs w ->
  good (snd (col_coerce rs t v)) ->
  (forall c' X' w', snd (col_coerce rs t v) = Ok tt -> own1 c' (fst (col_coerce rs t v)) = Some X' -> st (X' ++ L) vs w' -> Q c' w') ->
  (forall e w', e = ex \/ snd (col_coerce rs t v) = Throw e -> st (X ++ L) vs w' -> E e w') -> wp (hcoerce rs ex thr t c) w Q E.
Proof.
  intros HX H G HQ HE. destruct c as [b|], v as [m|]; try discriminate; simpl in *.
  2:{ unfold wp, lift; auto. }
  inversion HX; subst; clear HX. simpl in *. wb. eapply coerce_model_st; [exact H|now left| | |].
  - destruct (model_coerce rs t m); simpl in *; auto.
  - intros b' m' w' Em H'. wb. eapply (free_st [(b, m)] ((b', m') :: L) vs w' (Some b) (Some m)); auto.
    + eapply st_perm; [|exact H']. simpl. apply perm_swap.
    + intros w'' H''. apply wp_ret. rewrite Em in *. apply (HQ (Some b') [(b', m')]); auto.
  - intros e w' He H'. apply HE; auto. destruct He as [->|He]; auto. rewrite He; auto.
Qed.

Lemma hto_column_st L vs w t c v (Q : hcol -> world -> Prop) (E : exn -> world -> Prop) : st L vs w -> col_in c v L ->
  good (to_column rs t v) ->
  (forall v' c' X' w', to_column rs t v = Ok v' -> own1 c' v' = Some X' -> st (X' ++ L) vs w' -> Q c' w') ->
  (forall e w', e = ex \/ to_column rs t v = Throw e -> st L vs w' -> E e w') -> wp (hto_column rs ex thr t c) w Q E.
Proof.
  intros H I G HQ HE. destruct c as [b|], v as [m|]; simpl in *; try contradiction.
  wb. eapply coerce_model_st; [exact H|exact I| | |].
  - destruct (model_coerce rs t m); simpl in *; auto.
  - intros b' m' w' Em H'. apply wp_ret. rewrite Em in *. apply (HQ (Some m') (Some b') [(b', m')]); auto.
  - intros e w' He H'. apply HE; auto. destruct He as [->|He]; auto. rewrite He; auto.
Qed.

Lemma hcol_type_st L vs w c v (Q : ty -> world -> Prop) (E : exn -> world -> Prop) : st L vs w -> col_in c v L ->
  (forall t, elements_type v = Ok t -> Q t w) -> (forall e, elements_type v = Throw e -> E e w) -> wp (hcol_type c) w Q E.
Proof.
  intros H I HQ HE. destruct c as [b|], v as [m|]; simpl in *; try contradiction.
  - wb. eapply peek_st; eauto. apply wp_ret; auto.
  - unfold wp, lift; auto.
Qed.

Lemma hcol_size_st L vs w c v (Q : Z -> world -> Prop) (E : exn -> world -> Prop) : st L vs w -> col_in c v L ->
  Q (col_size v) w -> wp (hcol_size c) w Q E.
Proof.
  intros H I HQ. destruct c as [b|], v as [m|]; simpl in *; try contradiction; [|exact HQ].
  wb. eapply peek_st; eauto.
Qed.

(** The column after the coercion on demand. *)
Definition ensured (t : ty) (v : column) : column * outcome unit :=
  match elements_type v with
  | Ok u => if ty_eqb u t then (v, Ok tt) else col_coerce rs t v
  | Throw e => (v, Throw e) | Abort => (v, Abort) | UB => (v, UB) | Timeout => (v, Timeout)
  end.

Lemma hensure_st X L vs w t c v (Q : hcol -> world -> Prop) (E : exn -> world -> Prop) : own1 c v = Some X -> st (X ++ L) vs w ->
  good (snd (ensured t v)) ->
  (forall c' X' w', snd (ensured t v) = Ok tt -> own1 c' (fst (ensured t v)) = Some X' -> st (X' ++ L) vs w' -> Q c' w') ->
  (forall e w', e = ex \/ snd (ensured t v) = Throw e -> st (X ++ L) vs w' -> E e w') -> wp (hensure rs ex thr t c) w Q E.
Proof.
  intros HX H G HQ HE. unfold hensure, ensured in *. wb. eapply hcol_type_st; [exact H| | |].
  - eapply own1_in; [exact HX|]. apply incl_appl, incl_refl.
  - intros u Eu. rewrite Eu in *. destruct (ty_eqb u t).
    + apply wp_ret. eapply HQ; eauto.
    + eapply hcoerce_st; eauto.
  - intros e Ee. rewrite Ee in *. eauto.
Qed.

Lemma hpartial_st L vs w c v first size (Q : hcol -> world -> Prop) (E : exn -> world -> Prop) : st L vs w -> col_in c v L ->
  good (col_partial v first size) ->
  (forall v' c' X' w', col_partial v first size = Ok v' -> own1 c' v' = Some X' -> st (X' ++ L) vs w' -> Q c' w') ->
  (forall e w', e = ex \/ col_partial v first size = Throw e -> st L vs w' -> E e w') -> wp (hpartial ex thr c first size) w Q E.
Proof.
  intros H I G HQ HE. destruct c as [b|], v as [m|]; simpl in *; try tauto.
  wb. unfold hpartial_clone. wb. eapply peek_st; eauto. wb. unfold wp at 1, lift.
  destruct (partial_clone m first size) as [m'|e| | |] eqn:Em; simpl in *; auto.
  fold (@wp nat). change (wp (make_model ex thr (mty m') (mcells m')) w (fun a w' => wp (ret (Some a)) w' Q E) E).
  eapply make_st; eauto. intros b' w' H'. apply wp_ret. eapply (HQ (Some m') (Some b') [(b', m')]); auto. now destruct m'.
Qed.

Lemma hset_st X L vs w t c v i x (Q : unit -> world -> Prop) (E : exn -> world -> Prop) : own1 c v = Some X -> st (X ++ L) vs w ->
  let o := (let* l := col_data t v in let* l' := put l i x in Ok (col_of t l')) in
  good o ->
  (forall v' X' w', o = Ok v' -> own1 c v' = Some X' -> st (X' ++ L) vs w' -> Q tt w') ->
  (forall e w', e = ex \/ o = Throw e -> st (X ++ L) vs w' -> E e w') -> wp (hset ex thr t c i x) w Q E.
Proof.
  intros HX H o G HQ HE. subst o. destruct c as [b|], v as [m|]; try discriminate; simpl in *.
  2:{ unfold wp, lift; auto. }
  inversion HX; subst; clear HX. simpl in *. wb. eapply peek_st; [exact H|now left|].
  destruct (ty_eqb (mty m) t) eqn:Et; simpl in *; [|unfold wp, lift; auto].
  wb. eapply tick_st; [exact H| |auto]. intros w1 H1. wb. unfold wp at 1, lift.
  destruct (put (mcells m) i x) as [l|e| | |]; simpl in *; auto.
  eapply poke_st; [exact H1|]. intros w2 H2. eapply HQ; [reflexivity|reflexivity|].
  apply ty_eqb_eq in Et. subst t. exact H2.
Qed.

(** *** named columns and dataframes *)
Inductive owns : list hncol -> list ncol -> list (nat * model) -> Prop :=
| owns_nil : owns [] [] []
| owns_cons n c v es vals X Y : own1 c v = Some X -> owns es vals Y -> owns ((n, c) :: es) (mkN n v :: vals) (X ++ Y).

Lemma owns_app es vals X es' vals' X' : owns es vals X -> owns es' vals' X' -> owns (es ++ es') (vals ++ vals') (X ++ X').
Proof. induction 1; intros H'; simpl; auto. rewrite <- app_assoc. constructor; auto. Qed.
Lemma owns_length es vals X : owns es vals X -> length es = length vals.
Proof. induction 1; simpl; auto. Qed.
Lemma owns_names es vals X : owns es vals X -> map fst es = map nname vals.
Proof. induction 1; simpl; f_equal; auto. Qed.
Lemma owns_split k es vals X : owns es vals X -> exists X1 X2, X = X1 ++ X2 /\ owns (firstn k es) (firstn k vals) X1 /\ owns (skipn k es) (skipn k vals) X2.
Proof.
  intros H; revert k; induction H; intros k.
  - exists [], []. rewrite !firstn_nil, !skipn_nil. repeat split; constructor.
  - destruct k; simpl.
    + exists [], (X ++ Y). repeat split; constructor; auto.
    + destruct (IHowns k) as (X1 & X2 & E & H1 & H2). subst. exists (X ++ X1), X2. rewrite app_assoc. repeat split; auto. constructor; auto.
Qed.

Definition all_in (es : list hncol) (vals : list ncol) (L : list (nat * model)) : Prop :=
  Forall2 (fun e v => fst e = nname v /\ col_in (snd e) (ncolumn v) L) es vals.
Lemma all_in_incl es vals L L' : incl L L' -> all_in es vals L -> all_in es vals L'.
Proof. intros I H; induction H; constructor; auto. destruct H; split; auto. eapply col_in_incl; eauto. Qed.
Lemma owns_in es vals X L : owns es vals X -> incl X L -> all_in es vals L.
Proof.
  induction 1; intros I; constructor; simpl.
  - split; auto. eapply own1_in; eauto. intros x Hx; apply I, in_or_app; auto.
  - apply IHowns. intros x Hx; apply I, in_or_app; auto.
Qed.
Lemma all_in_firstn k es vals L : all_in es vals L -> all_in (firstn k es) (firstn k vals) L.
Proof. intros H; revert k; induction H; intros [|k]; simpl; constructor; auto. apply IHForall2. Qed.
Lemma all_in_skipn k es vals L : all_in es vals L -> all_in (skipn k es) (skipn k vals) L.
Proof. intros H; revert k; induction H; intros [|k]; simpl; auto; constructor; auto. Qed.
Lemma all_in_perm es vals L L' : Permutation L L' -> all_in es vals L -> all_in es vals L'.
Proof. intros P. apply all_in_incl. intros x. now apply Permutation_in. Qed.

Definition nonnull (vals : list ncol) : Prop := Forall (fun nc => ncolumn nc <> None) vals.
Lemma copy_nonnull vals : mapO ncol_copy vals = Ok vals /\ nonnull vals \/ mapO ncol_copy vals = UB.
Proof.
  induction vals as [|[n [m|]] vals IH]; cbn [mapO]; [left; split; [reflexivity|constructor]| |now right].
  replace (ncol_copy (mkN n (Some m))) with (Ok (mkN n (Some m))) by reflexivity. cbn [bindO].
  destruct IH as [[IH1 IH2]|IH]; [rewrite IH1|rewrite IH]; cbn [bindO]; auto.
  left; split; auto. constructor; auto. simpl; congruence.
Qed.

Lemma free_all_st es : forall vals X L vs w (Q : unit -> world -> Prop) E, owns es vals X -> st (X ++ L) vs w ->
  (forall w', st L vs w' -> Q tt w') -> wp (free_all es) w Q E.
Proof.
  induction es as [|[n c] es IH]; intros vals X L vs w Q E H HS HQ; inversion H; subst; simpl. { apply wp_ret; auto. }
  wb. rewrite <- app_assoc in HS. eapply free_st; [eassumption|exact HS|]. intros w1 H1. eapply IH; eauto.
Qed.

Lemma copy_all_st es : forall vals L vs w (Q : list hncol -> world -> Prop) (E : exn -> world -> Prop), st L vs w ->
  all_in es vals L -> nonnull vals ->
  (forall es' X w', owns es' vals X -> st (X ++ L) vs w' -> Q es' w') ->
  (forall w', st L vs w' -> E ex w') -> wp (copy_all ex thr es) w Q E.
Proof.
  induction es as [|[n c] es IH]; intros vals L vs w Q E H I N HQ HE; inversion I; subst; simpl.
  { apply wp_ret. apply (HQ [] []); auto. constructor. }
  destruct y as [n' v]. simpl in *. destruct H2 as [-> H2]. inversion N; subst. simpl in *.
  wb. eapply tick_st; [exact H| |auto]. intros w1 H1'. wb. eapply hcopy_st; [exact H1'|exact H2|assumption| |auto].
  intros c' X w2 HX H2'. wb. apply wp_on_throw. eapply IH; [exact H2'| |exact H5| |].
  - eapply all_in_incl; [|exact H4]. apply incl_appr, incl_refl.
  - intros es' Y w3 HY H3'. apply wp_ret. eapply HQ; [constructor; eauto|]. rewrite <- app_assoc.
    eapply st_perm; [|exact H3']. rewrite !app_assoc. apply Permutation_app_tail, Permutation_app_comm.
  - intros w3 H3'. eapply free_st; eauto.
Qed.

Definition dfown (d : hdf) (v : df) (X : list (nat * model)) : Prop :=
  hrows d = rows v /\ hindex d = index v /\ owns (helems d) (elems v) X.

Lemma hdf_copy_st L vs w d v (Q : hdf -> world -> Prop) (E : exn -> world -> Prop) : st L vs w ->
  hrows d = rows v -> hindex d = index v -> all_in (helems d) (elems v) L -> nonnull (elems v) ->
  (forall d' X w', dfown d' v X -> st (X ++ L) vs w' -> Q d' w') ->
  (forall w', st L vs w' -> E ex w') -> wp (hdf_copy ex thr d) w Q E.
Proof.
  intros H Hr Hi I N HQ HE. unfold hdf_copy. wb. eapply tick_st; [exact H| |auto]. intros w1 H1.
  wb. eapply copy_all_st; [exact H1|exact I|exact N| |auto]. intros es X w2 HX H2.
  wb. apply wp_on_throw. eapply ticks_st; [exact H2| |].
  - intros w3 H3. apply wp_ret. apply (HQ _ X); auto. split; [|split]; auto.
  - intros w3 H3. eapply free_all_st; eauto.
Qed.

Lemma hpush_all_st rc els : forall vals acc accv X L vs w (Q : list hncol * bool -> world -> Prop) (E : exn -> world -> Prop),
  owns acc accv X -> st (X ++ L) vs w -> all_in els vals L -> nonnull vals ->
  (forall acc' accv' ok X' w', push_all rc accv (map ncol_copy vals) = Ok (accv', ok) -> owns acc' accv' X' -> st (X' ++ L) vs w' -> Q (acc', ok) w') ->
  (forall w', st L vs w' -> E ex w') -> wp (hpush_all ex thr rc acc els) w Q E.
Proof.
  induction els as [|[n c] els IH]; intros vals acc accv X L vs w Q E HX H I N HQ HE; inversion I; subst; simpl.
  { apply wp_ret. eapply HQ; eauto. reflexivity. }
  destruct y as [n' v]. simpl in *. destruct H2 as [-> H2]. inversion N; subst. simpl in *.
  wb. apply wp_on_throw.
  assert (HF : forall w', st (X ++ L) vs w' -> wp (free_all acc) w' (fun _ w'' => E ex w'') (fun _ _ => False)).
  { intros w' H'. eapply free_all_st; eauto. }
  wb. eapply tick_st; [exact H| |auto]. intros w1 H1'. eapply hcopy_st; [exact H1'| |exact H3| |auto].
  { eapply col_in_incl; [|exact H2]. apply incl_appr, incl_refl. }
  intros c' Y w2 HY H2'. wb. eapply hcol_size_st; [exact H2'| |].
  { eapply own1_in; [exact HY|]. apply incl_appl, incl_refl. }
  assert (HO : owns (acc ++ [(n', c')]) (accv ++ [mkN n' v]) (X ++ Y ++ [])).
  { apply owns_app; auto. constructor; auto. constructor. }
  rewrite app_nil_r in HO.
  assert (HS : st ((X ++ Y) ++ L) vs w2).
  { eapply st_perm; [|exact H2']. rewrite !app_assoc. apply Permutation_app_tail, Permutation_app_comm. }
  assert (EC : ncol_copy {| nname := n'; ncolumn := v |} = Ok (mkN n' v)).
  { unfold ncol_copy; simpl. destruct v; [reflexivity|congruence]. }
  rewrite EC in HQ; cbn [bindO] in HQ. simpl in HQ. cbv zeta.
  destruct (Z.eqb (col_size v) rc) eqn:Es.
  - eapply IH; [exact HO|exact HS|exact H4|exact H5| |auto]. intros; eapply HQ; eauto.
  - apply wp_ret. eapply HQ; eauto.
Qed.

Lemma hbuild_index_st es : forall vals i ix L vs w (Q : list (text * Z) -> world -> Prop) (E : exn -> world -> Prop), st L vs w ->
  map fst es = map nname vals ->
  (forall ix' w', build_index vals i ix = Ok ix' -> st L vs w' -> Q ix' w') ->
  (forall e w', e = ex \/ build_index vals i ix = Throw e -> st L vs w' -> E e w') -> wp (hbuild_index ex thr es i ix) w Q E.
Proof.
  induction es as [|[n c] es IH]; intros [|[n' v] vals] i ix L vs w Q E H HN HQ HE; simpl in *; try discriminate.
  { apply wp_ret; auto. }
  inversion HN; subst. destruct (tempty n'); [eapply IH; eauto|].
  destruct (idx_find ix n'); [unfold wp, lift; auto|]. wb. eapply tick_st; [exact H| |auto].
  intros w1 H1. eapply IH; eauto.
Qed.

Lemma build_index_outcome vals : forall i ix, (exists ix', build_index vals i ix = Ok ix') \/ build_index vals i ix = Throw LogicError.
Proof.
  induction vals as [|[n v] vals IH]; intros i ix; simpl; eauto. destruct (tempty n); auto. destruct (idx_find ix n); auto.
Qed.

Lemma hctor_copy_st els vals L vs w (Q : hdf -> world -> Prop) (E : exn -> world -> Prop) : st L vs w ->
  all_in els vals L -> nonnull vals -> vals <> [] ->
  (forall d' v' X w', ctor_range vals = Ok v' -> dfown d' v' X -> st (X ++ L) vs w' -> Q d' w') ->
  (forall e w', e = ex \/ ctor_range vals = Throw e -> st L vs w' -> E e w') -> wp (hctor_copy ex thr els) w Q E.
Proof.
  intros H I N NE HQ HE. destruct els as [|[n c] els]; inversion I; subst; [congruence|]. simpl.
  destruct y as [n' v]. simpl in *. destruct H2 as [-> H2]. inversion N; subst. simpl in *.
  assert (EC : ncol_copy {| nname := n'; ncolumn := v |} = Ok (mkN n' v)).
  { unfold ncol_copy; simpl. destruct v; [reflexivity|congruence]. }
  unfold ctor_range in *. simpl in *. rewrite EC in *. cbn [bindO] in *. simpl in *.
  wb. eapply tick_st; [exact H| |auto]. intros w1 H1'. wb. eapply tick_st; [exact H1'| |auto]. intros w2 H2'.
  wb. eapply hcopy_st; [exact H2'|exact H2|assumption| |auto]. intros c' X w3 HX H3'.
  wb. eapply hcol_size_st; [exact H3'| |]. { eapply own1_in; [exact HX|]. apply incl_appl, incl_refl. }
  wb. assert (HO : owns [(n', c')] [mkN n' v] X). { rewrite <- (app_nil_r X). repeat constructor. exact HX. }
  eapply hpush_all_st; [exact HO|exact H3'|exact H4|exact H5| |auto].
  intros acc accv ok Y w4 HP HY H4'. wb. apply wp_on_throw. rewrite HP in *. cbn [bindO] in *. simpl in *.
  assert (HF : forall e w', e = ex \/ (if ok then bindO (build_index accv 0 []) (fun ix => Ok (mkDf (col_size v) accv ix)) else Throw LogicError) = Throw e ->
     st (Y ++ L) vs w' -> wp (free_all acc) w' (fun _ w'' => E e w'') (fun _ _ => False)).
  { intros e w' He H'. eapply free_all_st; eauto. }
  destruct ok.
  - eapply hbuild_index_st; [exact H4'|eapply owns_names; eauto| |].
    + intros ix w5 Ei H6. apply wp_ret. eapply HQ; [rewrite Ei; reflexivity| |exact H6]. split; [|split]; auto.
    + intros e w5 He H6. apply HF; auto. destruct He as [->|He]; auto. right. rewrite He; reflexivity.
  - unfold wp at 1, lift. apply HF; auto.
Qed.

Lemma hctor_list_st els vals L vs w (Q : hdf -> world -> Prop) (E : exn -> world -> Prop) : st L vs w ->
  all_in els vals L -> nonnull vals -> vals <> [] ->
  (forall d' v' X w', ctor_range vals = Ok v' -> dfown d' v' X -> st (X ++ L) vs w' -> Q d' w') ->
  (forall e w', e = ex \/ ctor_range vals = Throw e -> st L vs w' -> E e w') -> wp (hctor_list ex thr els) w Q E.
Proof.
  intros H I N NE HQ HE. unfold hctor_list. wb. eapply copy_all_st; [exact H|exact I|exact N| |auto].
  intros tmp X w1 HX H1. wb. apply wp_on_throw. eapply hctor_copy_st; [exact H1| |exact N|exact NE| |].
  - eapply owns_in; [exact HX|]. apply incl_appl, incl_refl.
  - intros d' v' Y w2 Ev HY H2. wb. eapply (free_all_st tmp vals X (Y ++ L)); [exact HX| |].
    + eapply st_perm; [|exact H2]. rewrite !app_assoc. apply Permutation_app_tail, Permutation_app_comm.
    + intros w3 H3. apply wp_ret. eapply HQ; eauto.
  - intros e w2 He H2. eapply free_all_st; eauto.
Qed.
End P.
