(** * ColHeapThms: programs over columns and dataframes. *)

From Coq Require Import ZArith Bool Ascii List Lia Permutation.
From Verif Require Import Base Coerce Frame FrameSpec FrameProofs ColHeap ColHeapSpec ColHeapProofs ColHeapProofs2 ColHeapProofs3 ColHeapFrame.
Import ListNotations.
Open Scope list_scope.
Open Scope nat_scope.
Notation ogood := ColHeapProofs.good.

(** *** reading the invariant *)
Lemma own1_value h L c v X : heap_is h L -> own1 c v = Some X -> incl X L -> col_value h c = Some v /\ col_blocks c = map fst X.
Proof.
  intros [_ H] E I. destruct c as [b|], v as [m|]; inversion E; subst; simpl in *; auto.
  split; auto. rewrite (proj1 (H b m)); auto. apply I; now left.
Qed.
Lemma owns_value h L es vals X : heap_is h L -> owns es vals X -> incl X L ->
  elems_value h es = Some vals /\ flat_map (fun nc => col_blocks (snd nc)) es = map fst X.
Proof.
  intros HL. induction 1; intros I; simpl; auto.
  destruct (own1_value h L c v X HL H) as [E1 E2]. { intros x Hx; apply I, in_or_app; auto. }
  destruct IHowns as [E3 E4]. { intros x Hx; apply I, in_or_app; auto. }
  rewrite E1, E2, E3, E4, map_app. auto.
Qed.
Lemma vown_value h L hv v X : heap_is h L -> vown hv v X -> incl X L -> value_of h hv = Some v /\ blocks_of hv = map fst X.
Proof.
  intros HL H I. destruct H as [c v X H|d v X (H1 & H2 & H3)|]; simpl; auto.
  - destruct (own1_value _ _ _ _ _ HL H I) as [-> E]. auto.
  - destruct (owns_value _ _ _ _ _ HL H3 I) as [-> E]. rewrite H1, H2. destruct v; auto.
Qed.
Lemma vsown_value h L vs a X : heap_is h L -> vsown vs a X -> incl X L ->
  map (value_of h) vs = map Some a /\ flat_map blocks_of vs = map fst X.
Proof.
  intros HL. induction 1; intros I; simpl; auto.
  destruct (vown_value h L hv v X HL H) as [E1 E2]. { intros x Hx; apply I, in_or_app; auto. }
  destruct IHvsown as [E3 E4]. { intros x Hx; apply I, in_or_app; auto. }
  rewrite E1, E2, E3, E4, map_app. auto.
Qed.
Definition owned (w : world) : list nat := flat_map blocks_of (hvars w).
Lemma inv_reads a w : Inv a w ->
  agrees a w /\ NoDup (owned w) /\ forall b, In b (owned w) <-> exists m, nth_error (hmem w) b = Some (Some m).
Proof.
  intros (L & HL & HV). destruct (vsown_value _ _ _ _ _ HL HV (incl_refl _)) as [E1 E2]. unfold agrees, owned. rewrite E2.
  split; auto. destruct HL as [H1 H2]. split; auto. intros b. rewrite in_map_iff. split.
  - intros ([b' m] & <- & I). exists m. now apply H2.
  - intros (m & Hm). exists (b, m). split; auto. now apply H2.
Qed.
Lemma map_Some_inj {A} (l l' : list A) : map Some l = map Some l' -> l = l'.
Proof. revert l'; induction l; intros [|y l'] E; simpl in E; inversion E; f_equal; auto. Qed.
Lemma agrees_inj a a' w : agrees a w -> agrees a' w -> a = a'.
Proof. unfold agrees. intros H1 H2. apply map_Some_inj. congruence. Qed.

Lemma inv_init : Inv [] kinit.
Proof. exists []. split; [split; [constructor|]|constructor]. intros b m; split; [contradiction|destruct b; discriminate]. Qed.

Section T.
Variable rs : rules.
Variable ex : exn.
Variable thr : nat -> bool.

Lemma defined_good c a : defined rs c a -> ogood (snd (aexec rs c a)).
Proof. intros [E|[e E]]; rewrite E; exact I. Qed.

Definition explained (c : cop) (a : avals) (w : world) (r : outcome unit) (a1 : avals) (w1 : world) : Prop :=
  aexec rs c a = (a1, r) \/ r = Throw ex /\ afail c a a1 /\ fails_between thr w w1.

Lemma other_exn (e : exn) : exists e', e' <> e.
Proof. destruct e; first [now exists LogicError|now exists OutOfRange]. Qed.

Lemma range_dec n m : (exists k, n <= k < m /\ thr k = true) \/ (forall k, n <= k < m -> thr k = false).
Proof.
  induction m as [|m IH]. { right; intros; lia. }
  destruct IH as [(k & H1 & H2)|H]; [left; exists k; split; auto; lia|].
  destruct (thr m) eqn:E; [|right; intros k Hk; destruct (Nat.eq_dec k m); [congruence|apply H; lia]].
  destruct (Nat.le_gt_cases n m); [left; exists m; split; auto; lia|right; intros; lia].
Qed.

Lemma step_inv c a w : Inv a w -> defined rs c a ->
  exists r w1 a1, kexec rs ex thr c w = (r, w1) /\ (r = Ok tt \/ exists e, r = Throw e) /\ Inv a1 w1 /\ explained c a w r a1 w1.
Proof.
  intros HI HD. pose proof (defined_good _ _ HD) as G.
  pose proof (kexec_sound rs ex thr c a w HI G) as HW. unfold wp in HW.
  destruct (kexec rs ex thr c w) as [[[]|e| | |] w1] eqn:Ek; try contradiction.
  - destruct HW as (a1 & E1 & I1). exists (Ok tt), w1, a1. repeat split; auto. now left.
  - destruct HW as (a1 & S1 & I1). exists (Throw e), w1, a1. repeat split; eauto.
    destruct S1 as [[E1 _]|[E1 F1]]; [now left|]. inversion E1; subst e.
    destruct (range_dec (hclock w) (hclock w1)) as [HF|HF]; [right; auto|left].
    (* no failure: the same execution with another exception *)
    destruct (local_exec rs c ex thr w _ _ Ek) as [_ HL].
    destruct (other_exn ex) as [ex' Hne].
    pose proof (HL ex' (fun _ => false)) as Ek'. rewrite <- Ek' in Ek by auto. clear Ek.
    pose proof (kexec_sound rs ex' (fun _ => false) c a w HI G) as HW'. unfold wp in HW'. rewrite Ek' in HW' by auto.
    destruct HW' as (a2 & S2 & I2). destruct S2 as [[E2 _]|[E2 _]]; [|congruence].
    rewrite E2. f_equal. eapply agrees_inj; [exact (proj1 (inv_reads _ _ I2))|exact (proj1 (inv_reads _ _ I1))].
Qed.

Lemma kreach_inv ok w : kreach rs ex thr ok w -> exists a, Inv a w.
Proof.
  induction 1 as [|w a c r w1 H IH HA HD Hok Hk]. { exists []. apply inv_init. }
  destruct IH as (a' & HI). assert (a = a') by (eapply agrees_inj; [exact HA|exact (proj1 (inv_reads _ _ HI))]). subst a'.
  destruct (step_inv c a w HI HD) as (r' & w' & a1 & E1 & _ & I1 & _). rewrite E1 in Hk. inversion Hk; subst. eauto.
Qed.

(** Programs. *)
Lemma krun_ok cs : forall a w, Inv a w -> meaningful rs ex cs a ->
  exists w' a', krun rs ex thr cs w = (Ok tt, w') /\ Inv a' w'.
Proof.
  induction cs as [|c cs IH]; intros a w HI HM; simpl in *. { eauto. }
  destruct HM as [HD HM]. destruct (step_inv c a w HI HD) as (r & w1 & a1 & E1 & Hr & I1 & HE). rewrite E1.
  assert (HS : astep rs ex c a r a1).
  { destruct HE as [E|(-> & F & _)]; [left; split; auto|right; auto]. }
  destruct (IH a1 w1 I1 (HM _ _ HS)) as (w' & a' & E' & I'). exists w', a'. split; auto.
  destruct Hr as [->|[e ->]]; auto.
Qed.

(** The operations that release a model. *)
Lemma free_dead b w w' : free (Some b) w = (Ok tt, w') -> nth_error (hmem w') b = Some None.
Proof.
  simpl. destruct (nth_error (hmem w) b) as [[m|]|] eqn:E; intros H; inversion H; subst; simpl.
  apply nth_upd_eq. apply nth_error_Some. congruence.
Qed.
End T.
