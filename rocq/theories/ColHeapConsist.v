(** * ColHeapConsist: dataframes stay consistent, and what is left of one when bind fails. *)

From Coq Require Import ZArith Bool Ascii List Lia.
From Verif Require Import Base Coerce Frame FrameSpec FrameProofs ColHeap ColHeapSpec ColHeapProofs ColHeapProofs3 ColHeapThms.
Import ListNotations.
Open Scope list_scope.
Open Scope nat_scope.
Notation fgood := FrameProofs.good.

Lemma consistent_good d : consistent d <-> fgood d.
Proof.
  split.
  - intros (H1 & H2 & H3). destruct (lookup_inv _ H2). constructor; auto.
  - intros G. split; [apply G|split; [now apply good_lookup|apply G]].
Qed.

Lemma all_set P a x d : all_frames P a -> P d -> all_frames P (setf a x d).
Proof.
  intros H Hd y d' E. unfold setf in E. destruct (Nat.eq_dec x y) as [->|Hne].
  - destruct (nth_error a y) eqn:Ey.
    + erewrite nth_upd_eq in E; [now inversion E; subst|]. apply nth_error_Some. congruence.
    + assert (nth_error (upd_nat a y (AF d)) y = None). { apply nth_error_None. rewrite upd_len. now apply nth_error_None. } congruence.
  - rewrite nth_upd_ne in E by auto. eauto.
Qed.
Lemma all_upd P a x v : all_frames P a -> (forall d, v <> AF d) -> all_frames P (upd_nat a x v).
Proof.
  intros H Hd y d' E. destruct (Nat.eq_dec x y) as [->|Hne].
  - destruct (nth_error a y) eqn:Ey.
    + erewrite nth_upd_eq in E; [inversion E; subst; congruence|]. apply nth_error_Some. congruence.
    + assert (nth_error (upd_nat a y v) y = None). { apply nth_error_None. rewrite upd_len. now apply nth_error_None. } congruence.
  - rewrite nth_upd_ne in E by auto. eauto.
Qed.
Lemma all_setc P a x c : all_frames P a -> all_frames P (setc a x c).
Proof. intros H. apply all_upd; auto. congruence. Qed.
Lemma all_addf P a d : all_frames P a -> P d -> all_frames P (addf a d).
Proof.
  intros H Hd y d' E. unfold addf in E. destruct (Nat.lt_ge_cases y (length a)).
  - rewrite nth_error_app1 in E by auto. eauto.
  - rewrite nth_error_app2 in E by auto. destruct (y - length a) as [|n]; simpl in E; [congruence|destruct n; discriminate].
Qed.
Lemma all_addc P a c : all_frames P a -> all_frames P (addc a c).
Proof.
  intros H y d' E. unfold addc in E. destruct (Nat.lt_ge_cases y (length a)).
  - rewrite nth_error_app1 in E by auto. eauto.
  - rewrite nth_error_app2 in E by auto. destruct (y - length a) as [|n]; simpl in E; [congruence|destruct n; discriminate].
Qed.
Lemma all_adf P a x d : all_frames P a -> adf a x = Some d -> P d.
Proof. intros H E. apply adf_nth in E. eauto. Qed.

(** Preservation for a property of dataframes. *)
Section Keep.
Variable rs : rules.
Variable P : df -> Prop.
Hypothesis P_default : P df_default.
Hypothesis P_moved : forall d, P (mkDf (rows d) [] []).
Hypothesis P_named : forall d n s d' r, P d -> bind d (ctor_named (mkN n s)) = (d', r) -> P d'.
Hypothesis P_bind : forall d o d' r, P d -> P o -> bind d o = (d', r) -> P d'.

Lemma fin_cases {A} a (o : outcome A) f a1 r : fin a o f = (a1, r) -> a1 = a \/ exists v, o = Ok v /\ a1 = f v.
Proof. destruct o; simpl; intros E; inversion E; subst; eauto. Qed.

Lemma aexec_keeps c a a1 r :
  (forall l cs d, c = FList l -> acols a l = Some cs -> ctor_range cs = Ok d -> P d) ->
  all_frames P a -> aexec rs c a = (a1, r) -> all_frames P a1.
Proof.
  intros HC HA E. destruct c; simpl in E.
  - inversion E; subst. now apply all_addc.
  - inversion E; subst. now apply all_addc.
  - destruct (acol a y); [|inversion E; subst; auto]. apply fin_cases in E. destruct E as [->|(v & _ & ->)]; auto. now apply all_addc.
  - destruct (acol a y); [|inversion E; subst; auto]. apply fin_cases in E. destruct E as [->|(v & _ & ->)]; auto. now apply all_addc.
  - destruct (acol a y); inversion E; subst; auto. now apply all_addc, all_setc.
  - destruct (acol a x), (acol a y); inversion E; subst; auto. now apply all_setc.
  - destruct (acol a x), (acol a y); inversion E; subst; auto. destruct (Nat.eqb x y); auto. now apply all_setc, all_setc.
  - destruct (acol a x) as [s|]; [|inversion E; subst; auto]. destruct (col_coerce rs t s) as [s' o]. inversion E; subst. now apply all_setc.
  - destruct (acol a y); [|inversion E; subst; auto]. apply fin_cases in E. destruct E as [->|(v & _ & ->)]; auto. now apply all_addc.
  - destruct (acol a y) as [s|]; [|inversion E; subst; auto]. destruct (to_column_move rs t s) as [s' o].
    apply fin_cases in E. destruct E as [->|(v & _ & ->)]; [now apply all_setc|]. now apply all_addc, all_setc.
  - destruct (acol a x) as [s|]; [|inversion E; subst; auto]. destruct (to_view rs t s) as [s' o].
    apply fin_cases in E. destruct E as [->|(v & _ & ->)]; now apply all_setc.
  - destruct (acol a x) as [s|]; [|inversion E; subst; auto]. apply fin_cases in E. destruct E as [->|(v' & _ & ->)]; auto. now apply all_setc.
  - destruct (nth_error a x) as [[]|]; inversion E; subst; auto; apply all_upd; auto; congruence.
  - inversion E; subst. now apply all_addf.
  - destruct (acols a l) as [cs|] eqn:El; [|inversion E; subst; auto]. apply fin_cases in E.
    destruct E as [->|(v & Ev & ->)]; auto. destruct (copy_nonnull cs) as [[Ec _]|Ec]; rewrite Ec in Ev; [|discriminate].
    cbn [bindO] in Ev. apply all_addf; auto. eapply HC; eauto.
  - destruct (adf a g) as [d|] eqn:Eg; [|inversion E; subst; auto]. apply fin_cases in E. destruct E as [->|(v & Ev & ->)]; auto.
    apply all_addf; auto. destruct (df_copy_ok d) as [[Ec _]|Ec]; rewrite Ec in Ev; inversion Ev; subst. eapply all_adf; eauto.
  - destruct (adf a g) as [d|] eqn:Eg; [|inversion E; subst; auto]. inversion E; subst. apply all_addf; [apply all_set; auto|]. eapply all_adf; eauto.
  - destruct (adf a f) as [d|] eqn:Ef, (adf a g) as [s|] eqn:Eg; try (inversion E; subst; auto; fail).
    destruct (Nat.eqb f g); [inversion E; subst; auto|]. apply fin_cases in E. destruct E as [->|(v & Ev & ->)]; auto.
    apply df_assign_Ok in Ev. subst. apply all_set; auto. eapply all_adf; eauto.
  - destruct (adf a f) as [d|] eqn:Ef, (adf a g) as [s|] eqn:Eg; try (inversion E; subst; auto; fail).
    destruct (Nat.eqb f g); inversion E; subst; auto. apply all_set; [apply all_set; auto|]. simpl. eapply all_adf; eauto.
  - destruct (adf a f) as [d|] eqn:Ef, (adf a g) as [s|] eqn:Eg; try (inversion E; subst; auto; fail).
    destruct (df_copy_ok s) as [[Ec _]|Ec]; rewrite Ec in E; [|inversion E; subst; auto].
    destruct (bind d s) as [d' r'] eqn:Eb. inversion E; subst. apply all_set; auto.
    eapply P_bind; [eapply all_adf; [exact HA|exact Ef]|eapply all_adf; [exact HA|exact Eg]|exact Eb].
  - destruct (adf a f) as [d|] eqn:Ef, (adf a g) as [s|] eqn:Eg; try (inversion E; subst; auto; fail).
    assert (HA1 : all_frames P (setf a g (mkDf (rows s) [] []))) by (apply all_set; auto).
    destruct (adf (setf a g (mkDf (rows s) [] [])) f) as [d'|] eqn:Ef'; [|inversion E; subst; auto].
    destruct (bind d' s) as [d2 r'] eqn:Eb. inversion E; subst. apply all_set; auto.
    eapply P_bind; [| |exact Eb]; [eapply all_adf; [exact HA1|exact Ef']|eapply all_adf; [exact HA|exact Eg]].
  - destruct (adf a f) as [d|] eqn:Ef, (acol a x) as [s|] eqn:Ex; try (inversion E; subst; auto; fail).
    destruct (bind d (ctor_named (mkN n s))) as [d2 r'] eqn:Eb. inversion E; subst. apply all_set; [now apply all_setc|].
    eapply P_named; [|exact Eb]. eapply all_adf; eauto.
  - destruct (adf a g) as [d|] eqn:Eg; [|inversion E; subst; auto]. apply fin_cases in E. destruct E as [->|(v & Ev & ->)]; auto. now apply all_addc.
Qed.
End Keep.

Lemma acols_names a l : forall cs, acols a l = Some cs -> map nname cs = map fst l.
Proof.
  induction l as [|[n x] l IH]; intros cs E; simpl in E; [now inversion E|].
  destruct (acol a x); [|discriminate]. destruct (acols a l) as [r|]; inversion E; subst. simpl. f_equal; auto.
Qed.

Lemma good_moved d : fgood (mkDf (rows d) [] []).
Proof. constructor; simpl; [constructor|intros n v; discriminate|intros n ? []|apply unique_nil]. Qed.
Lemma unique_firstn k l : unique_names l -> unique_names (firstn k l).
Proof. intros H. rewrite <- (firstn_skipn k l) in H. now apply unique_app in H. Qed.
Lemma ctor_range_good cs d : named_first (map nname cs) -> ctor_range cs = Ok d -> fgood d.
Proof.
  intros HN E. pose proof (ctor_range_Ok _ _ E) as HE. unfold ctor_range in E. destruct (ctor_from_Ok _ _ E) as (_ & H1 & H2 & H3 & _ & _ & H4 & _).
  constructor; auto. apply H4. unfold names. now rewrite HE.
Qed.

Lemma aexec_consistent rs c a a1 r :
  (forall l, c = FList l -> named_first (map fst l)) -> all_frames consistent a -> aexec rs c a = (a1, r) -> all_frames consistent a1.
Proof.
  intros HN. apply aexec_keeps.
  - apply consistent_good, good_default.
  - intros d. apply consistent_good, good_moved.
  - intros d n s d' r' H E. apply consistent_good. apply consistent_good in H. eapply FrameProofs.bind_good; [exact H| | |exact E].
    + apply ctor_named_rect.
    + apply unique_one.
  - intros d o d' r' H HO E. apply consistent_good. apply consistent_good in H, HO. eapply FrameProofs.bind_good; [exact H| | |exact E]; apply HO.
  - intros l cs d -> El Ed. apply consistent_good. eapply ctor_range_good; [|exact Ed]. rewrite (acols_names _ _ _ El). auto.
Qed.
Lemma aexec_rect rs c a a1 r : all_frames rect a -> aexec rs c a = (a1, r) -> all_frames rect a1.
Proof.
  apply aexec_keeps.
  - constructor.
  - intros d. constructor.
  - intros d n s d' r' H E. eapply bind_rect; [exact H| |exact E]. apply ctor_named_rect.
  - intros d o d' r' H HO E. eapply bind_rect; [exact H|exact HO|exact E].
  - intros l cs d _ El Ed. unfold ctor_range in Ed. now apply ctor_from_Ok in Ed.
Qed.

(** *** a failing bind *)
Definition prefix (k : nat) (o : df) : df := mkDf (rows o) (firstn k (elems o)) (index o).

Lemma bind_prefix d o k : snd (bind d o) = Ok tt -> exists d1, bind d (prefix k o) = (d1, Ok tt) /\
  bind_stop k false d o = d1 /\
  forall entry, bind_stop k entry d o = match nth_error (elems o) k with
     | Some nc => if entry && negb (tempty (nname nc)) then mkDf (rows d1) (elems d1) (idx_set (index d1) (nname nc) (column_count d1)) else d1
     | None => d1 end.
Proof.
  intros E. unfold bind in E.
  destruct (existsb _ (names o)) eqn:Ex in E; [discriminate|].
  assert (Ex' : forall g, existsb g (names o) = false -> existsb g (names (prefix k o)) = false).
  { intros g Hg. apply not_true_is_false. intros Ht. apply existsb_exists in Ht. destruct Ht as (n & Hn & Hg').
    assert (existsb g (names o) = true); [|congruence]. apply existsb_exists. exists n. split; auto.
    unfold names, prefix in *; simpl in Hn. rewrite <- (firstn_skipn k (elems o)), map_app. apply in_or_app; auto. }
  exists (bind_loop (firstn k (elems o)) (if df_bool d then d else mkDf (rows o) (elems d) (index d))).
  split; [|split].
  - unfold bind. rewrite (Ex' _ Ex). destruct (df_bool d).
    + simpl. destruct (Z.eqb (rows d) (rows o)); [reflexivity|discriminate].
    + reflexivity.
  - unfold bind_stop. destruct (nth_error (elems o) k); reflexivity.
  - intros entry. unfold bind_stop. reflexivity.
Qed.

Lemma prefix_rect k o : rect o -> rect (prefix k o).
Proof. unfold rect, prefix; simpl. intros H. rewrite <- (firstn_skipn k (elems o)) in H. now apply Forall_app in H. Qed.
Lemma prefix_unique k o : unique_names (names o) -> unique_names (names (prefix k o)).
Proof. unfold names, prefix; simpl. intros H. rewrite <- firstn_map. now apply unique_firstn. Qed.

(** What is left of [d] when [d.bind(other)] fails. *)
Lemma bind_failed_spec d o d' : consistent d -> rect o -> unique_names (names o) -> bind_failed d o d' ->
  rect d' /\ unique_names (names d') /\
  (exists k, elems d' = elems d ++ firstn k (elems o)) /\
  (forall n, n <> [] -> In n (names d') -> exists nc, at_name d' n = Ok nc /\ In nc (elems d') /\ nname nc = n) /\
  (forall n, ~ In n (names d') -> at_name d' n = Throw LogicError \/ n <> [] /\ In n (names o) /\ at_name d' n = UB) /\
  at_name d' [] = Throw LogicError.
Proof.
  intros HC HR HU HF. destruct HF as [->|(HB & k & entry & Hk & ->)].
  - destruct HC as (H1 & H2 & H3). split; [auto|split; [auto|split; [|split; [|split]]]].
    + exists 0. rewrite firstn_O, app_nil_r. reflexivity.
    + intros n Hn Hi. destruct (H2 n) as (L1 & L2 & _). destruct (L2 Hn Hi) as (nc & E). exists nc. split; auto. destruct (L1 _ E) as (? & ? & _); auto.
    + intros n Hn. left. apply H2. auto.
    + apply H2. auto.
  - destruct (bind_prefix d o k HB) as (d1 & E1 & E2 & E3). rewrite E3. clear E2 E3.
    assert (G1 : fgood d1).
    { eapply FrameProofs.bind_good; [apply consistent_good; exact HC|apply prefix_rect; exact HR|apply prefix_unique; exact HU|exact E1]. }
    destruct (bind_Ok_elems _ _ _ E1) as (EE & ER & _). simpl in EE, ER.
    pose proof (good_lookup _ G1) as LK.
    destruct (nth_error (elems o) k) as [nc|] eqn:En; [|apply nth_error_None in En; lia].
    destruct (entry && negb (tempty (nname nc))) eqn:Ee.
    2:{ split; [apply G1|split; [apply G1|split; [eauto|split; [|split]]]].
        - intros n Hn Hi. destruct (LK n) as (L1 & L2 & _). destruct (L2 Hn Hi) as (x & E). exists x. split; auto. destruct (L1 _ E) as (? & ? & _); auto.
        - intros n Hn. left. apply LK. auto.
        - apply LK. auto. }
    apply andb_true_iff in Ee. destruct Ee as [_ Ee]. apply negb_true_iff in Ee. apply tempty_false in Ee.
    set (d2 := mkDf (rows d1) (elems d1) (idx_set (index d1) (nname nc) (column_count d1))).
    assert (Hnot : ~ In (nname nc) (names d1)).
    { unfold names. rewrite EE, map_app. intros Hi. apply in_app_or in Hi. destruct Hi as [Hi|Hi].
      - destruct (bind d o) as [db rb] eqn:Eb. simpl in HB. subst rb.
        destruct (bind_Ok_elems _ _ _ Eb) as (_ & _ & EC). apply consistent_good in HC.
        assert (clash d o = true); [|congruence]. apply clash_true. exists (nname nc). split; [exact Ee|split].
        + unfold names. apply in_map. eapply nth_error_In; eauto.
        + apply (g_covers d HC); auto.
      - apply In_nth_error in Hi. destruct Hi as [j Hj].
        assert (Hjk : j < k). { assert (j < length (map nname (firstn k (elems o)))) by (apply nth_error_Some; congruence). rewrite map_length, firstn_length in H. lia. }
        assert (j = k); [|lia]. apply (HU j k (nname nc)); auto.
        + unfold names. rewrite <- (firstn_skipn k (elems o)), map_app. rewrite nth_error_app1; auto. rewrite map_length, firstn_length. lia.
        + unfold names. now apply map_nth_error. }
    assert (Hat : forall n, n <> nname nc -> at_name d2 n = at_name d1 n).
    { intros n Hn. unfold at_name, d2; simpl. rewrite find_set_other by auto. reflexivity. }
    split; [exact (g_rect d1 G1)|split; [exact (g_unique d1 G1)|split; [exists k; exact EE|split; [|split]]]].
    + intros n Hn Hi. change (In n (names d1)) in Hi. rewrite Hat by congruence.
      destruct (LK n) as (L1 & L2 & _). destruct (L2 Hn Hi) as (x & E). exists x. split; auto. destruct (L1 _ E) as (? & ? & _); auto.
    + intros n Hn. change (~ In n (names d1)) in Hn. destruct (text_dec n (nname nc)) as [->|Hne].
      * right. split; [exact Ee|]. split; [unfold names; apply in_map; eapply nth_error_In; eauto|].
        unfold at_name, d2; simpl. rewrite find_set_same. unfold get, column_count. rewrite Z.ltb_irrefl, andb_false_r. reflexivity.
      * left. rewrite Hat by auto. apply LK. auto.
    + rewrite Hat by auto. apply LK. auto.
Qed.
Lemma bind_failed_rect d o d' : rect d -> rect o -> bind_failed d o d' -> rect d'.
Proof.
  intros H1 H2 [->|(HB & k & entry & Hk & ->)]; auto. destruct (bind_prefix d o k HB) as (d1 & E1 & _ & E3). rewrite E3.
  assert (rect d1) by (eapply bind_rect; [exact H1|apply prefix_rect; exact H2|exact E1]).
  destruct (nth_error (elems o) k); [|assumption]. destruct (entry && _); assumption.
Qed.

Lemma afail_rect c a a1 : all_frames rect a -> afail c a a1 -> (forall cap keep f g, c <> FAssign cap keep f g) -> all_frames rect a1.
Proof.
  intros HA HF HN. destruct c; simpl in HF; try contradiction; try (subst; assumption).
  - exfalso. eapply HN; reflexivity.
  - destruct HF as (d & s & d' & E1 & E2 & HB & ->). apply all_set; auto. eapply bind_failed_rect; [eapply all_adf; [exact HA|exact E1]|eapply all_adf; [exact HA|exact E2]|exact HB].
  - destruct HF as (s & d & d' & E1 & E2 & HB & ->).
    assert (HA1 : all_frames rect (setf a g (mkDf (rows s) [] []))) by (apply all_set; auto; constructor).
    apply all_set; auto. eapply bind_failed_rect; [| |exact HB]; [eapply all_adf; [exact HA1|exact E2]|eapply all_adf; [exact HA|exact E1]].
  - destruct HF as (d & s & E1 & E2 & [->|(d' & HB & ->)]); auto. apply all_set; [now apply all_setc|].
    eapply bind_failed_rect; [| |exact HB]; [eapply all_adf; [exact HA|exact E1]|apply ctor_named_rect].
Qed.
Lemma afail_consistent ex c a a1 r : careful ex c a r -> r = Throw ex -> all_frames consistent a -> afail c a a1 -> all_frames consistent a1.
Proof. intros HC -> HA HF. destruct c; simpl in *; try contradiction; try (subst; assumption); congruence. Qed.

Lemma reach_frames_rect rs ex thr w : kreach rs ex thr (no_failed_assignment ex) w ->
  forall a, agrees a w -> all_frames rect a.
Proof.
  intros H. induction H as [|w a c r w1 H IH HA HD Hok Hk].
  { intros a E. destruct a; [intros [|x] d; discriminate|discriminate]. }
  intros a1 HA1. destruct (kreach_inv _ _ _ _ _ H) as (a' & HI).
  assert (a = a') by (eapply agrees_inj; [exact HA|exact (proj1 (inv_reads _ _ HI))]). subst a'.
  destruct (step_inv rs ex thr c a w HI HD) as (r' & w' & a2 & E1 & _ & I1 & EX). rewrite E1 in Hk. inversion Hk; subst.
  assert (a1 = a2) by (eapply agrees_inj; [exact HA1|exact (proj1 (inv_reads _ _ I1))]). subst a2.
  destruct EX as [EX|(-> & F & _)]; [eapply aexec_rect; [exact (IH _ HA)|exact EX]|].
  eapply afail_rect; [exact (IH _ HA)|exact F|]. intros cap keep f g ->. now apply Hok.
Qed.
Lemma reach_frames_consistent rs ex thr w : kreach rs ex thr (careful ex) w ->
  forall a, agrees a w -> all_frames consistent a.
Proof.
  intros H. induction H as [|w a c r w1 H IH HA HD Hok Hk].
  { intros a E. destruct a; [intros [|x] d; discriminate|discriminate]. }
  intros a1 HA1. destruct (kreach_inv _ _ _ _ _ H) as (a' & HI).
  assert (a = a') by (eapply agrees_inj; [exact HA|exact (proj1 (inv_reads _ _ HI))]). subst a'.
  destruct (step_inv rs ex thr c a w HI HD) as (r' & w' & a2 & E1 & _ & I1 & EX). rewrite E1 in Hk. inversion Hk; subst.
  assert (a1 = a2) by (eapply agrees_inj; [exact HA1|exact (proj1 (inv_reads _ _ I1))]). subst a2.
  destruct EX as [EX|(-> & F & _)].
  - eapply aexec_consistent; [|exact (IH _ HA)|exact EX]. intros l ->. exact Hok.
  - eapply afail_consistent; [exact Hok|reflexivity|exact (IH _ HA)|exact F].
Qed.
